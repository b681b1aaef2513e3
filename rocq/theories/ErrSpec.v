(** Which errors Compile should report (C59). *)
From Verif Require Import Bytes Utf8 Source Lexer Ast Parser Printer Transformer Resolver Compile CompileSpec.

Section WithProject.
Context {U : UnicodeDigits} {FO : FloatOps}.
Variable P : project.

(** [file] is an entry or what an @import of an involved file resolves to. *)
Definition requested (file : bytes) : Prop :=
  In file (p_entries P) \/ exists f spec, involved P f /\ imports P f spec /\ p_resolve P spec (fpDir f) = Some file.
Definition syntaxError (f : bytes) (sp : span) (msg : bytes) : Prop := exists content n lines,
  p_read P f = Some content /\ parse 0 n content = ParseErr sp msg lines.
(** Transform on the file at [f] alone. *)
Definition transformsTo (f : bytes) (nds : list node) (rs : list report) : Prop := exists content n m ss lines ss' t,
  p_read P f = Some content /\ parse 0 n content = ParseOk ss lines /\ transform (p_opts P) None m ss = TOk ss' t /\
  nds = ss_nodes ss' /\ rs = t_reports t.
Definition names (g : glob) (s : sref) (f : bytes) : Prop := exists src, nth_error (g_srcs g) s = Some src /\ src_path src = f.
(** The error is one of the project. *)
Definition genuine (g : glob) (e : cerror) : Prop :=
  match e with
  | EAbs file => requested file /\ p_abs P file = None
  | ERead file => requested file /\ exists a, p_abs P file = Some a /\ p_read P a = None
  | EParse s sp msg => exists f, names g s f /\ involved P f /\ syntaxError f sp msg
  | EResolve spec => exists f, involved P f /\ imports P f spec /\ p_resolve P spec (fpDir f) = None
  | ETransform s r => exists f nds rs, names g s f /\ involved P f /\ transformsTo f nds rs /\ In r rs
  | EPrint f => involved P f /\ exists f' nds rs src, involved P f' /\ transformsTo f' nds rs /\ print (Some src) nds = None
  end.

(** What is asked for in every execution: the last entry and, from a file asked
    for, its last @import. *)
Definition lastImport (a spec : bytes) : Prop := exists content n ss lines l at_,
  p_read P a = Some content /\ parse 0 n content = ParseOk ss lines /\ ss_imports ss = l ++ [(spec, at_)].
Inductive asked : bytes -> Prop :=
| askedEntry l e : p_entries P = l ++ [e] -> asked e
| askedImport file a spec rel : asked file -> p_abs P file = Some a -> lastImport a spec -> p_resolve P spec (fpDir a) = Some rel -> asked rel.
(** No involved file has two @imports. *)
Definition atMostOne : Prop := forall f, involved P f -> forall content run n ss lines,
  p_read P f = Some content -> parse run n content = ParseOk ss lines -> (length (ss_imports ss) <= 1)%nat.
(** Everything wrong with [file] itself is reported. *)
Definition reported (g : glob) (file : bytes) : Prop :=
  (p_abs P file = None -> In (EAbs file) (g_errors g)) /\
  forall a, p_abs P file = Some a ->
    (p_read P a = None -> In (ERead file) (g_errors g)) /\
    (forall sp msg, syntaxError a sp msg -> exists s, names g s a /\ In (EParse s sp msg) (g_errors g)) /\
    (forall spec, lastImport a spec -> p_resolve P spec (fpDir a) = None -> In (EResolve spec) (g_errors g)) /\
    (forall nds rs r, transformsTo a nds rs -> In r rs -> exists s, names g s a /\ In (ETransform s r) (g_errors g)).
End WithProject.
