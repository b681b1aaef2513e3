(** Stylesheets that a second pass of the transformer leaves alone. *)
From Verif Require Import Bytes Utf8 Source Lexer Ast Parser Printer Transformer TransSpec Resolver Compile CompileSpec InlineSpec.

Section Settled.
Variable o : topts.
(** Nothing to compute at the top of the value: no calc() and no var() with a
    fallback, as far as these are transformed. *)
Definition fixedValue (v : value) : Prop :=
  match v with
  | VFunc _ name args => (o_calc o = true -> name <> B "calc") /\ (o_props o = true -> name = B "var" -> (length args <= 2)%nat)
  | _ => True
  end.
(** One pass is enough for the value: calc() without var(), or var() with such a
    fallback. *)
Definition settledValue (v : value) : Prop :=
  fixedValue v \/
  match v with
  | VFunc _ name args => name = B "calc" /\ varFree v \/ name = B "var" /\ Forall fixedValue (skipn 2 args)
  | _ => False
  end.
Definition settledDecl (d : decl) : Prop :=
  match d with
  | DDecl _ prop vs _ => if hasPrefix (B "--") prop then Forall fixedValue vs else Forall settledValue vs
  | DRaw _ _ => True
  end.
(** Definitions of media queries contain no range. *)
Definition fixedPart (p : mqpart) : Prop := match p with MRange _ _ _ _ _ _ => o_ranges o = false | _ => True end.
Definition settledNode (nd : node) : Prop :=
  match nd with
  | NRule r => Forall settledDecl (r_decls r)
  | NAt a => ar_name a = B "custom-media" -> forall q, In (APMq q) (ar_preludes a) -> Forall fixedPart (snd q)
  end.
End Settled.

Section WithProject.
Context {U : UnicodeDigits} {FO : FloatOps}.
Variable P : project.
(** The file at [f], if it can be read, has nothing left to do after one pass,
    and no @import but at its beginning. *)
Definition settledFile (f : bytes) : Prop := forall content run n ss lines, p_read P f = Some content -> parse run n content = ParseOk ss lines ->
  Forall (settledNode (p_opts P)) (ss_nodes ss) /\ Forall (fun nd => isImport nd = false) (tl (ss_nodes ss)).
(** The file at [f] and all that it leads to. *)
Definition settledChain (f : bytes) : Prop := settledFile f /\ forall g, leads P f g -> settledFile g.
(** The rules of the file at [f] after its @import, transformed with nothing
    imported. *)
Definition ownPart (f : bytes) (own : list node) : Prop := exists content n ss lines k ss' t, p_read P f = Some content /\ parse 0 n content = ParseOk ss lines /\
  transform (p_opts P) (Some []) k (mkSheet (tl (ss_nodes ss)) []) = TOk ss' t /\ own = ss_nodes ss'.
(** The same files, another entry. *)
Definition entryOnly (e : bytes) : project := mkProject [e] (p_abs P) (p_read P) (p_resolve P) (p_opts P).
End WithProject.
