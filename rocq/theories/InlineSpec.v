(** What inlining is for, without the machinery of Compile: a file's @import
    is replaced by the result for the imported file. *)
From Verif Require Import Bytes Utf8 Source Lexer Ast Parser Printer Transformer TransSpec Resolver Compile CompileSpec.

Section WithProject.
Context {U : UnicodeDigits} {FO : FloatOps}.
Variable P : project.

(** [inlined d f r]: the rules that the file at the absolute path [f] comes
    to, [None] if it cannot be read or parsed.  [d] is how deep it is imported:
    it only names the pointers to its nodes.
    [replaces d f imps m]: [m] gives the rules that stand in for the @import of
    the list [imps] (which has at most one) of the file [f]; an import that
    cannot be resolved, read or parsed has none. *)
Inductive inlined : nat -> bytes -> option (list node) -> Prop :=
| inUnread d f : p_read P f = None -> inlined d f None
| inBad d f content n sp msg lines : p_read P f = Some content -> parse d n content = ParseErr sp msg lines -> inlined d f None
| inRules d f content n ss lines m k ss' t : p_read P f = Some content -> parse d n content = ParseOk ss lines ->
    replaces d f (ss_imports ss) m -> transform (p_opts P) (Some m) k ss = TOk ss' t -> inlined d f (Some (ss_nodes ss'))
with replaces : nat -> bytes -> list (bytes * ptr) -> list (ptr * list node) -> Prop :=
| rpNone d f : replaces d f [] []
| rpUnresolved d f spec at_ : p_resolve P spec (fpDir f) = None -> replaces d f [(spec, at_)] []
| rpNoPath d f spec at_ rel : p_resolve P spec (fpDir f) = Some rel -> p_abs P rel = None -> replaces d f [(spec, at_)] []
| rpFailed d f spec at_ rel f' : p_resolve P spec (fpDir f) = Some rel -> p_abs P rel = Some f' -> inlined (S d) f' None ->
    replaces d f [(spec, at_)] []
| rpRules d f spec at_ rel f' nds : p_resolve P spec (fpDir f) = Some rel -> p_abs P rel = Some f' -> inlined (S d) f' (Some nds) ->
    replaces d f [(spec, at_)] [(at_, nds)].

(** The output for the entry file at [f]: its rules, printed with the source
    map of its own source. *)
Definition compiledInline (f out : bytes) : Prop := exists content n ss lines nds,
  p_read P f = Some content /\ parse 0 n content = ParseOk ss lines /\ inlined 0 f (Some nds) /\
  print (Some (mkSource f content lines)) nds = Some out.

(** No file has two @imports or leads back to itself. *)
Definition oneImportEach : Prop := forall f, involved P f ->
  ~ leads P f f /\
  forall content run n ss lines, p_read P f = Some content -> parse run n content = ParseOk ss lines -> (length (ss_imports ss) <= 1)%nat.
End WithProject.
(** The rules of a result that come from parse [d]: with [d] as in [inlined],
    those of the file itself.  @imports are left out, because whether they stay
    depends on the imported file. *)
Definition runOf (nd : node) : nat := match nd with NRule r => r_run r | NAt a => ar_run a end.
Definition ownRule (d : nat) (nd : node) : bool := (runOf nd =? d)%nat && negb (isImport nd).
