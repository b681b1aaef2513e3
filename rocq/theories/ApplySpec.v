(** Which rules of a stylesheet a browser applies, and where @import comes in:
    an @import counts only before all other rules, and only on devices that
    meet its condition.  Nothing here refers to the transformer. *)
From Verif Require Import Bytes Utf8 Source Lexer Ast Parser ParserSpec TransSpec Resolver Compile.

Section Device.
(** The media query lists that a device meets. *)
Variable holds : list mquery -> bool.

(** The condition of an @import follows its target; most have none. *)
Definition importApplies (a : atrule) : bool :=
  match ar_preludes a with _ :: APMql (_, qs) :: _ => holds qs | _ => true end.
Definition unconditional (a : atrule) : Prop := (length (ar_preludes a) <= 1)%nat.
(** A style rule without declarations does nothing. *)
Definition styles (r : qrule) : list node := match r_decls r with [] => [] | _ => [NRule r] end.
(** What a rule contributes, other than by importing: a style rule itself, a
    media rule the rules in it if the device meets its condition, a definition
    of a custom media query nothing, any other at-rule itself. *)
Definition contributes (nd : node) : list node :=
  match nd with
  | NRule r => styles r
  | NAt a =>
    if beq (ar_name a) (B "import") then [] else if beq (ar_name a) (B "custom-media") then []
    else if beq (ar_name a) (B "media") then
      match ar_preludes a, ar_block a with
      | APMql (_, qs) :: _, Some (BRules _ rs) => if holds qs then flat_map styles rs else []
      | _, _ => []
      end
    else [nd]
  end.
(** The @imports before all other rules. *)
Fixpoint heads (nds : list node) : list atrule :=
  match nds with
  | NAt a :: r => if beq (ar_name a) (B "import") then a :: heads r else []
  | _ => []
  end.
(** What applies, in the order of the cascade, when an @import brings in what
    [follow] says. *)
Definition applied (follow : atrule -> list node) (nds : list node) : list node :=
  flat_map (fun a => if importApplies a then follow a else []) (heads nds) ++ flat_map contributes nds.
(** Definitions of custom media queries and the conditions that use them are not
    connected here: [holds] answers for a condition as it is written. *)
(** A stylesheet by itself: what its @imports bring in is not known, so they
    stand for it. *)
Definition view (nds : list node) : list node := applied (fun a => [NAt a]) nds.
(** The same when [m] holds the stylesheets of some of the @imports. *)
Definition viewWith (m : list (ptr * list node)) (nds : list node) : list node :=
  applied (fun a => match find (fun e => ptrEq (atRuleId a) (fst e)) m with Some (_, nds') => view nds' | None => [NAt a] end) nds.

(** Files: what applies of the file [f] when the browser loads the files of
    the project that its @imports name.  A file that cannot be found, read or
    parsed is not known. *)
Section Files.
Context {U : UnicodeDigits}.
Variable P : project.
Definition unknown (d : nat) (f spec : bytes) : Prop :=
  p_resolve P spec (fpDir f) = None \/
  exists rel, p_resolve P spec (fpDir f) = Some rel /\
    (p_abs P rel = None \/ exists f', p_abs P rel = Some f' /\
      (p_read P f' = None \/ exists content n sp msg lines, p_read P f' = Some content /\ parse (S d) n content = ParseErr sp msg lines)).
(** [d] is how deep the file is imported; it only names pointers. *)
Inductive means : nat -> bytes -> list node -> Prop :=
| meFile d f content n ss lines vs : p_read P f = Some content -> parse d n content = ParseOk ss lines ->
    follows d f (heads (ss_nodes ss)) vs -> means d f (vs ++ flat_map contributes (ss_nodes ss))
with follows : nat -> bytes -> list atrule -> list node -> Prop :=
| foNil d f : follows d f [] []
| foOff d f a r vs : importApplies a = false -> follows d f r vs -> follows d f (a :: r) vs
| foFile d f a r spec rel f' v vs : importApplies a = true -> importOf (NAt a) = [(spec, atRuleId a)] ->
    p_resolve P spec (fpDir f) = Some rel -> p_abs P rel = Some f' -> means (S d) f' v -> follows d f r vs -> follows d f (a :: r) (v ++ vs)
| foUnknown d f a r spec vs : importApplies a = true -> importOf (NAt a) = [(spec, atRuleId a)] ->
    unknown d f spec -> follows d f r vs -> follows d f (a :: r) (NAt a :: vs).
End Files.
End Device.

(** All @imports come before all other rules. *)
Definition inFront (nds : list node) : Prop := exists imps rest, nds = map NAt imps ++ rest /\
  Forall (fun a => ar_name a = B "import") imps /\ Forall (fun nd => isImport nd = false) rest.
(** The sheet with its @imports replaced. *)
Definition replaced (m : list (ptr * list node)) (nds : list node) : list node :=
  flat_map (fun nd => match nd with
    | NAt a => if isImport nd then match find (fun e => ptrEq (atRuleId a) (fst e)) m with Some (_, nds') => nds' | None => [nd] end else [nd]
    | NRule _ => [nd]
    end) nds.
(** An @import is replaced. *)
Definition isReplaced (m : list (ptr * list node)) (a : atrule) : Prop := exists nds', In (atRuleId a, nds') m.

(** A file whose @imports come first, without a condition where they are
    resolved. *)
Definition tidyImports {U : UnicodeDigits} (P : project) (f : bytes) : Prop :=
  forall content run n ss lines, p_read P f = Some content -> parse run n content = ParseOk ss lines ->
  inFront (ss_nodes ss) /\
  forall a, In (NAt a) (ss_nodes ss) -> ar_name a = B "import" -> unconditional a \/ forall spec i, importOf (NAt a) = [(spec, i)] -> p_resolve P spec (fpDir f) = None.

(** Compiling [P], whose imports are inlined and whose other options are off,
    some schedule gives an output of which another number of rules applies than
    of the entry file. *)
Definition changes {U : UnicodeDigits} {FO : Transformer.FloatOps} (holds : list mquery -> bool) (P : project) : Prop :=
  p_opts P = Transformer.mkOpts Transformer.ImportInline false false false false false /\
  exists e p g out v n ss lines, p_entries P = [e] /\ p_abs P e = Some p /\ reach P (g, Finished [(p, out)]) /\
    means holds P 0 p v /\ parse 0 n out = ParseOk ss lines /\ length (view holds (ss_nodes ss)) <> length v.
