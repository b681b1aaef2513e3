(** White space between the parts of a selector (C62): it is the descendant
    combinator, and part of the tree. *)
From Verif Require Import Bytes Utf8 Source LexSpec Ast Walk WalkSpec.

Definition isAttr (p : selpart) : bool := match p with SAttr _ _ _ _ _ => true | _ => false end.
Definition isSpace (p : selpart) : bool := match p with SWhitespace _ => true | _ => false end.
(** The text of the file between two parts. *)
Definition between (content : bytes) (p q : selpart) : bytes := sub content (sp_end (partSpan p)) (sp_start (partSpan q)).
(** Only comments. *)
Definition onlyComments (s : bytes) : Prop := skipped true false s.
(** All the selectors of a tree, with those in the arguments of pseudo-classes. *)
Definition selectorIn (nds : list node) (s : selector) : Prop := exists vs, preorder kids (NdSheet nds) vs /\ In (NdSelector s) vs.
