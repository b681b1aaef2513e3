(** C48: ast.Walk. *)
From Verif Require Import Bytes Utf8 Source Ast Lexer Parser Walk WalkSpec WalkProofs Samples.

(** ** C48 *)
(** Walk visits every node of the tree, each before its parts, and does not
    panic.  Full statement:
      forall ns vs, preorder kids (NdSheet ns) vs -> walkSheet ns = (vs, false).
    False as stated, see the two theorems below: it holds where no node is a
    bracket, a missing media query list, a pseudo class with arguments or a
    range. *)
Theorem C48_walk_partial : forall ns vs, preorder kids (NdSheet ns) vs -> Forall handled vs -> walkSheet ns = (vs, false).
Proof. exact C48_walk_lemma. Qed.
Print Assumptions C48_walk_partial.
Example C48_sample : exists ss lines vs, @parse asciiOnly 0 200 text48 = ParseOk ss lines /\
  preorder kids (NdSheet (ss_nodes ss)) vs /\ Forall handled vs /\ length vs = 45%nat.
Proof. exact C48_sample_lemma. Qed.

(** Every tree has such a list, so the theorem speaks about all trees. *)
Theorem C48_tree_is_listed : forall ns, exists vs, preorder kids (NdSheet ns) vs.
Proof. exact C48_total_lemma. Qed.
Print Assumptions C48_tree_is_listed.

(** What Walk does on any tree: it visits all nodes except what is below a
    pseudo class and the property of a range; it panics after visiting the
    first bracket or missing query list. *)
Theorem C48_walk_exact : forall ns, exists vs, preorder seen (NdSheet ns) vs /\
  ((walkSheet ns = (vs, false) /\ Forall (fun n => unknown n = false) vs) \/
   exists a n b, vs = a ++ n :: b /\ Forall (fun n => unknown n = false) a /\ unknown n = true /\ walkSheet ns = (a ++ [n], true)).
Proof. exact C48_exact_lemma. Qed.
Print Assumptions C48_walk_exact.

(** Walk panics on trees the parser returns. *)
Theorem C48_panic_refuted : exists ss lines ss' lines',
  @parse asciiOnly 0 100 (B "a{b:[c]}") = ParseOk ss lines /\ snd (walkSheet (ss_nodes ss)) = true /\
  @parse asciiOnly 0 100 (B "@media {}") = ParseOk ss' lines' /\ snd (walkSheet (ss_nodes ss')) = true.
Proof. exact C48_refuted_lemma. Qed.
Print Assumptions C48_panic_refuted.

(** Nodes are missed without a panic: the arguments of ":not" and the property
    of a range. *)
Theorem C48_missed_refuted : exists ss lines ss' lines' vs vs' n n',
  @parse asciiOnly 0 100 (B ":not(b){}") = ParseOk ss lines /\ preorder kids (NdSheet (ss_nodes ss)) vs /\ In n vs /\
  snd (walkSheet (ss_nodes ss)) = false /\ ~ In n (fst (walkSheet (ss_nodes ss))) /\
  @parse asciiOnly 0 100 (B "@media (1px<width){}") = ParseOk ss' lines' /\ preorder kids (NdSheet (ss_nodes ss')) vs' /\ In n' vs' /\
  snd (walkSheet (ss_nodes ss')) = false /\ ~ In n' (fst (walkSheet (ss_nodes ss'))).
Proof. exact C48_missed_lemma. Qed.
Print Assumptions C48_missed_refuted.
