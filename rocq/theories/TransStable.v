(** More fuel does not change an outcome of Transform. *)
From Verif Require Import Bytes Utf8 Source Ast Transformer TransSpec TransProofs.

Definition sm {A} (m1 m2 : TM A) : Prop := forall t, m1 t = TTimeout \/ m2 t = m1 t.
Lemma sm_refl A (m : TM A) : sm m m. Proof. intros t. auto. Qed.
Lemma sm_timeout A (m : TM A) : sm ttimeout m. Proof. intros t. auto. Qed.
Lemma sm_bind A C (m1 m2 : TM A) (k1 k2 : A -> TM C) : sm m1 m2 -> (forall a, sm (k1 a) (k2 a)) -> sm (tbind m1 k1) (tbind m2 k2).
Proof.
  intros Hm Hk t. unfold tbind. destruct (Hm t) as [->| ->]; [auto|]. destruct (m1 t) as [a u| |]; auto. apply Hk.
Qed.
Ltac sm1 := first
  [ apply sm_refl
  | apply sm_bind; [|intros]
  | match goal with |- sm (match ?x with _ => _ end) _ => destruct x end ].

Section WithFloats.
Context {FO : FloatOps}.
Variable o : topts.
Lemma sm_value : forall n k v, (n <= k)%nat -> sm (transformValue o n v) (transformValue o k v).
Proof.
  induction n as [|n IH]; intros k v H; [apply sm_timeout|]. destruct k as [|k]; [lia|]. cbn [transformValue].
  assert (IH' : forall v, sm (transformValue o n v) (transformValue o k v)) by (intros; apply IH; lia).
  repeat first [apply IH'|sm1].
Qed.
Lemma sm_values : forall n k vs, (n <= k)%nat -> sm (transformValues o n vs) (transformValues o k vs).
Proof. intros n k vs H. induction vs; cbn [transformValues]; repeat first [apply sm_value; exact H|assumption|sm1]. Qed.
Lemma sm_decls : forall n k ds, (n <= k)%nat -> sm (transformDecls o n ds) (transformDecls o k ds).
Proof. intros n k ds H. induction ds; cbn [transformDecls]; repeat first [apply sm_values; exact H|assumption|sm1]. Qed.
Lemma sm_rule : forall n k r, (n <= k)%nat -> sm (transformRule o n r) (transformRule o k r).
Proof. intros n k r H. unfold transformRule. repeat first [apply sm_decls; exact H|sm1]. Qed.
Lemma sm_nodes repl : forall n k ns, (n <= k)%nat -> sm (transformNodes o repl n ns) (transformNodes o repl k ns).
Proof.
  induction n as [|n IHn]; intros k ns H; [apply sm_timeout|]. destruct k as [|k]; [lia|].
  induction ns as [|nd r IH]; [rewrite !nodes_nil; apply sm_refl|]. rewrite !nodes_cons.
  apply sm_bind; [|intros; apply sm_bind; [exact IH|intros; apply sm_refl]].
  destruct nd as [q|a]; cbn [oneNode].
  - repeat first [apply sm_rule; lia|sm1].
  - repeat first [apply IHn; lia|sm1].
Qed.
Lemma transform_stable repl n k ss : (n <= k)%nat -> transform o repl n ss <> TTimeout -> transform o repl k ss = transform o repl n ss.
Proof.
  intros L H. unfold transform in *. destruct (sm_nodes repl n k (ss_nodes ss) L (initState o repl)) as [E|E]; rewrite E in *; auto. destruct H. auto.
Qed.
(** One fuel at which Transform returns decides all. *)
Lemma transform_one repl n k ss : transform o repl n ss <> TTimeout -> transform o repl k ss = TTimeout \/ transform o repl k ss = transform o repl n ss.
Proof.
  intros H. destruct (Nat.le_ge_cases n k) as [L|L]; [right; apply transform_stable; auto|].
  destruct (transform o repl k ss) eqn:E; auto; right; rewrite <- E; symmetry; apply transform_stable; auto; congruence.
Qed.
End WithFloats.
