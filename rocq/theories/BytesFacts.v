(** Facts about byte strings and UTF-8 decoding. *)
From Verif Require Import Bytes Utf8.

Lemma byte_eqb_eq a b : Byte.eqb a b = true <-> a = b.
Proof.
  split; intro H.
  - apply Byte.byte_dec_bl in H. exact H.
  - apply Byte.byte_dec_lb in H. exact H.
Qed.

Lemma beq_eq a b : beq a b = true <-> a = b.
Proof.
  revert b; induction a as [|x a IH]; destruct b as [|y b]; simpl; split; intro H; try discriminate; auto.
  - apply andb_true_iff in H as [H1 H2]. apply byte_eqb_eq in H1. apply IH in H2. congruence.
  - inversion H; subst. apply andb_true_iff; split; [apply byte_eqb_eq | apply IH]; auto.
Qed.
Lemma beq_refl a : beq a a = true.
Proof. apply beq_eq; reflexivity. Qed.
Lemma beq_neq a b : beq a b = false <-> a <> b.
Proof.
  destruct (beq a b) eqn:E; split; intro H; try discriminate; auto.
  - apply beq_eq in E. contradiction.
  - intro; subst. rewrite beq_refl in E. discriminate.
Qed.
Lemma beq_spec a b : reflect (a = b) (beq a b).
Proof. destruct (beq a b) eqn:E; constructor; [apply beq_eq | apply beq_neq]; auto. Qed.

Lemma bmem_In x l : bmem x l = true <-> In x l.
Proof.
  unfold bmem. rewrite existsb_exists. split.
  - intros [y [H1 H2]]. apply beq_eq in H2. subst; auto.
  - intros H. exists x. split; auto. apply beq_refl.
Qed.

Lemma bz_range b : 0 <= bz b < 256.
Proof.
  unfold bz. pose proof (Byte.to_N_bounded b). lia.
Qed.

Lemma bz_inj a b : bz a = bz b -> a = b.
Proof.
  unfold bz. intros H. apply N2Z.inj in H.
  assert (Some a = Some b) as E.
  { rewrite <- (Byte.of_to_N a), <- (Byte.of_to_N b), H. reflexivity. }
  congruence.
Qed.

Lemma slice_spec s a b t : slice s a b = Some t <->
  (a <= b <= length s)%nat /\ t = firstn (b - a) (skipn a s).
Proof.
  unfold slice.
  destruct (Nat.leb_spec a b), (Nat.leb_spec b (length s)); simpl; split; intros H1.
  all: try discriminate.
  all: try (destruct H1; lia).
  - injection H1 as <-. split; auto; lia.
  - destruct H1 as [_ ->]. reflexivity.
Qed.

Lemma slice_ok s a b : (a <= b <= length s)%nat -> slice s a b = Some (firstn (b - a) (skipn a s)).
Proof. intros; apply slice_spec; auto. Qed.

Lemma hasPrefix_spec p s : hasPrefix p s = true <-> exists r, s = p ++ r.
Proof.
  revert s; induction p as [|x p IH]; simpl; intros s.
  - split; eauto.
  - destruct s as [|y s]; simpl.
    + split; [discriminate | intros [r H]; discriminate].
    + rewrite andb_true_iff, byte_eqb_eq, IH. split.
      * intros [-> [r ->]]. eauto.
      * intros [r H]. inversion H; subst; eauto.
Qed.

(** * decodeRune *)
Lemma decodeRune_nil : decodeRune [] = (runeError, 0%nat).
Proof. reflexivity. Qed.

(** Everything needed about the decoding of a non-empty string. *)
Lemma decodeRune_cons c r cp n : decodeRune (c :: r) = (cp, n) ->
  (1 <= n <= S (length r))%nat /\ 0 <= cp /\
  ((bz c < 128 /\ cp = bz c /\ n = 1%nat) \/
   (128 <= bz c /\ 128 <= cp /\ Forall (fun b => 128 <= bz b) (firstn n (c :: r)))).
Proof.
  pose proof (bz_range c) as Hc.
  unfold decodeRune, isCont, runeError.
  destruct (Z.ltb_spec (bz c) 128).
  { intros E; inversion E; subst. simpl; repeat split; try lia. }
  assert (Hone : (65533, 1%nat) = (cp, n) ->
    (1 <= n <= S (length r))%nat /\ 0 <= cp /\
  ((bz c < 128 /\ cp = bz c /\ n = 1%nat) \/
   (128 <= bz c /\ 128 <= cp /\ Forall (fun b => 128 <= bz b) (firstn n (c :: r))))).
  { intros E; inversion E; subst. repeat split; try lia. right. repeat split; try lia.
    simpl. constructor; auto. }
  destruct ((bz c <? 194) || (244 <? bz c)) eqn:E1; [exact Hone|].
  apply orb_false_iff in E1 as [E1 E2]. apply Z.ltb_ge in E1, E2.
  destruct r as [|c1 r1]; [exact Hone|].
  pose proof (bz_range c1) as Hc1.
  destruct (Z.ltb_spec (bz c) 224).
  { destruct ((128 <=? bz c1) && (bz c1 <=? 191)) eqn:E3; [|exact Hone].
    apply andb_true_iff in E3 as [E3 E4]. apply Z.leb_le in E3, E4.
    intros E; inversion E; subst. simpl length. repeat split; try lia.
    right. repeat split; try lia. simpl. repeat constructor; auto. }
  match goal with |- context [negb ?b] => destruct b eqn:E3 end; simpl negb; cbv iota; [|exact Hone].
  apply andb_true_iff in E3 as [E3 E4]. apply Z.leb_le in E3, E4.
  assert (L1 : 128 <= bz c1). { destruct (bz c =? 224), (bz c =? 240); lia. }
  destruct r1 as [|c2 r2]; [exact Hone|].
  pose proof (bz_range c2) as Hc2.
  destruct ((128 <=? bz c2) && (bz c2 <=? 191)) eqn:E5; simpl negb; cbv iota; [|exact Hone].
  apply andb_true_iff in E5 as [E5 E6]. apply Z.leb_le in E5, E6.
  destruct (Z.ltb_spec (bz c) 240).
  { intros E; inversion E; subst. simpl length.
    assert (128 <= (bz c - 224) * 4096 + (bz c1 - 128) * 64 + (bz c2 - 128)).
    { destruct (Z.eqb_spec (bz c) 224); [|]; lia. }
    repeat split; try lia. right. repeat split; try lia. simpl. repeat constructor; auto. }
  destruct r2 as [|c3 r3]; [exact Hone|].
  pose proof (bz_range c3) as Hc3.
  destruct ((128 <=? bz c3) && (bz c3 <=? 191)) eqn:E7; simpl negb; cbv iota; [|exact Hone].
  apply andb_true_iff in E7 as [E7 E8]. apply Z.leb_le in E7, E8.
  intros E; inversion E; subst. simpl length.
  assert (128 <= (bz c - 240) * 262144 + (bz c1 - 128) * 4096 + (bz c2 - 128) * 64 + (bz c3 - 128)).
  { destruct (Z.eqb_spec (bz c) 224); [lia|]. destruct (Z.eqb_spec (bz c) 240); lia. }
  repeat split; try lia. right. repeat split; try lia. simpl. repeat constructor; auto.
Qed.

Lemma decodeRune_size0 s : snd (decodeRune s) = 0%nat <-> s = [].
Proof.
  destruct s as [|c r]; [split; auto|].
  destruct (decodeRune (c :: r)) as [cp n] eqn:E. apply decodeRune_cons in E as [E _].
  simpl. split; [lia | discriminate].
Qed.

Lemma decodeRune_ascii c r : bz c < 128 -> decodeRune (c :: r) = (bz c, 1%nat).
Proof. intros H. unfold decodeRune. apply Z.ltb_lt in H. rewrite H. reflexivity. Qed.

Lemma decodeRune_low s cp n : decodeRune s = (cp, n) -> cp < 128 ->
  exists c r, s = c :: r /\ cp = bz c /\ n = 1%nat.
Proof.
  destruct s as [|c r]; intros E L.
  - inversion E; subst. unfold runeError in L. lia.
  - apply decodeRune_cons in E as (_ & _ & [(H1 & H2 & H3)|(H1 & H2 & H3)]); [|lia].
    exists c, r; auto.
Qed.
