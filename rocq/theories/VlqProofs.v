(** Lemmas on the base64 VLQ codec. *)
From Verif Require Import Bytes Source Vlq VlqSpec BytesFacts SourceProofs.

(** * Digits *)
Lemma digits_ok : forall i, 0 <= i < 64 ->
  base64Reverse (b64at i) = Some i /\ digitValue (b64at i) = Some i /\
  b64at i <> ","%byte /\ b64at i <> ";"%byte /\ b64at i <> """"%byte.
Proof.
  assert (H : forallb (fun n => let i := Z.of_nat n in
      match base64Reverse (b64at i), digitValue (b64at i) with
      | Some a, Some b => (a =? i) && (b =? i) && negb (Byte.eqb (b64at i) ","%byte)
           && negb (Byte.eqb (b64at i) ";"%byte) && negb (Byte.eqb (b64at i) """"%byte)
      | _, _ => false end) (seq 0 64) = true) by (vm_compute; reflexivity).
  rewrite forallb_forall in H. intros i Hi. specialize (H (Z.to_nat i)).
  rewrite in_seq in H. cbv zeta in H. rewrite Z2Nat.id in H by lia. specialize (H ltac:(lia)).
  destruct (base64Reverse (b64at i)) as [a|]; [|discriminate].
  destruct (digitValue (b64at i)) as [b|]; [|discriminate].
  repeat (apply andb_true_iff in H as [H ?]).
  apply Z.eqb_eq in H. apply Z.eqb_eq in H3. subst.
  repeat split; auto; intros E; rewrite E in *; discriminate.
Qed.

Lemma land31 n : Z.land n 31 = n mod 32.
Proof. change 31 with (Z.ones 5). rewrite Z.land_ones by lia. reflexivity. Qed.
Lemma shiftr5 n : Z.shiftr n 5 = n / 32.
Proof. rewrite Z.shiftr_div_pow2 by lia. reflexivity. Qed.
Lemma lor32 c : 0 <= c < 32 -> Z.lor c 32 = c + 32.
Proof.
  assert (H : forallb (fun n => Z.lor (Z.of_nat n) 32 =? Z.of_nat n + 32) (seq 0 32) = true) by (vm_compute; reflexivity).
  rewrite forallb_forall in H. intros Hc. specialize (H (Z.to_nat c)). rewrite in_seq, Z2Nat.id in H by lia.
  apply Z.eqb_eq. apply H. lia.
Qed.
Lemma land32 c : 0 <= c < 64 -> (Z.land c 32 =? 0) = (c <? 32).
Proof.
  assert (H : forallb (fun n => Bool.eqb (Z.land (Z.of_nat n) 32 =? 0) (Z.of_nat n <? 32)) (seq 0 64) = true) by (vm_compute; reflexivity).
  rewrite forallb_forall in H. intros Hc. specialize (H (Z.to_nat c)). rewrite in_seq, Z2Nat.id in H by lia.
  specialize (H ltac:(lia)). apply Bool.eqb_prop in H. exact H.
Qed.

(** * Encoding a magnitude *)
Lemma vlqLoop_dec fuel : forall n rv shift read t, 0 <= n < 32 ^ (Z.of_nat fuel) -> (0 < fuel)%nat ->
  0 <= rv -> 0 <= shift -> shift + 5 * Z.of_nat fuel <= 100 -> 0 <= read -> read + Z.of_nat fuel <= 100 ->
  rv + n * 2 ^ shift < 2147483648 ->
  vlqDecLoop rv shift read (vlqLoop fuel n ++ t) =
    Some (rv + n * 2 ^ shift, read + Z.of_nat (length (vlqLoop fuel n))).
Proof.
  induction fuel as [|f IH]; intros n rv shift read t Hn Hf Hrv Hs Hs' Hr Hr' Hb; [lia|].
  cbn [vlqLoop]. rewrite land31, shiftr5.
  pose proof (Z.mod_pos_bound n 32 ltac:(lia)) as Hm.
  pose proof (Z.div_mod n 32 ltac:(lia)) as Hdm.
  assert (Hq : 0 <= n / 32) by (apply Z.div_pos; lia).
  assert (Hp : 0 < 2 ^ shift) by (apply Z.pow_pos_nonneg; lia).
  assert (Hmb : 0 <= (n mod 32) * 2 ^ shift < 2147483648).
  { split; [apply Z.mul_nonneg_nonneg; lia|].
    assert ((n mod 32) * 2 ^ shift <= n * 2 ^ shift) by (apply Z.mul_le_mono_nonneg_r; lia). lia. }
  destruct (Z.eqb_spec (n / 32) 0) as [E|E]; cbn [negb].
  - destruct (Z.leb_spec (n / 32) 0); [|lia]. cbn [app vlqDecLoop].
    destruct (digits_ok (n mod 32) ltac:(lia)) as (-> & _).
    rewrite land32 by lia. destruct (Z.ltb_spec (n mod 32) 32); [|lia].
    rewrite land31, (Z.mod_small (n mod 32)) by lia. rewrite Z.shiftl_mul_pow2 by lia.
    assert (En : n = n mod 32) by lia. rewrite En in Hb.
    rewrite (wrap32_small (_ * _)) by lia. rewrite !wrap32_small by lia. rewrite <- En. reflexivity.
  - destruct (Z.leb_spec (n / 32) 0); [lia|]. cbn [app vlqDecLoop]. rewrite lor32 by lia.
    destruct (digits_ok (n mod 32 + 32) ltac:(lia)) as (-> & _).
    rewrite land32 by lia. destruct (Z.ltb_spec (n mod 32 + 32) 32); [lia|].
    rewrite land31. replace ((n mod 32 + 32) mod 32) with (n mod 32).
    2:{ rewrite <- Z.add_mod_idemp_r by lia. change (32 mod 32) with 0. rewrite Z.add_0_r, Z.mod_mod; lia. }
    rewrite Z.shiftl_mul_pow2 by lia.
    assert (Hsum : n * 2 ^ shift = (n mod 32) * 2 ^ shift + (n / 32) * 2 ^ (shift + 5)).
    { rewrite Z.pow_add_r by lia. change (2 ^ 5) with 32. rewrite Hdm at 1. ring. }
    assert (Hp5 : 0 < 2 ^ (shift + 5)) by (apply Z.pow_pos_nonneg; lia).
    assert (Hge : 0 <= (n / 32) * 2 ^ (shift + 5)) by (apply Z.mul_nonneg_nonneg; lia).
    destruct f as [|f'].
    { change (32 ^ Z.of_nat 1) with 32 in Hn. assert (n / 32 = 0) by (apply Z.div_small; lia). lia. }
    rewrite (wrap32_small (_ * _)) by lia. rewrite (wrap32_small (rv + _)), (wrap32_small (shift + 5)), (wrap32_small (read + 1)) by lia.
    rewrite IH; try lia.
    + f_equal. f_equal; [lia|]. cbn [length]. lia.
    + split; [lia|]. apply Z.div_lt_upper_bound; [lia|].
      replace (32 * 32 ^ Z.of_nat (S f')) with (32 ^ Z.of_nat (S (S f'))); [lia|].
      rewrite (Nat2Z.inj_succ (S f')), Z.pow_succ_r by lia. reflexivity.
Qed.

Lemma vlqLoop_spec fuel : forall n t, 0 <= n < 32 ^ (Z.of_nat fuel) -> (0 < fuel)%nat ->
  vlqMagnitude (vlqLoop fuel n ++ t) = Some (n, t).
Proof.
  induction fuel as [|f IH]; intros n t Hn Hf; [lia|].
  cbn [vlqLoop]. rewrite land31, shiftr5.
  pose proof (Z.mod_pos_bound n 32 ltac:(lia)) as Hm.
  pose proof (Z.div_mod n 32 ltac:(lia)) as Hdm.
  assert (Hq : 0 <= n / 32) by (apply Z.div_pos; lia).
  destruct (Z.eqb_spec (n / 32) 0) as [E|E]; cbn [negb].
  - destruct (Z.leb_spec (n / 32) 0); [|lia]. cbn [app vlqMagnitude].
    destruct (digits_ok (n mod 32) ltac:(lia)) as (_ & -> & _).
    destruct (Z.ltb_spec (n mod 32) 32); [|lia]. f_equal. f_equal. lia.
  - destruct (Z.leb_spec (n / 32) 0); [lia|]. cbn [app vlqMagnitude]. rewrite lor32 by lia.
    destruct (digits_ok (n mod 32 + 32) ltac:(lia)) as (_ & -> & _).
    destruct (Z.ltb_spec (n mod 32 + 32) 32); [lia|].
    destruct f as [|f'].
    { change (32 ^ Z.of_nat 1) with 32 in Hn. assert (n / 32 = 0) by (apply Z.div_small; lia). lia. }
    rewrite IH; [|split; [lia|]|lia].
    + f_equal. f_equal. lia.
    + apply Z.div_lt_upper_bound; [lia|].
      replace (32 * 32 ^ Z.of_nat (S f')) with (32 ^ Z.of_nat (S (S f'))); [lia|].
      rewrite (Nat2Z.inj_succ (S f')), Z.pow_succ_r by lia. reflexivity.
Qed.

(** The magnitude with the sign in its lowest bit. *)
Definition zig (v : Z) : Z := if v <? 0 then 2 * (- v) + 1 else 2 * v.

Lemma vlqEncode_zig v : Z.abs v < 1073741824 -> vlqEncode v = vlqLoop 8 (zig v) /\ 0 <= zig v < 2147483648.
Proof.
  intros Hv. unfold vlqEncode, zig.
  assert (Hn : (if v <? 0 then wrap32 (wrap32 (Z.shiftl (wrap32 (- v)) 1) + 1) else wrap32 (Z.shiftl v 1))
     = (if v <? 0 then 2 * - v + 1 else 2 * v)).
  { destruct (Z.ltb_spec v 0).
    - rewrite (wrap32_small (- v)) by lia. rewrite Z.shiftl_mul_pow2 by lia. change (2 ^ 1) with 2.
      rewrite (wrap32_small (_ * _)) by lia. rewrite wrap32_small; lia.
    - rewrite Z.shiftl_mul_pow2 by lia. change (2 ^ 1) with 2. rewrite wrap32_small; lia. }
  cbv zeta. rewrite Hn. set (n := if v <? 0 then 2 * - v + 1 else 2 * v).
  assert (Hb : 0 <= n < 2147483648) by (unfold n; destruct (Z.ltb_spec v 0); lia).
  split; auto. destruct (Z.eqb_spec (Z.shiftr n 5) 0) as [E|E]; auto.
  change 8%nat with (S 7). cbn [vlqLoop]. rewrite E. cbn. reflexivity.
Qed.

Lemma zig_unzig v : (if Z.land (zig v) 1 =? 1 then - ((zig v - 1) / 2) else zig v / 2) = v /\ (if Z.odd (zig v) then - (zig v / 2) else zig v / 2) = v.
Proof.
  change 1 with (Z.ones 1) at 1. rewrite Z.land_ones by lia. change (2 ^ 1) with 2.
  rewrite Zmod_odd. unfold zig. destruct (Z.ltb_spec v 0).
  - replace (2 * - v + 1) with (1 + 2 * (- v)) by lia. rewrite Z.odd_add_mul_2. cbn [Z.odd Z.eqb Pos.eqb].
    split.
    + replace (1 + 2 * - v - 1) with ((- v) * 2) by lia. rewrite Z.div_mul by lia. lia.
    + replace (1 + 2 * - v) with (1 + (- v) * 2) by lia. rewrite Z.div_add by lia. change (1 / 2) with 0. lia.
  - replace (2 * v) with (0 + 2 * v) by lia. rewrite Z.odd_add_mul_2. cbn [Z.odd Z.eqb].
    replace (0 + 2 * v) with (v * 2) by lia. rewrite Z.div_mul by lia. auto.
Qed.

Lemma C20_lemma : forall v tail, Z.abs v < 1073741824 ->
  vlqDecode (vlqEncode v ++ tail) = Some (v, Z.of_nat (length (vlqEncode v))) /\ vlqSpec (vlqEncode v ++ tail) = Some (v, tail).
Proof.
  intros v tail Hv. destruct (vlqEncode_zig v Hv) as [-> Hz].
  destruct (zig_unzig v) as [U1 U2]. split.
  - unfold vlqDecode. rewrite vlqLoop_dec; try (change (32 ^ Z.of_nat 8) with 1099511627776; lia).
    change (2 ^ 0) with 1. rewrite Z.mul_1_r, !Z.add_0_l.
      assert (E : (if Z.land (zig v) 1 =? 1
         then (wrap32 (- Z.shiftr (wrap32 (zig v - 1)) 1), Z.of_nat (length (vlqLoop 8 (zig v))))
         else (Z.shiftr (zig v) 1, Z.of_nat (length (vlqLoop 8 (zig v))))) =
         ((if Z.land (zig v) 1 =? 1 then - ((zig v - 1) / 2) else zig v / 2), Z.of_nat (length (vlqLoop 8 (zig v))))).
      { rewrite !Z.shiftr_div_pow2 by lia. change (2 ^ 1) with 2.
        destruct (Z.eqb_spec (Z.land (zig v) 1) 1) as [E1|E1]; auto.
        rewrite (wrap32_small (zig v - 1)) by lia. rewrite wrap32_small; auto.
        rewrite U1. lia. }
      rewrite E, U1. reflexivity.
  - unfold vlqSpec. rewrite vlqLoop_spec; [|split; [lia|]|lia].
    + rewrite U2. reflexivity.
    + change (32 ^ Z.of_nat 8) with 1099511627776. lia.
Qed.

(** Outside that range nothing decodes to the value: the encoding is a single
    digit. *)
Lemma C21_lemma : forall v, -2147483648 <= v < 2147483648 ->
  (vlqDecode (vlqEncode v) = Some (v, Z.of_nat (length (vlqEncode v))) <-> Z.abs v < 1073741824).
Proof.
  intros v Hv. split.
  2:{ intros H. pose proof (C20_lemma v [] H) as [E _]. rewrite app_nil_r in E. exact E. }
  intros E. destruct (Z.lt_ge_cases (Z.abs v) 1073741824) as [|Hge]; auto. exfalso.
  assert (Hone : exists c, 0 <= c < 64 /\ vlqEncode v = [b64at c]).
  { unfold vlqEncode. cbv zeta.
    set (n := if v <? 0 then wrap32 (wrap32 (Z.shiftl (wrap32 (- v)) 1) + 1) else wrap32 (Z.shiftl v 1)).
    assert (Hn : n < 0 \/ n = 1).
    { unfold n. destruct (Z.ltb_spec v 0).
      - destruct (Z.eq_dec v (-2147483648)) as [->|Hne]; [right; reflexivity|left].
        rewrite (wrap32_small (- v)) by lia. rewrite Z.shiftl_mul_pow2 by lia. change (2 ^ 1) with 2.
        assert (Ew : wrap32 (- v * 2) = - v * 2 - 4294967296).
        { unfold wrap32. replace (- v * 2 + 2147483648) with ((- v * 2 - 2147483648) + 1 * 4294967296) by lia.
          rewrite Z.mod_add by lia. rewrite Z.mod_small; lia. }
        rewrite Ew, wrap32_small; lia.
      - left. rewrite Z.shiftl_mul_pow2 by lia. change (2 ^ 1) with 2.
        unfold wrap32. replace (v * 2 + 2147483648) with ((v * 2 - 2147483648) + 1 * 4294967296) by lia.
        rewrite Z.mod_add by lia. rewrite Z.mod_small; lia. }
    rewrite shiftr5. destruct Hn as [Hn| ->]; [|exists 1; split; [lia|reflexivity]].
    assert (Hq : n / 32 < 0) by (apply Z.div_lt_upper_bound; lia).
    pose proof (Z.mod_pos_bound n 32 ltac:(lia)) as Hm.
    destruct (Z.eqb_spec (n / 32) 0); [lia|]. change 8%nat with (S 7). cbn [vlqLoop].
    rewrite shiftr5, land31. destruct (Z.eqb_spec (n / 32) 0); [lia|]. cbn [negb].
    destruct (Z.leb_spec (n / 32) 0); [|lia]. rewrite lor32 by lia. exists (n mod 32 + 32). split; [lia|reflexivity]. }
  destruct Hone as (c & Hc & Ee). rewrite Ee in E.
  assert (Hall : forallb (fun n => match vlqDecode [b64at (Z.of_nat n)] with
     | Some (x, _) => Z.abs x <? 100 | None => false end) (seq 0 64) = true) by (vm_compute; reflexivity).
  rewrite forallb_forall in Hall. specialize (Hall (Z.to_nat c)). rewrite in_seq, Z2Nat.id in Hall by lia.
  specialize (Hall ltac:(lia)). rewrite E in Hall. apply Z.ltb_lt in Hall. lia.
Qed.

(** Alphabet of an encoding. *)
Lemma vlqLoop_alpha fuel : forall n b, In b (vlqLoop fuel n) -> exists i, 0 <= i < 64 /\ b = b64at i.
Proof.
  induction fuel as [|f IH]; intros n b; cbn [vlqLoop]; [intros []|].
  rewrite land31, shiftr5. pose proof (Z.mod_pos_bound n 32 ltac:(lia)) as Hm.
  intros [<-|H].
  - destruct (negb (n / 32 =? 0)); [rewrite lor32 by lia; exists (n mod 32 + 32)|exists (n mod 32)]; split; auto; lia.
  - destruct (n / 32 <=? 0); [destruct H|]. eapply IH; eauto.
Qed.
Lemma vlqEncode_alpha v b : In b (vlqEncode v) -> exists i, 0 <= i < 64 /\ b = b64at i.
Proof.
  unfold vlqEncode. cbv zeta. set (n := if v <? 0 then _ else _). destruct (Z.shiftr n 5 =? 0).
  - intros [<-|[]]. rewrite land31. pose proof (Z.mod_pos_bound n 32 ltac:(lia)). exists (n mod 32). split; [lia|auto].
  - apply vlqLoop_alpha.
Qed.
Lemma vlqEncode_nonempty v : vlqEncode v <> [].
Proof.
  unfold vlqEncode. cbv zeta. set (n := if v <? 0 then _ else _). destruct (Z.shiftr n 5 =? 0); discriminate.
Qed.
Lemma C21_refuted_lemma : exists v, -2147483648 <= v < 2147483648 /\
  vlqEncode v = B "g" /\ vlqDecode (vlqEncode v) = Some (0, 1).
Proof. exists 1073741824. vm_compute. intuition discriminate. Qed.
