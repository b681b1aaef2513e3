(** The lexer's state as a view on the remaining input, and the master lemma
    on Next. *)
From Verif Require Import Bytes Utf8 Source Lexer BytesFacts LexSpec.

(** * The cursor is determined by the offset of the current character. *)
Definition chOf (rest : bytes) : Z * nat :=
  match rest with
  | [] => (-1, 0%nat)
  | _ =>
    let '(cp, size) := decodeRune rest in
    if cp =? 13 then let '(nxt, ns) := decodeRune (skipn size rest) in (nxt, (size + ns)%nat)
    else (cp, size)
  end.
Definition rest (l : lexer) : bytes := skipn (l_lastPos l) (l_content l).

(** Cursor well-formedness. *)
Definition cwf (l : lexer) : Prop :=
  (l_lastPos l <= length (l_content l))%nat /\
  l_ch l = fst (chOf (rest l)) /\ l_pos l = (l_lastPos l + snd (chOf (rest l)))%nat.
Definition wf (l : lexer) : Prop := cwf l /\ (l_start l <= l_lastPos l)%nat.

Definition frame (l l' : lexer) : Prop :=
  l_start l' = l_start l /\ l_cur l' = l_cur l /\ l_str l' = l_str l /\ l_num l' = l_num l /\
  l_rws l' = l_rws l /\ l_rcom l' = l_rcom l.

Definition between (l l' : lexer) : bytes :=
  firstn (l_pos l' - l_pos l) (skipn (l_pos l) (l_content l)).

(** [l'] is [l] with the text [t] consumed. *)
Definition moves (l l' : lexer) (t : bytes) : Prop :=
  l_content l' = l_content l /\ rest l = t ++ rest l' /\
  l_lastPos l' = (l_lastPos l + length t)%nat /\ cwf l' /\
  (l_pos l <= l_pos l')%nat /\ l_lines l' = l_lines l ++ linesIn (l_pos l) (between l l').

Lemma chOf_nonempty r : r <> [] -> (1 <= snd (chOf r) <= length r)%nat /\ 0 <= fst (chOf r).
Proof.
  intros Hr. destruct r as [|c r]; [congruence|]. unfold chOf.
  destruct (decodeRune (c :: r)) as [cp n] eqn:E.
  apply decodeRune_cons in E as (Hn & Hcp & Hc).
  destruct (Z.eqb_spec cp 13); simpl fst; simpl snd; [|simpl length; lia].
  destruct Hc as [(H1 & H2 & H3)|]; [|lia]. subst n. simpl skipn.
  destruct r as [|c1 r1].
  - simpl. unfold runeError. lia.
  - destruct (decodeRune (c1 :: r1)) as [cp1 n1] eqn:E1.
    apply decodeRune_cons in E1 as (Hn1 & Hcp1 & _). simpl fst; simpl snd; simpl length. lia.
Qed.

Lemma chOf_bound r : (snd (chOf r) <= length r)%nat.
Proof. destruct r as [|c r]; [simpl; lia | apply chOf_nonempty; congruence]. Qed.

Lemma chOf_neg r : fst (chOf r) = -1 <-> r = [].
Proof.
  split; [|intros ->; reflexivity].
  intros H. destruct r as [|c r]; auto.
  pose proof (chOf_nonempty (c :: r)) as [_ H1]; [congruence|lia].
Qed.

Lemma cwf_pos_le l : cwf l -> (l_pos l <= length (l_content l))%nat.
Proof.
  intros (H1 & H2 & H3). pose proof (chOf_bound (rest l)).
  unfold rest in *. rewrite skipn_length in *. lia.
Qed.

Lemma cwf_eof l : cwf l -> (l_ch l = -1 <-> rest l = []).
Proof. intros (_ & H & _). rewrite H. apply chOf_neg. Qed.

Lemma rest_len l : cwf l -> length (rest l) = (length (l_content l) - l_lastPos l)%nat.
Proof. intros _. unfold rest. apply skipn_length. Qed.

(** ASCII characters: how the current character shows in the text. *)
Lemma chOf_low r c : fst (chOf r) = bz c -> bz c < 128 ->
  exists u r', r = u ++ r' /\ achar c u /\ length u = snd (chOf r).
Proof.
  intros H L. destruct r as [|b r]; [simpl in H; pose proof (bz_range c); lia|].
  revert H. unfold chOf. destruct (decodeRune (b :: r)) as [cp n] eqn:E.
  destruct (Z.eqb_spec cp 13); intros H.
  - subst. apply decodeRune_low in E as (c' & r' & E1 & E2 & ->); [|lia]. inversion E1; subst c' r'. clear E1.
    simpl skipn in *.
    assert (b = CR). { apply bz_inj. rewrite <- E2. reflexivity. }
    subst b. revert H. destruct (decodeRune r) as [cp1 n1] eqn:E1. simpl. intros H.
    apply decodeRune_low in E1 as (c' & r' & E1 & E3 & ->); [|lia]. subst r.
    exists [CR; c], r'. assert (c' = c) by (apply bz_inj; lia). subst. repeat split; auto. right; auto.
  - simpl in H. apply decodeRune_low in E as (c' & r' & E1 & E3 & ->); [|lia].
    inversion E1; subst c' r'. assert (b = c) by (apply bz_inj; lia). subst.
    exists [c], r. repeat split; auto. left; auto.
Qed.

Lemma chOf_byte c r : bz c < 128 -> bz c <> 13 -> chOf (c :: r) = (bz c, 1%nat).
Proof.
  intros H1 H2. unfold chOf. rewrite decodeRune_ascii by auto.
  destruct (Z.eqb_spec (bz c) 13); [contradiction|reflexivity].
Qed.

Lemma linesIn_app o s t : linesIn o (s ++ t) = linesIn o s ++ linesIn (o + length s) t.
Proof.
  revert o; induction s as [|c s IH]; intros o; simpl.
  - rewrite Nat.add_0_r. reflexivity.
  - rewrite <- Nat.add_succ_comm. destruct (Byte.eqb c LF); simpl; rewrite IH; reflexivity.
Qed.

Lemma linesIn_high o s : Forall (fun b => 128 <= bz b) s -> linesIn o s = [].
Proof.
  intros H; revert o; induction H as [|c s Hc Hs IH]; intros o; simpl; auto.
  destruct (Byte.eqb c LF) eqn:E; auto.
  apply byte_eqb_eq in E; subst. cbv in Hc. congruence.
Qed.

Lemma skipn_skipn' {A} (a b : nat) (l : list A) : skipn a (skipn b l) = skipn (b + a) l.
Proof.
  revert l; induction b as [|b IH]; intros l; simpl; auto.
  destruct l; simpl; [apply skipn_nil | apply IH].
Qed.

Lemma firstn_plus {A} (a b : nat) (l : list A) : firstn (a + b) l = firstn a l ++ firstn b (skipn a l).
Proof.
  revert l; induction a as [|a IH]; intros l; simpl; auto.
  destruct l; simpl; [rewrite firstn_nil; auto | rewrite IH; auto].
Qed.

(** Line feeds in the bytes of one decoded rune. *)
Lemma linesIn_rune o s cp n : decodeRune s = (cp, n) ->
  linesIn o (firstn n s) = if cp =? 10 then [S o] else [].
Proof.
  intros E. destruct s as [|c r].
  - inversion E; subst. reflexivity.
  - apply decodeRune_cons in E as (_ & _ & [(H1 & H2 & H3)|(H1 & H2 & H3)]).
    + subst n cp. simpl. destruct (Byte.eqb c LF) eqn:E.
      * apply byte_eqb_eq in E; subst. reflexivity.
      * destruct (Z.eqb_spec (bz c) 10); auto.
        assert (c = LF) by (apply bz_inj; auto). subst. discriminate.
    + rewrite linesIn_high by auto. destruct (Z.eqb_spec cp 10); auto; lia.
Qed.

Lemma rest_skip l n : (l_lastPos l <= length (l_content l))%nat ->
  skipn n (rest l) = skipn (l_lastPos l + n) (l_content l).
Proof. intros _. unfold rest. apply skipn_skipn'. Qed.

Lemma step_frame l : frame l (step l).
Proof.
  unfold frame, step. destruct (decodeRune _) as [cp n].
  destruct (n =? 0)%nat; simpl; [repeat split; auto|].
  destruct (cp =? 13); simpl; [destruct (decodeRune _); simpl|]; repeat split; auto.
Qed.

(** One step from a well-formed cursor not at the end of input. *)
Lemma step_moves l : cwf l -> l_ch l <> -1 ->
  moves l (step l) (firstn (snd (chOf (rest l))) (rest l)).
Proof.
  intros Hw Hch.
  assert (Hne : rest l <> []). { intro E. apply Hch. apply cwf_eof; auto. }
  destruct Hw as (H1 & H2 & H3).
  pose proof (chOf_nonempty _ Hne) as [Hb _].
  assert (Hp : (l_pos l <> 0)%nat) by lia.
  assert (Hpl : (l_pos l <= length (l_content l))%nat).
  { unfold rest in *. rewrite skipn_length in *. lia. }
  set (w := snd (chOf (rest l))) in *.
  assert (Hr' : skipn w (rest l) = skipn (l_pos l) (l_content l)).
  { unfold rest. rewrite skipn_skipn'. f_equal. lia. }
  (* what step computes *)
  assert (Hs : l_content (step l) = l_content l /\ l_lastPos (step l) = l_pos l /\
     l_ch (step l) = fst (chOf (skipn (l_pos l) (l_content l))) /\
     l_pos (step l) = (l_pos l + snd (chOf (skipn (l_pos l) (l_content l))))%nat /\
     l_lines (step l) = l_lines l ++ linesIn (l_pos l) (firstn (l_pos (step l) - l_pos l) (skipn (l_pos l) (l_content l)))).
  { unfold step. destruct (Nat.eqb_spec (l_pos l) 0); [contradiction|].
    set (s := skipn (l_pos l) (l_content l)) in *.
    destruct (decodeRune s) as [cp n0] eqn:E.
    destruct (Nat.eqb_spec n0 0) as [->|Hn0].
    - assert (s = []) as Es. { apply decodeRune_size0. rewrite E. reflexivity. }
      simpl. rewrite Es. simpl. rewrite Nat.sub_diag. simpl. rewrite app_nil_r, Nat.add_0_r. auto.
    - assert (Es : s <> []). { intro Es. rewrite Es in E. inversion E. congruence. }
      assert (Ec : chOf s = if cp =? 13 then let '(nxt, ns) := decodeRune (skipn n0 s) in (nxt, (n0 + ns)%nat) else (cp, n0)).
      { unfold chOf. destruct s as [|b r] eqn:Eb; [contradiction|]. rewrite E. reflexivity. }
      rewrite Ec.
      destruct (Z.eqb_spec cp 13).
      + assert (Esk : skipn n0 s = skipn (l_pos l + n0) (l_content l)).
        { unfold s. rewrite skipn_skipn'. reflexivity. }
        rewrite <- Esk. destruct (decodeRune (skipn n0 s)) as [nxt ns] eqn:E2. simpl.
        repeat split; auto; try lia.
        replace (l_pos l + n0 + ns - l_pos l)%nat with (n0 + ns)%nat by lia.
        rewrite firstn_plus, linesIn_app.
        rewrite (linesIn_rune _ _ _ _ E), (linesIn_rune _ _ _ _ E2).
        subst cp. simpl.
        assert (length (firstn n0 s) = n0) as ->.
        { destruct s; [contradiction|]. apply decodeRune_cons in E as (? & _). apply firstn_length_le. simpl length in *; lia. }
        apply decodeRune_low in E as (? & ? & _ & _ & ->); [|lia].
        destruct (Z.eqb_spec nxt 10); [|rewrite app_nil_r; auto].
        apply decodeRune_low in E2 as (? & ? & _ & _ & ->); [|lia].
        f_equal. f_equal. lia.
      + simpl. repeat split; auto; try lia.
        replace (l_pos l + n0 - l_pos l)%nat with n0 by lia.
        rewrite (linesIn_rune _ _ _ _ E).
        destruct (Z.eqb_spec cp 10); [|rewrite app_nil_r; auto].
        apply decodeRune_low in E as (? & ? & _ & _ & ->); [|lia].
        f_equal. f_equal. lia. }
  destruct Hs as (S1 & S2 & S3 & S4 & S5).
  assert (Er : rest (step l) = skipn (l_pos l) (l_content l)).
  { unfold rest. rewrite S1, S2. reflexivity. }
  assert (Lf : length (firstn w (rest l)) = w) by (apply firstn_length_le; lia).
  unfold moves. repeat split; auto.
  - rewrite Er, <- Hr'. symmetry. apply firstn_skipn.
  - rewrite S2, Lf. lia.
  - rewrite S1, S2. auto.
  - rewrite Er. auto.
  - rewrite Er, S2. auto.
  - rewrite S4. lia.
Qed.

Lemma moves_refl l : cwf l -> moves l l [].
Proof.
  intros H. unfold moves, between. repeat split; auto; try apply H; try lia.
  rewrite Nat.sub_diag. simpl. rewrite app_nil_r. reflexivity.
Qed.

Lemma moves_cwf l l' t : moves l l' t -> cwf l'.
Proof. intros H; apply H. Qed.

Lemma moves_trans l1 l2 l3 t1 t2 : moves l1 l2 t1 -> moves l2 l3 t2 -> moves l1 l3 (t1 ++ t2).
Proof.
  intros (A1 & A2 & A3 & A4 & A5 & A6) (B1 & B2 & B3 & B4 & B5 & B6).
  unfold moves. split; [congruence|]. split; [rewrite A2, B2, app_assoc; reflexivity|].
  split; [rewrite B3, A3, app_length; lia|]. split; auto. split; [lia|].
  rewrite B6, A6, <- app_assoc. f_equal.
  unfold between. rewrite A1.
  replace (l_pos l3 - l_pos l1)%nat with ((l_pos l2 - l_pos l1) + (l_pos l3 - l_pos l2))%nat by lia.
  rewrite firstn_plus, linesIn_app. f_equal.
  rewrite skipn_skipn'.
  pose proof (cwf_pos_le _ A4) as L. rewrite A1 in L.
  rewrite firstn_length_le; [|rewrite skipn_length; lia].
  replace (l_pos l1 + (l_pos l2 - l_pos l1))%nat with (l_pos l2) by lia. reflexivity.
Qed.

Lemma frame_refl l : frame l l.
Proof. repeat split. Qed.
Lemma frame_trans l1 l2 l3 : frame l1 l2 -> frame l2 l3 -> frame l1 l3.
Proof. unfold frame. intuition congruence. Qed.

Definition movesF l l' t := moves l l' t /\ frame l l'.
Lemma movesF_refl l : cwf l -> movesF l l [].
Proof. split; [apply moves_refl; auto | apply frame_refl]. Qed.
Lemma movesF_trans l1 l2 l3 t1 t2 : movesF l1 l2 t1 -> movesF l2 l3 t2 -> movesF l1 l3 (t1 ++ t2).
Proof. intros [A B] [C D]. split; [eapply moves_trans; eauto | eapply frame_trans; eauto]. Qed.
Lemma movesF_cwf l l' t : movesF l l' t -> cwf l'.
Proof. intros H; apply H. Qed.
Lemma step_movesF l : cwf l -> l_ch l <> -1 ->
  movesF l (step l) (firstn (snd (chOf (rest l))) (rest l)).
Proof. intros. split; [apply step_moves; auto | apply step_frame]. Qed.

(** The text of one step. *)
Definition unitOf (l : lexer) : bytes := firstn (snd (chOf (rest l))) (rest l).
Lemma unitOf_pos l : cwf l -> l_ch l <> -1 -> (1 <= length (unitOf l))%nat.
Proof.
  intros H Hc. assert (rest l <> []). { intro E. apply Hc, cwf_eof; auto. }
  pose proof (chOf_nonempty _ H0) as [? _]. unfold unitOf. rewrite firstn_length_le; lia.
Qed.
Lemma unitOf_achar l c : cwf l -> l_ch l = bz c -> bz c < 128 -> achar c (unitOf l).
Proof.
  intros (H1 & H2 & H3) Hc L. rewrite H2 in Hc.
  apply chOf_low in Hc as (u & r & E1 & E2 & E3); auto.
  unfold unitOf. rewrite <- E3, E1, firstn_app, Nat.sub_diag, firstn_all, app_nil_r. exact E2.
Qed.

Lemma moves_len l l' t : moves l l' t -> length (rest l) = (length t + length (rest l'))%nat.
Proof. intros (_ & H & _). rewrite H, app_length. reflexivity. Qed.

Lemma bz_neg c : -1 <> bz c.
Proof. pose proof (bz_range c). lia. Qed.

(** [stepWhile] for a predicate false at end of input. *)
Lemma stepWhile_spec p fuel l : p (-1) = false -> cwf l -> (length (rest l) < fuel)%nat ->
  exists l' t, stepWhile p fuel l = Ok l' /\ movesF l l' t /\ p (l_ch l') = false /\
    (p (l_ch l) = true -> t <> []) /\ (t = [] -> l' = l).
Proof.
  intros Hp. revert l. induction fuel as [|f IH]; intros l Hw Hf; [lia|]. simpl.
  destruct (p (l_ch l)) eqn:E.
  - assert (Hc : l_ch l <> -1) by congruence.
    pose proof (step_movesF _ Hw Hc) as Hs. fold (unitOf l) in Hs.
    pose proof (unitOf_pos _ Hw Hc). pose proof (moves_len _ _ _ (proj1 Hs)).
    destruct (IH (step l)) as (l' & t & E1 & E2 & E3 & _); [eapply movesF_cwf; eauto | lia |].
    exists l', (unitOf l ++ t). split; auto. split; [eapply movesF_trans; eauto|]. split; auto.
    split; [intros _|]; intros E4; apply app_eq_nil in E4 as [E4 _]; rewrite E4 in H; simpl in H; lia.
  - exists l, []. repeat split; auto; try (apply movesF_refl; auto); try apply frame_refl. discriminate.
Qed.

(** Runs of white space. *)
Lemma isWhitespace_byte c : isWhitespace c = true ->
  exists b, c = bz b /\ bz b < 128 /\ (b = SP \/ b = TAB \/ b = LF).
Proof.
  unfold isWhitespace. rewrite !orb_true_iff, !Z.eqb_eq. intros [[->| ->]| ->].
  - exists LF. repeat split; auto.
  - exists TAB. repeat split; auto.
  - exists SP. repeat split; auto.
Qed.
Lemma stepWhile_ws fuel l : cwf l -> (length (rest l) < fuel)%nat ->
  exists l' t, stepWhile isWhitespace fuel l = Ok l' /\ movesF l l' t /\
    isWhitespace (l_ch l') = false /\ wsRun t /\ (isWhitespace (l_ch l) = true -> t <> []).
Proof.
  revert l. induction fuel as [|f IH]; intros l Hw Hf; [lia|]. simpl.
  destruct (isWhitespace (l_ch l)) eqn:E.
  - assert (Hc : l_ch l <> -1) by (intro X; rewrite X in E; discriminate).
    pose proof (step_movesF _ Hw Hc) as Hs. fold (unitOf l) in Hs.
    pose proof (unitOf_pos _ Hw Hc). pose proof (moves_len _ _ _ (proj1 Hs)).
    apply isWhitespace_byte in E as (b & E & Hb & Hw').
    pose proof (unitOf_achar _ _ Hw E Hb).
    destruct (IH (step l)) as (l' & t & E1 & E2 & E3 & E4 & _); [eapply movesF_cwf; eauto | lia |].
    exists l', (unitOf l ++ t). split; auto. split; [eapply movesF_trans; eauto|]. split; auto.
    split; [econstructor; eauto|].
    intros _ E5. apply app_eq_nil in E5 as [E5 _]. rewrite E5 in H. simpl in H. lia.
  - exists l, []. repeat split; auto; try (apply movesF_refl; auto); try apply frame_refl; try constructor. discriminate.
Qed.

(** peek(0) of a low character predicts the next step. *)
Lemma peek0_step l : cwf l -> l_ch l <> -1 -> peek l 0 <> 13 -> l_ch (step l) = peek l 0.
Proof.
  intros Hw Hc Hp. pose proof (step_moves _ Hw Hc) as (S1 & S2 & S3 & (S4 & S5 & S6) & _).
  pose proof (cwf_pos_le _ Hw) as L.
  assert (E : rest (step l) = skipn (l_pos l) (l_content l)).
  { unfold rest. rewrite S1, S3. f_equal. destruct Hw as (W1 & W2 & W3). rewrite W3. f_equal.
    apply firstn_length_le. apply chOf_bound. }
  rewrite S5, E. revert Hp. unfold peek. rewrite Nat.add_0_r.
  destruct (Nat.ltb_spec (length (l_content l)) (l_pos l)); [lia|].
  unfold chOf. destruct (skipn (l_pos l) (l_content l)) as [|b r] eqn:Es; [reflexivity|].
  destruct (decodeRune (b :: r)) as [cp n] eqn:Ed.
  assert (n <> 0)%nat by (apply decodeRune_cons in Ed as (? & _); lia).
  apply Nat.eqb_neq in H0. rewrite H0. intros Hp.
  destruct (Z.eqb_spec cp 13); [contradiction|reflexivity].
Qed.

(** More exactly: the text of the next unit when peek(0) is a low character. *)
Lemma peek0_unit l c : cwf l -> l_ch l <> -1 -> peek l 0 = bz c -> bz c < 128 -> bz c <> 13 ->
  unitOf (step l) = [c] /\ l_ch (step l) = bz c.
Proof.
  intros Hw Hc Hp L N. pose proof (step_moves _ Hw Hc) as (S1 & S2 & S3 & (S4 & S5 & S6) & _).
  pose proof (cwf_pos_le _ Hw) as Lp.
  assert (E : rest (step l) = skipn (l_pos l) (l_content l)).
  { unfold rest. rewrite S1, S3. f_equal. destruct Hw as (W1 & W2 & W3). rewrite W3. f_equal.
    apply firstn_length_le. apply chOf_bound. }
  revert Hp. unfold peek. rewrite Nat.add_0_r.
  destruct (Nat.ltb_spec (length (l_content l)) (l_pos l)); [lia|].
  unfold unitOf. rewrite S5, E.
  destruct (skipn (l_pos l) (l_content l)) as [|b r] eqn:Es.
  { simpl. intros X. pose proof (bz_range c). lia. }
  destruct (decodeRune (b :: r)) as [cp n] eqn:Ed.
  assert (n <> 0)%nat by (apply decodeRune_cons in Ed as (? & _); lia).
  apply Nat.eqb_neq in H0. rewrite H0. intros ->.
  apply decodeRune_low in Ed as (c' & r' & E1 & E2 & ->); auto. inversion E1; subst c' r'.
  apply bz_inj in E2. subst b. rewrite chOf_byte by auto. simpl. auto.
Qed.

Section WithUnicode.
Context {U : UnicodeDigits}.

Lemma isDigit_neg : isDigit (-1) = false.
Proof. reflexivity. Qed.
Lemma isHexDigit_neg : isHexDigit (-1) = false.
Proof. reflexivity. Qed.
Lemma isName_neg : isNameCodePoint (-1) = false.
Proof. reflexivity. Qed.

Lemma escapedLoop_spec n l : cwf l -> exists t, movesF l (escapedLoop n l) t.
Proof.
  revert l; induction n as [|n IH]; intros l Hw; simpl.
  - exists []. apply movesF_refl; auto.
  - destruct (isHexDigit (l_ch l)) eqn:E; [|exists []; apply movesF_refl; auto].
    assert (Hc : l_ch l <> -1) by (intro X; rewrite X in E; rewrite isHexDigit_neg in E; discriminate).
    pose proof (step_movesF _ Hw Hc) as Hs.
    destruct (isWhitespace (l_ch (step l))) eqn:Ew.
    + assert (Hc1 : l_ch (step l) <> -1) by (intro X; rewrite X in Ew; discriminate).
      pose proof (step_movesF _ (movesF_cwf _ _ _ Hs) Hc1) as Hs1.
      destruct (IH _ (movesF_cwf _ _ _ Hs1)) as [t Ht].
      eexists. eapply movesF_trans; [exact Hs|]. eapply movesF_trans; eauto.
    + destruct (IH _ (movesF_cwf _ _ _ Hs)) as [t Ht].
      eexists. eapply movesF_trans; eauto.
Qed.

Lemma nextEscaped_spec l : cwf l -> l_ch l <> -1 ->
  exists t, movesF l (nextEscaped l) t /\ (1 <= length t)%nat.
Proof.
  intros Hw Hc. unfold nextEscaped.
  pose proof (step_movesF _ Hw Hc) as Hs. fold (unitOf l) in Hs.
  pose proof (unitOf_pos _ Hw Hc).
  match goal with |- context [escapedLoop ?n _] => destruct (escapedLoop_spec n _ (movesF_cwf _ _ _ Hs)) as [t Ht] end.
  exists (unitOf l ++ t). split; [eapply movesF_trans; eauto|]. rewrite app_length; lia.
Qed.

Lemma startsEscape_ch c p : startsEscape c p = true -> c = 92.
Proof. unfold startsEscape. destruct (Z.eqb_spec c 92); simpl; congruence. Qed.

Lemma nextNameLoop_spec fuel l : cwf l -> (length (rest l) < fuel)%nat ->
  exists l' t, nextNameLoop fuel l = Ok l' /\ movesF l l' t /\
    (isNameCodePoint (l_ch l) = true \/ startsEscape (l_ch l) (peek l 0) = true -> t <> []).
Proof.
  revert l. induction fuel as [|f IH]; intros l Hw Hf; [lia|]. simpl.
  assert (Hnil : forall u t : bytes, (1 <= length u)%nat -> u ++ t <> []).
  { intros u t Hu E. apply app_eq_nil in E as [-> _]. simpl in Hu. lia. }
  destruct (isNameCodePoint (l_ch l)) eqn:E.
  - assert (Hc : l_ch l <> -1) by (intro X; rewrite X in E; discriminate).
    pose proof (step_movesF _ Hw Hc) as Hs. fold (unitOf l) in Hs.
    pose proof (unitOf_pos _ Hw Hc). pose proof (moves_len _ _ _ (proj1 Hs)).
    destruct (IH (step l)) as (l' & t & E1 & E2 & _); [eapply movesF_cwf; eauto | lia |].
    exists l', (unitOf l ++ t). split; auto. split; [eapply movesF_trans; eauto|]. auto.
  - destruct (startsEscape (l_ch l) (peek l 0)) eqn:E1.
    + pose proof (startsEscape_ch _ _ E1) as Hc92.
      destruct (nextEscaped_spec l) as (t & Ht & Hl); auto; [lia|].
      pose proof (moves_len _ _ _ (proj1 Ht)).
      destruct (IH (nextEscaped l)) as (l' & t' & E2 & E3 & _); [eapply movesF_cwf; eauto | lia |].
      exists l', (t ++ t'). split; auto. split; [eapply movesF_trans; eauto|]. auto.
    + exists l, []. split; auto. split; [apply movesF_refl; auto|]. intros [X|X]; discriminate.
Qed.

Lemma lfuel_rest l : (length (rest l) < lfuel l)%nat.
Proof. unfold lfuel, rest. rewrite skipn_length. lia. Qed.

Lemma nextName_spec l : cwf l ->
  exists l' t, nextName l = Ok l' /\ movesF l l' t /\
    (isNameCodePoint (l_ch l) = true \/ startsEscape (l_ch l) (peek l 0) = true -> t <> []).
Proof. intros. apply nextNameLoop_spec; auto. apply lfuel_rest. Qed.

(** Slicing between two positions of a move gives the consumed text. *)
Lemma contentSlice_moves l l' t : cwf l -> moves l l' t ->
  contentSlice l' (l_lastPos l) (l_lastPos l') = Ok t.
Proof.
  intros Hw (A1 & A2 & A3 & A4 & _). unfold contentSlice.
  rewrite slice_ok.
  - rewrite A1. fold (rest l). rewrite A2, A3.
    replace (l_lastPos l + length t - l_lastPos l)%nat with (length t) by lia.
    rewrite firstn_app, Nat.sub_diag, firstn_all, app_nil_r. reflexivity.
  - destruct A4 as [A4 _]. lia.
Qed.

Lemma nextNumber_spec l : cwf l -> exists l' t, nextNumber l = Ok l' /\ movesF l l' t /\
  ((l_ch l = 43 \/ l_ch l = 45 \/ isDigit (l_ch l) = true \/
    (l_ch l = 46 /\ isDigit (peek l 0) = true)) -> t <> []).
Proof.
  intros Hw. unfold nextNumber.
  set (l1 := if (l_ch l =? 43) || (l_ch l =? 45) then step l else l).
  assert (H1 : exists t, movesF l l1 t /\ (l_ch l = 43 \/ l_ch l = 45 -> t <> []) /\ (t = [] -> l1 = l)).
  { unfold l1. destruct ((l_ch l =? 43) || (l_ch l =? 45)) eqn:E.
    - assert (Hc : l_ch l <> -1). { apply orb_true_iff in E. rewrite !Z.eqb_eq in E. lia. }
      pose proof (unitOf_pos _ Hw Hc).
      exists (unitOf l). split; [apply step_movesF; auto|]. split.
      + intros _ E1. rewrite E1 in H. simpl in H. lia.
      + intros E1. rewrite E1 in H. simpl in H. lia.
    - exists []. split; [apply movesF_refl; auto|]. apply orb_false_iff in E. rewrite !Z.eqb_neq in E.
      split; auto. lia. }
  destruct H1 as (t1 & M1 & N1 & N1').
  destruct (stepWhile_spec isDigit (lfuel l1) l1 isDigit_neg (movesF_cwf _ _ _ M1) (lfuel_rest _)) as (l2 & t2 & E2 & M2 & _ & N2 & N2').
  rewrite E2. cbn [bind].
  assert (H3 : exists l3 t3, (if (l_ch l2 =? 46) && isDigit (peek l2 0)
         then stepWhile isDigit (lfuel l2) (step (step l2)) else Ok l2) = Ok l3 /\ movesF l2 l3 t3 /\
            ((l_ch l2 =? 46) && isDigit (peek l2 0) = true -> t3 <> [])).
  { pose proof (movesF_cwf _ _ _ M2) as W2.
    destruct ((l_ch l2 =? 46) && isDigit (peek l2 0)) eqn:E.
    - apply andb_true_iff in E as [Ea Eb]. apply Z.eqb_eq in Ea.
      assert (Hc : l_ch l2 <> -1) by lia.
      pose proof (step_movesF _ W2 Hc) as Hs.
      assert (Hp : peek l2 0 <> 13). { intro X. rewrite X in Eb. discriminate. }
      pose proof (peek0_step _ W2 Hc Hp) as Hc1.
      assert (Hc2 : l_ch (step l2) <> -1). { rewrite Hc1. intro X. rewrite X in Eb. discriminate. }
      pose proof (step_movesF _ (movesF_cwf _ _ _ Hs) Hc2) as Hs2.
      pose proof (moves_len _ _ _ (proj1 Hs)). pose proof (moves_len _ _ _ (proj1 Hs2)).
      pose proof (lfuel_rest l2).
      destruct (stepWhile_spec isDigit (lfuel l2) (step (step l2)) isDigit_neg (movesF_cwf _ _ _ Hs2)) as (l3 & t3 & E3 & M3 & _); [lia|].
      exists l3. eexists. split; [exact E3|]. split.
      + eapply movesF_trans; [exact Hs|]. eapply movesF_trans; eauto.
      + intros _ X. apply app_eq_nil in X as [X _]. pose proof (unitOf_pos _ W2 Hc) as P.
        unfold unitOf in P. rewrite X in P. simpl in P. lia.
    - exists l2, []. split; auto. split; [apply movesF_refl; auto | discriminate]. }
  destruct H3 as (l3 & t3 & E3 & M3 & N3). rewrite E3. cbn [bind].
  pose proof (movesF_cwf _ _ _ M3) as W3.
  assert (H4 : forall l' t', movesF l3 l' t' ->
    exists t, movesF l l' t /\ ((l_ch l = 43 \/ l_ch l = 45 \/ isDigit (l_ch l) = true \/
    (l_ch l = 46 /\ isDigit (peek l 0) = true)) -> t <> [])).
  { intros l' t' M4. exists (t1 ++ t2 ++ t3 ++ t'). split.
    - eapply movesF_trans; [exact M1|]. eapply movesF_trans; [exact M2|]. eapply movesF_trans; [exact M3|]. exact M4.
    - intros H E. apply app_eq_nil in E as [Ea Eb]. apply app_eq_nil in Eb as [Eb Ec].
      apply app_eq_nil in Ec as [Ec _].
      destruct H as [H|[H|[H|[H H']]]]; [apply N1; auto| apply N1; auto| |].
      + rewrite (N1' Ea) in N2. apply N2; auto.
      + apply N3; auto. rewrite (N2' Eb), (N1' Ea), H, H'. reflexivity. }
  match goal with |- context [if ?b then _ else _] => destruct b eqn:E end.
  - assert (Hc : l_ch l3 <> -1).
    { apply andb_true_iff in E as [E _]. apply orb_true_iff in E. rewrite !Z.eqb_eq in E. lia. }
    pose proof (step_movesF _ W3 Hc) as Hs. cbv zeta.
    set (l5 := if (l_ch (step l3) =? 43) || (l_ch (step l3) =? 45) then step (step l3) else step l3).
    assert (H5 : exists t, movesF (step l3) l5 t).
    { unfold l5. destruct ((l_ch (step l3) =? 43) || (l_ch (step l3) =? 45)) eqn:E5.
      - apply orb_true_iff in E5. rewrite !Z.eqb_eq in E5.
        eexists. apply step_movesF; [eapply movesF_cwf; eauto | lia].
      - exists []. apply movesF_refl. eapply movesF_cwf; eauto. }
    destruct H5 as [t5 M5].
    destruct (stepWhile_spec isDigit (lfuel l5) l5 isDigit_neg (movesF_cwf _ _ _ M5) (lfuel_rest _)) as (l6 & t6 & E6 & M6 & _).
    destruct (H4 l6 (unitOf l3 ++ t5 ++ t6)) as (t & Ht & Hn).
    { eapply movesF_trans; [exact Hs|]. eapply movesF_trans; eauto. }
    exists l6, t. auto.
  - destruct (H4 l3 []) as (t & Ht & Hn); [apply movesF_refl; auto|]. exists l3, t; auto.
Qed.

End WithUnicode.
