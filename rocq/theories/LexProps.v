(** Lemmas behind the lexer properties. *)
From Verif Require Import Bytes Utf8 Source Lexer BytesFacts LexSpec LexFacts LexNext Samples.
From Coq Require Import Sorting.Sorted.

Section WithUnicode.
Context {U : UnicodeDigits}.

(** * The invariant of sessions *)
Definition linv (content : bytes) (l : lexer) : Prop :=
  l_content l = content /\ cwf l /\ (l_start l <= l_lastPos l)%nat /\
  l_lines l = 0%nat :: linesIn 0 (firstn (l_pos l) content).

Lemma first_step content :
  l_content (step (zeroLexer content [])) = content /\ cwf (step (zeroLexer content [])) /\
  l_lastPos (step (zeroLexer content [])) = 0%nat /\
  l_lines (step (zeroLexer content [])) = 0%nat :: linesIn 0 (firstn (l_pos (step (zeroLexer content []))) content).
Proof.
  unfold step. cbn -[decodeRune skipn firstn Nat.eqb]. change ((0 =? 0)%nat) with true. cbn [skipn].
  destruct content as [|c r].
  { cbn. repeat split; try lia; try (left; reflexivity). }
  destruct (decodeRune (c :: r)) as [cp n] eqn:E.
  pose proof (decodeRune_cons _ _ _ _ E) as (Hn & Hcp & Hd).
  destruct (Nat.eqb_spec n 0); [lia|].
  destruct (Z.eqb_spec cp 13) as [E13|N13].
  - destruct Hd as [(D1 & D2 & ->)|(D1 & D2 & D3)]; [|lia]. cbn [skipn].
    assert (c = CR). { apply bz_inj. rewrite <- D2, E13. reflexivity. } subst c.
    change (0 + 1)%nat with 1%nat. cbn [skipn].
    destruct (decodeRune r) as [nx ns] eqn:E1.
    assert (Hcw : chOf (CR :: r) = (nx, S ns)).
    { unfold chOf. rewrite E. rewrite E13. cbn [Z.eqb skipn]. change (13 =? 13) with true. cbn [skipn]. rewrite E1. reflexivity. }
    unfold setCursor, cwf, rest, zeroLexer. cbn [l_content l_lastPos l_ch l_pos l_lines skipn]. rewrite Hcw.
    repeat split; try lia.
    cbn [firstn Nat.add app linesIn]. change (Byte.eqb CR LF) with false. cbn iota.
    destruct r as [|b r].
    + cbn in E1. inversion E1; subst. cbn. reflexivity.
    + pose proof (decodeRune_cons _ _ _ _ E1) as (Hn1 & Hcp1 & [(F1 & F2 & ->)|(F1 & F2 & F3)]).
      * cbn [firstn linesIn]. destruct (Z.eqb_spec nx 10) as [E10|N10].
        -- assert (b = LF). { apply bz_inj. rewrite <- F2, E10. reflexivity. } subst b. reflexivity.
        -- destruct (Byte.eqb b LF) eqn:EB; auto. apply byte_eqb_eq in EB; subst. elim N10. reflexivity.
      * rewrite linesIn_high; auto. destruct (Z.eqb_spec nx 10); [lia|reflexivity].
  - assert (Hcw : chOf (c :: r) = (cp, n)).
    { unfold chOf. rewrite E. destruct (Z.eqb_spec cp 13); [contradiction|reflexivity]. }
    unfold setCursor, cwf, rest, zeroLexer. cbn [l_content l_lastPos l_ch l_pos l_lines skipn]. rewrite Hcw.
    repeat split; try (cbn; lia).
    cbn [Nat.add]. destruct Hd as [(D1 & D2 & ->)|(D1 & D2 & D3)].
    + cbn [firstn linesIn]. destruct (Z.eqb_spec cp 10) as [E10|N10].
      * assert (c = LF). { apply bz_inj. rewrite <- D2, E10. reflexivity. } subst c. reflexivity.
      * destruct (Byte.eqb c LF) eqn:EB; auto. apply byte_eqb_eq in EB; subst. elim N10. reflexivity.
    + rewrite linesIn_high; auto. destruct (Z.eqb_spec cp 10); [lia|reflexivity].
Qed.

Lemma next_spec l : cwf l -> nextOk l (next l).
Proof. intros. apply nextLoop_spec; auto. apply lfuel_rest. Qed.

Lemma moves_lines content l l' t : l_content l = content ->
  l_lines l = 0%nat :: linesIn 0 (firstn (l_pos l) content) -> moves l l' t -> cwf l ->
  l_lines l' = 0%nat :: linesIn 0 (firstn (l_pos l') content).
Proof.
  intros Hc Hl (A1 & A2 & A3 & A4 & A5 & A6) Hw.
  rewrite A6, Hl. cbn [app]. f_equal. unfold between. rewrite Hc.
  replace (l_pos l') with (l_pos l + (l_pos l' - l_pos l))%nat at 2 by lia.
  rewrite firstn_plus, linesIn_app. cbn [Nat.add].
  rewrite firstn_length_le; [reflexivity|]. rewrite <- Hc. apply cwf_pos_le; auto.
Qed.

(** What one call from a state of the session does. *)
Definition callOk (content : bytes) (before : nat) (r : res lexer) : Prop :=
  match r with
  | Ok l' => linv content l' /\ (before <= l_start l')%nat /\
      gap (sub content before (l_start l')) /\
      tokenText (l_cur l') (l_str l') (l_num l') (sub content (l_start l') (l_lastPos l')) /\
      (l_start l' = l_lastPos l' ->
         (l_cur l' = EOF /\ l_start l' = length content) \/
         (l_cur l' <> EOF /\ stuck (skipn (l_start l') content)))
  | Panic (PLex sp _) ln => (before <= sp_start sp <= sp_end sp)%nat /\ (sp_end sp <= length content)%nat
  | _ => False
  end.

Lemma peek_byte l i c : cwf l -> peek l i = bz c -> bz c < 128 ->
  exists r, skipn (l_pos l + i) (l_content l) = c :: r.
Proof.
  intros Hw. unfold peek. pose proof (bz_range c) as Hb.
  destruct (Nat.ltb_spec (length (l_content l)) (l_pos l + i)); [lia|].
  destruct (decodeRune (skipn (l_pos l + i) (l_content l))) as [cp n] eqn:E.
  destruct (Nat.eqb_spec n 0); [lia|]. intros -> L.
  apply decodeRune_low in E as (c' & r & E1 & E2 & _); auto. apply bz_inj in E2. subst. eauto.
Qed.

Lemma peek_digit l i : isDigit (peek l i) = true -> digitFirst (skipn (l_pos l + i) (l_content l)).
Proof.
  unfold peek, digitFirst. destruct (Nat.ltb_spec (length (l_content l)) (l_pos l + i)); [discriminate|].
  destruct (decodeRune (skipn (l_pos l + i) (l_content l))) as [cp n] eqn:E.
  destruct (Nat.eqb_spec n 0); [discriminate|]. intros H1. split; [|exact H1].
  intros E1. rewrite E1 in E. cbn in E. inversion E. lia.
Qed.

Lemma skipn_cons_next {A} i (s : list A) c r : skipn i s = c :: r -> skipn (i + 1) s = r.
Proof. intros E. rewrite <- skipn_skipn', E. reflexivity. Qed.

Lemma zeroTok_stuck l t : cwf l -> zeroTok l t -> t <> EOF -> stuck (rest l).
Proof.
  intros Hw Hz Ht.
  assert (Hrest : forall c, l_ch l = bz c -> bz c < 128 ->
     exists u, achar c u /\ rest l = u ++ skipn (l_pos l) (l_content l)).
  { intros c Ec Hc. assert (Hn : l_ch l <> -1) by (pose proof (bz_range c); lia).
    exists (unitOf l). split; [apply unitOf_achar; auto|].
    pose proof (step_moves _ Hw Hn) as (S1 & S2 & S3 & _). fold (unitOf l) in S2, S3.
    rewrite S2 at 1. f_equal. unfold rest. rewrite S1, S3. f_equal.
    destruct Hw as (_ & _ & ->). unfold unitOf. rewrite firstn_length_le; [reflexivity|apply chOf_bound]. }
  unfold zeroTok in Hz. destruct Hz as [[_ X]|[(E & P0 & P1 & _)|[(E & P0 & P1 & P2 & _)|(E & Hd & _)]]].
  - contradiction.
  - destruct (Hrest "-"%byte E eq_refl) as (u & Hu & R).
    apply (peek_byte _ _ "-"%byte Hw) in P0 as (r0 & P0); [|reflexivity].
    apply (peek_byte _ _ ">"%byte Hw) in P1 as (r1 & P1); [|reflexivity].
    rewrite Nat.add_0_r in P0. rewrite (skipn_cons_next _ _ _ _ P0) in P1. subst r0.
    exists u, (B "->" ++ r1). rewrite R, P0. split; [reflexivity|]. left. eauto.
  - destruct (Hrest "<"%byte E eq_refl) as (u & Hu & R).
    apply (peek_byte _ _ "!"%byte Hw) in P0 as (r0 & P0); [|reflexivity].
    apply (peek_byte _ _ "-"%byte Hw) in P1 as (r1 & P1); [|reflexivity].
    apply (peek_byte _ _ "-"%byte Hw) in P2 as (r2 & P2); [|reflexivity].
    rewrite Nat.add_0_r in P0.
    replace (l_pos l + 2)%nat with (l_pos l + 1 + 1)%nat in P2 by lia.
    rewrite (skipn_cons_next _ _ _ _ P1) in P2. subst r1.
    rewrite (skipn_cons_next _ _ _ _ P0) in P1. subst r0.
    exists u, (B "!--" ++ r2). rewrite R, P0. split; [reflexivity|]. right; left. eauto.
  - destruct (Hrest "."%byte E eq_refl) as (u & Hu & R).
    destruct Hd as [Hs Hd]. unfold startsNumber in Hs.
    assert (D1 : isDigit (peek l 1) = true -> digitFirst (skipn (l_pos l + 1) (l_content l))) by apply peek_digit.
    assert (D2 : isDigit (peek l 2) = true -> digitFirst (skipn (l_pos l + 1 + 1) (l_content l))).
    { intros X. apply peek_digit in X. replace (l_pos l + 2)%nat with (l_pos l + 1 + 1)%nat in X by lia. exact X. }
    assert (Hsign : forall c, (c = "+"%byte \/ c = "-"%byte) -> peek l 0 = bz c ->
      (if isDigit (peek l 1) then true else if (peek l 1 =? 46) && isDigit (peek l 2) then true else false) = true ->
      stuck (rest l)).
    { intros c Hc P0 H1. apply (peek_byte _ _ _ Hw) in P0 as (r0 & P0); [|destruct Hc; subst; reflexivity].
      rewrite Nat.add_0_r in P0. pose proof (skipn_cons_next _ _ _ _ P0) as Q0.
      exists u, (c :: r0). rewrite R, P0. split; [reflexivity|]. right; right. split; auto.
      destruct (isDigit (peek l 1)) eqn:Ed1.
      - specialize (D1 eq_refl). rewrite Q0 in D1. exists r0. split; [|exact D1].
        destruct Hc; subst; cbn; auto.
      - destruct ((peek l 1 =? 46) && isDigit (peek l 2)) eqn:Ed2; [|discriminate].
        apply andb_true_iff in Ed2 as [Ea Eb]. apply Z.eqb_eq in Ea.
        apply (peek_byte _ _ "."%byte Hw) in Ea as (r1 & P1); [|reflexivity].
        specialize (D2 Eb). rewrite (skipn_cons_next _ _ _ _ P1) in D2. rewrite Q0 in P1. subst r0.
        exists r1. split; [|exact D2]. destruct Hc; subst; cbn; auto. }
    destruct ((peek l 0 =? 43) || (peek l 0 =? 45)) eqn:Es.
    + apply orb_true_iff in Es. rewrite !Z.eqb_eq in Es.
      destruct Es as [Es|Es]; [apply (Hsign "+"%byte)|apply (Hsign "-"%byte)]; auto.
    + destruct ((peek l 0 =? 46) && isDigit (peek l 1)) eqn:Ed; [|congruence].
      apply andb_true_iff in Ed as [Ea Eb]. apply Z.eqb_eq in Ea.
      apply (peek_byte _ _ "."%byte Hw) in Ea as (r0 & P0); [|reflexivity].
      rewrite Nat.add_0_r in P0. specialize (D1 Eb). rewrite (skipn_cons_next _ _ _ _ P0) in D1.
      exists u, ("."%byte :: r0). rewrite R, P0. split; [reflexivity|]. right; right. split; auto.
      exists r0. split; auto.
Qed.

Lemma sub_moves content l l' t : l_content l = content -> moves l l' t ->
  sub content (l_lastPos l) (l_lastPos l') = t.
Proof.
  intros Hc (A1 & A2 & A3 & _). unfold sub. rewrite <- Hc. fold (rest l).
  rewrite A2, A3. replace (l_lastPos l + length t - l_lastPos l)%nat with (length t) by lia.
  rewrite firstn_app, Nat.sub_diag, firstn_all, app_nil_r. reflexivity.
Qed.

Lemma call_spec content l : l_content l = content -> cwf l ->
  l_lines l = 0%nat :: linesIn 0 (firstn (l_pos l) content) ->
  callOk content (l_lastPos l) (next l).
Proof.
  intros Hc Hw Hl. pose proof (next_spec l Hw) as Hn. revert Hn.
  unfold nextOk, callOk. destruct (next l) as [l'|[sp m|] ln|]; auto.
  - intros (g & lm & text & Hg & _ & Mg & S1 & _ & _ & (Mt & T1 & T2 & T3 & T4) & Hz).
    pose proof (moves_lines _ _ _ _ Hc Hl Mg Hw) as Hl1.
    assert (Hc1 : l_content lm = content) by (destruct Mg as [-> _]; auto).
    assert (Hw1 : cwf lm) by (eapply moves_cwf; eauto).
    pose proof (moves_lines _ _ _ _ Hc1 Hl1 Mt Hw1) as Hl2.
    assert (Hst : l_start l' = l_lastPos lm) by congruence.
    pose proof (sub_moves _ _ _ _ Hc Mg) as G1. pose proof (sub_moves _ _ _ _ Hc1 Mt) as G2.
    rewrite Hst, G1, G2. split; [|split; [|split; [auto|split; [auto|]]]].
    + split; [destruct Mt as [-> _]; auto|]. split; [apply (moves_cwf _ _ _ Mt)|]. split; [|exact Hl2].
      rewrite Hst. destruct Mt as (_ & _ & -> & _). lia.
    + destruct Mg as (_ & _ & -> & _). lia.
    + intros E. assert (text = []).
      { destruct Mt as (_ & _ & M3 & _). destruct text; auto. cbn in M3. lia. }
      specialize (Hz H). pose proof Hz as Hz0. unfold zeroTok in Hz.
      destruct (token_eq_dec (l_cur l') EOF) as [He|He].
      * left. split; auto. destruct Hz as [[Hz _]|[(_ & _ & _ & Hz)|[(_ & _ & _ & _ & Hz)|(_ & _ & Hz)]]]; try congruence.
        apply cwf_eof in Hz; auto. assert (L : length (rest lm) = 0%nat) by (rewrite Hz; reflexivity).
        rewrite rest_len in L by auto. destruct Hw1 as [Hw1 _]. rewrite <- Hc1. lia.
      * right. split; auto. rewrite <- Hc1. fold (rest lm).
        eapply zeroTok_stuck; eauto.
  - intros (g & lm & l'' & t & Hg & Mg & S1 & [M F] & -> & _). unfold tokenSpan. cbn.
    destruct F as (F1 & _). pose proof (moves_cwf _ _ _ M) as [W _].
    destruct M as (M1 & _ & M3 & _), Mg as (G1 & _ & G3 & _). rewrite M1, G1, Hc in W. lia.
Qed.

Lemma call_skipped content l l' : l_content l = content -> cwf l -> next l = Ok l' ->
  skipped (l_rws l) (l_rcom l) (sub content (l_lastPos l) (l_start l')).
Proof.
  intros Hc Hw E. pose proof (next_spec l Hw) as Hn. rewrite E in Hn.
  destruct Hn as (g & lm & text & _ & Hs & Mg & S1 & _ & _ & (Mt & T1 & _) & _).
  rewrite T1, S1, (sub_moves _ _ _ _ Hc Mg). exact Hs.
Qed.

Lemma flags_cwf l a b : cwf l -> cwf (withFlags l a b).
Proof. exact (fun H => H). Qed.

Lemma new_spec content : callOk content 0 (newLexer content []).
Proof.
  unfold newLexer. destruct (first_step content) as (F1 & F2 & F3 & F4).
  rewrite <- F3 at 1. apply call_spec; auto.
Qed.

Lemma session_inv content l : session content l -> linv content l.
Proof.
  intros H. induction H as [l E|l ws com l' Hs IH E].
  - pose proof (new_spec content) as Hn. rewrite E in Hn. apply Hn.
  - destruct IH as (I1 & I2 & I3 & I4).
    pose proof (call_spec content (withFlags l ws com) I1 I2 I4) as Hn. rewrite E in Hn. apply Hn.
Qed.

Lemma session_call content l ws com : session content l ->
  callOk content (l_lastPos l) (next (withFlags l ws com)).
Proof.
  intros H. destruct (session_inv _ _ H) as (I1 & I2 & I3 & I4).
  exact (call_spec content (withFlags l ws com) I1 I2 I4).
Qed.

Lemma sessions_session content ls l : sessions content ls l -> session content l.
Proof. intros H; induction H; [apply sNew; auto | eapply sNext; eauto]. Qed.

(** * C04: number of tokens *)
Lemma sessions_len content ls l : sessions content ls l ->
  (forall i, ~ stuck (skipn i content)) ->
  Forall (fun l => l_cur l <> EOF) ls -> (length ls <= l_lastPos l)%nat.
Proof.
  intros H Hns. induction H as [l E|ls l ws com l' Hs IH E]; intros Hf.
  - pose proof (new_spec content) as Hn. rewrite E in Hn. destruct Hn as ((I1 & I2 & I3 & I4) & N1 & N2 & N3 & N4).
    inversion Hf; subst. cbn. destruct (Nat.eq_dec (l_start l) (l_lastPos l)) as [e|n]; [|lia].
    destruct (N4 e) as [[X _]|[_ X]]; [congruence|destruct (Hns _ X)].
  - apply Forall_app in Hf as [Hf1 Hf2]. inversion Hf2; subst.
    pose proof (session_call content l ws com (sessions_session _ _ _ Hs)) as Hn. rewrite E in Hn.
    destruct Hn as ((I1 & I2 & I3 & I4) & N1 & N2 & N3 & N4).
    specialize (IH Hf1). rewrite app_length. cbn [length].
    destruct (Nat.eq_dec (l_start l') (l_lastPos l')) as [e|n]; [|lia].
    destruct (N4 e) as [[X _]|[_ X]]; [congruence|destruct (Hns _ X)].
Qed.

(** * C05, C06: strict versions *)
Lemma noLoneCR_suffix a s : noLoneCR (a ++ s) -> noLoneCR s.
Proof. intros H x r E. apply (H (a ++ x) r). rewrite E, app_assoc. reflexivity. Qed.

Lemma achar_strict c u r : noLoneCR (u ++ r) -> achar c u -> c <> LF -> u = [c].
Proof.
  intros Hn [->| ->] Hc; auto. destruct (Hn [] (c :: r) eq_refl) as [r' E]. inversion E; congruence.
Qed.

Lemma wsRun_strict t r : wsRun t -> noLoneCR (t ++ r) -> forall g, gapStrict g -> gapStrict (t ++ g).
Proof.
  intros Ht. revert r. induction Ht as [|c u t Hc Hu Ht IH]; intros r Hn g Hg; [exact Hg|].
  rewrite <- app_assoc in *.
  specialize (IH r (noLoneCR_suffix _ _ Hn) g Hg).
  destruct Hu as [->| ->]; cbn.
  - destruct Hc as [->|[->| ->]]; constructor; auto.
  - destruct (Hn [] (c :: t ++ r) eq_refl) as [r' E]. inversion E; subst. constructor; auto.
Qed.

Lemma gap_strict g r : gap g -> noLoneCR (g ++ r) -> gapStrict g.
Proof.
  intros Hg. revert r. induction Hg as [|t g Ht Hg IH|body t g Ht Hg IH]; intros r Hn.
  - constructor.
  - rewrite <- app_assoc in Hn. eapply wsRun_strict; eauto. eapply IH. eapply noLoneCR_suffix; eauto.
  - rewrite <- app_assoc in Hn. destruct Ht as (u1 & u2 & u3 & H1 & H2 & H3 & -> & Hb).
    rewrite <- !app_assoc in *.
    assert (E1 : u1 = B "/") by (eapply achar_strict; eauto; discriminate). subst u1.
    pose proof (noLoneCR_suffix _ _ (noLoneCR_suffix _ _ (noLoneCR_suffix _ _ Hn))) as Hn2.
    assert (E2 : u2 = B "*") by (eapply achar_strict; eauto; discriminate). subst u2.
    pose proof (noLoneCR_suffix _ _ Hn2) as Hn3.
    assert (E3 : u3 = B "/") by (eapply achar_strict; eauto; discriminate). subst u3.
    change (B "/" ++ B "*" ++ body ++ B "*" ++ B "/" ++ g) with (B "/*" ++ body ++ B "*/" ++ g).
    constructor; auto. eapply IH. eapply noLoneCR_suffix; eauto.
Qed.

Lemma tokenText_strict t str num text r : noLoneCR (text ++ r) ->
  tokenText t str num text -> tokenTextStrict t str num text.
Proof.
  intros Hn. destruct t; cbn [tokenText tokenTextStrict]; auto; intros H.
  1-9: eapply achar_strict; eauto; discriminate.
  - destruct H as (u1 & u2 & u3 & H1 & H2 & H3 & -> & Hb). split; auto.
    rewrite <- !app_assoc in *.
    assert (E1 : u1 = B "/") by (eapply achar_strict; eauto; discriminate). subst u1.
    pose proof (noLoneCR_suffix _ _ (noLoneCR_suffix _ _ (noLoneCR_suffix _ _ Hn))) as Hn2.
    assert (E2 : u2 = B "*") by (eapply achar_strict; eauto; discriminate). subst u2.
    pose proof (noLoneCR_suffix _ _ Hn2) as Hn3.
    assert (E3 : u3 = B "/") by (eapply achar_strict; eauto; discriminate). subst u3. reflexivity.
  - destruct H as (name & u1 & s & u2 & H1 & H2 & H3 & H4 & ->). exists name, s.
    split; auto. split; auto. rewrite <- !app_assoc in *.
    pose proof (noLoneCR_suffix _ _ Hn) as Hn1.
    assert (E1 : u1 = B "(") by (eapply achar_strict; eauto; discriminate). subst u1.
    pose proof (noLoneCR_suffix _ _ (noLoneCR_suffix _ _ (noLoneCR_suffix _ _ Hn1))) as Hn2.
    assert (E2 : u2 = B ")") by (eapply achar_strict; eauto; discriminate). subst u2. reflexivity.
  - destruct H as (u & s & H1 & H2 & ->). exists s. split; auto. rewrite <- !app_assoc in *.
    pose proof (noLoneCR_suffix _ _ Hn) as Hn1.
    assert (E1 : u = B "(") by (eapply achar_strict; eauto; discriminate). subst u. reflexivity.
  - destruct H as (u & H1 & ->). rewrite <- app_assoc in Hn.
    assert (E1 : u = B "@") by (eapply achar_strict; eauto; discriminate). subst u. reflexivity.
  - destruct H as (u & H1 & ->). rewrite <- app_assoc in Hn.
    assert (E1 : u = B "#") by (eapply achar_strict; eauto; discriminate). subst u. reflexivity.
  - destruct H as (u & H1 & ->). rewrite <- app_assoc in Hn. pose proof (noLoneCR_suffix _ _ Hn) as Hn1.
    assert (E1 : u = B "%") by (eapply achar_strict; eauto; discriminate). subst u. reflexivity.
  - destruct H as (q & u1 & u2 & Hq & H1 & H2 & ->). exists q. split; auto.
    assert (q <> LF) by (destruct Hq; subst; discriminate).
    rewrite <- !app_assoc in *.
    assert (E1 : u1 = [q]) by (eapply achar_strict; eauto). subst u1.
    pose proof (noLoneCR_suffix _ _ (noLoneCR_suffix _ _ Hn)) as Hn2.
    assert (E2 : u2 = [q]) by (eapply achar_strict; eauto). subst u2. reflexivity.
Qed.

Lemma sub_split content a b : (a <= b <= length content)%nat ->
  content = firstn a content ++ sub content a b ++ skipn b content.
Proof.
  intros H. unfold sub. rewrite <- (firstn_skipn a content) at 1. f_equal.
  rewrite <- (firstn_skipn (b - a) (skipn a content)) at 1. f_equal.
  rewrite skipn_skipn'. f_equal. lia.
Qed.

Lemma noLoneCR_sub content a b : (a <= b <= length content)%nat -> noLoneCR content ->
  noLoneCR (sub content a b ++ skipn b content).
Proof. intros H Hn. rewrite (sub_split content a b H) in Hn. eapply noLoneCR_suffix; eauto. Qed.

(** * C08 *)
Lemma linesIn_sorted o s : (forall x, In x (linesIn o s) -> (o < x <= o + length s)%nat) /\
  StronglySorted lt (linesIn o s).
Proof.
  revert o; induction s as [|c s IH]; intros o; cbn; [split; [contradiction|constructor]|].
  destruct (IH (S o)) as [I1 I2].
  destruct (Byte.eqb c LF).
  - split.
    + intros x [<-|Hx]; [lia|]. apply I1 in Hx. lia.
    + constructor; auto. apply Forall_forall. intros x Hx. apply I1 in Hx. lia.
  - split; auto. intros x Hx. apply I1 in Hx. lia.
Qed.

Lemma lineStarts_sorted s : StronglySorted lt (lineStarts s).
Proof.
  unfold lineStarts. destruct (linesIn_sorted 0 s) as [H1 H2]. constructor; auto.
  apply Forall_forall. intros x Hx. apply H1 in Hx. lia.
Qed.

(** Independent reading of the table: [x] is listed iff it is 0 or the byte
    before it is a line feed. *)
Lemma linesIn_iff o s x : In x (linesIn o s) <->
  exists i, x = S (o + i) /\ nth_error s i = Some LF.
Proof.
  revert o; induction s as [|c s IH]; intros o; cbn.
  - split; [contradiction|]. intros (i & _ & E). destruct i; discriminate.
  - assert (Hc : Byte.eqb c LF = true <-> c = LF) by apply byte_eqb_eq.
    destruct (Byte.eqb c LF) eqn:E.
    + cbn. rewrite IH. split.
      * intros [<-|(i & -> & Hi)]; [exists 0%nat; split; [lia|cbn; f_equal; apply Hc; auto]|exists (S i); split; [lia|auto]].
      * intros ([|i] & -> & Hi); [left; lia|right; exists i; split; [lia|auto]].
    + rewrite IH. split.
      * intros (i & -> & Hi). exists (S i); split; [lia|auto].
      * intros ([|i] & -> & Hi).
        -- cbn in Hi. inversion Hi. assert (false = true) by (apply Hc; auto). discriminate.
        -- exists i; split; [lia|auto].
Qed.

Lemma session_eof content l : session content l -> l_cur l = EOF ->
  l_lastPos l = length content /\ l_lines l = lineStarts content.
Proof.
  intros H He.
  assert (Hy : exists n, callOk content n (Ok l)).
  { inversion H as [l1 E|l0 ws com l1 Hs E]; subst.
    - exists 0%nat. rewrite <- E. apply new_spec.
    - exists (l_lastPos l0). rewrite <- E. apply session_call; auto. }
  destruct Hy as (n & (I1 & I2 & I3 & I4) & N1 & N2 & N3 & N4).
  rewrite He in N3. cbn in N3.
  assert (Hw := I2). destruct Hw as (W1 & W2 & W3). rewrite I1 in W1.
  assert (Hlen : (l_lastPos l - l_start l = 0)%nat).
  { pose proof (f_equal (@length byte) N3) as L. unfold sub in L. rewrite firstn_length_le in L; [exact L|].
    rewrite skipn_length. lia. }
  assert (E : l_start l = l_lastPos l) by lia.
  destruct (N4 E) as [[_ X]|[X _]]; [|congruence].
  split; [congruence|]. rewrite I4. unfold lineStarts. f_equal.
  rewrite firstn_all2; auto. lia.
Qed.

End WithUnicode.

(** * The property lemmas *)
Lemma C01_lemma : forall (U : UnicodeDigits) content,
  newLexer content [] <> Timeout /\
  forall l ws com, session content l -> next (withFlags l ws com) <> Timeout.
Proof.
  intros U content. split.
  - pose proof (new_spec content) as H. intros E. rewrite E in H. exact H.
  - intros l ws com Hs E. pose proof (session_call content l ws com Hs) as H. rewrite E in H. exact H.
Qed.

Lemma C02_lemma : forall (U : UnicodeDigits) content r,
  (r = newLexer content [] \/
   exists l ws com, session content l /\ r = next (withFlags l ws com)) ->
  match r with
  | Ok l => (l_lastPos l <= l_pos l <= length content)%nat
  | Panic (PLex sp _) _ => (sp_start sp <= sp_end sp <= length content)%nat
  | Panic PRuntime _ => False
  | Timeout => False
  end.
Proof.
  intros U content r Hr.
  assert (H : exists n, callOk content n r).
  { destruct Hr as [->|(l & ws & com & Hs & ->)]; [exists 0%nat; apply new_spec | eexists; apply session_call; auto]. }
  destruct H as [n H]. unfold callOk in H. destruct r as [l|[sp m|] ln|]; auto; [|lia].
  destruct H as ((I1 & I2 & _) & _). pose proof (cwf_pos_le _ I2) as L. rewrite I1 in L.
  destruct I2 as (_ & _ & W3). lia.
Qed.

Lemma C03_lemma : forall (U : UnicodeDigits) content l ws com l',
  session content l -> next (withFlags l ws com) = Ok l' ->
  (l_start l <= l_lastPos l <= l_start l')%nat /\
  (l_start l' <= l_lastPos l' <= length content)%nat /\
  tokenSpan l' = mkSpan (l_start l') (l_lastPos l') /\
  l_content l' = content.
Proof.
  intros U content l ws com l' Hs E. pose proof (session_call content l ws com Hs) as H. rewrite E in H.
  destruct H as ((I1 & I2 & I3 & _) & N1 & _). destruct (session_inv _ _ Hs) as (_ & _ & J3 & _).
  destruct I2 as (W & _). rewrite I1 in W. repeat split; auto; lia.
Qed.

Lemma C04_lemma : forall (U : UnicodeDigits) content l ws com l',
  session content l -> next (withFlags l ws com) = Ok l' -> l_cur l' <> EOF ->
  (l_lastPos l < l_lastPos l')%nat \/ stuck (skipn (l_start l') content).
Proof.
  intros U content l ws com l' Hs E He. pose proof (session_call content l ws com Hs) as H. rewrite E in H.
  destruct H as ((I1 & I2 & I3 & _) & N1 & _ & _ & N4).
  destruct (Nat.eq_dec (l_start l') (l_lastPos l')) as [e|n]; [|left; lia].
  destruct (N4 e) as [[X _]|[_ X]]; [congruence|auto].
Qed.

Lemma C04_count_lemma : forall (U : UnicodeDigits) content ls l,
  sessions content ls l -> (forall i, ~ stuck (skipn i content)) ->
  Forall (fun l => l_cur l <> EOF) ls -> (length ls <= length content)%nat.
Proof.
  intros U content ls l Hs Hn Hf. pose proof (sessions_len _ _ _ Hs Hn Hf).
  destruct (session_inv _ _ (sessions_session _ _ _ Hs)) as (I1 & (W & _) & _). rewrite I1 in W. lia.
Qed.

Lemma C04_refuted_lemma : forall (U : UnicodeDigits),
  (exists l, session (B "-->") l) /\
  (forall l, session (B "-->") l -> l_cur l = CDC /\ l_lastPos l = 0%nat /\
     forall ws com, exists l', next (withFlags l ws com) = Ok l').
Proof.
  intros U.
  set (L := mkLexer 45 1 0 0 (B "-->") [0%nat] CDC [] [] false false).
  assert (H0 : newLexer (B "-->") [] = Ok L) by (vm_compute; reflexivity).
  assert (H1 : forall ws com, next (withFlags L ws com) = Ok (withFlags L ws com)).
  { intros ws com. vm_compute. reflexivity. }
  assert (H2 : forall l, session (B "-->") l -> exists ws com, l = withFlags L ws com).
  { intros l H. induction H as [l E|l ws com l' Hs (ws' & com' & ->) E].
    - exists false, false. rewrite H0 in E. inversion E. reflexivity.
    - change (withFlags (withFlags L ws' com') ws com) with (withFlags L ws com) in E.
      rewrite H1 in E. inversion E. eauto. }
  split; [exists L; apply sNew; auto|].
  intros l H. destruct (H2 l H) as (ws & com & ->). repeat split.
  intros ws' com'. exists (withFlags L ws' com'). apply H1.
Qed.

Lemma C05_lemma : forall (U : UnicodeDigits) content l ws com l',
  session content l -> next (withFlags l ws com) = Ok l' ->
  skipped ws com (sub content (l_lastPos l) (l_start l')) /\
  (noLoneCR content -> gapStrict (sub content (l_lastPos l) (l_start l'))).
Proof.
  intros U content l ws com l' Hs E. pose proof (session_call content l ws com Hs) as H. rewrite E in H.
  destruct H as ((I1 & I2 & I3 & _) & N1 & N2 & _). split.
  { destruct (session_inv _ _ Hs) as (J1 & J2 & _). exact (call_skipped content (withFlags l ws com) l' J1 J2 E). }
  intros Hn. destruct I2 as (W & _). rewrite I1 in W.
  eapply gap_strict; eauto. apply noLoneCR_sub; auto. lia.
Qed.

Lemma C05_first_lemma : forall (U : UnicodeDigits) content l,
  newLexer content [] = Ok l ->
  gap (sub content 0 (l_start l)) /\ (noLoneCR content -> gapStrict (sub content 0 (l_start l))).
Proof.
  intros U content l E. pose proof (new_spec content) as H. rewrite E in H.
  destruct H as ((I1 & I2 & I3 & _) & N1 & N2 & _). split; auto.
  intros Hn. destruct I2 as (W & _). rewrite I1 in W.
  eapply gap_strict; eauto. apply noLoneCR_sub; auto. lia.
Qed.

Lemma C05_eof_lemma : forall (U : UnicodeDigits) content l,
  session content l -> l_cur l = EOF -> l_lastPos l = length content.
Proof. intros U content l Hs He. apply (session_eof _ _ Hs He). Qed.

Lemma C05_refuted_lemma : forall (U : UnicodeDigits),
  exists content l, newLexer content [] = Ok l /\ ~ gapStrict (sub content 0 (l_start l)).
Proof.
  intros U. set (c := B "/**" ++ [CR] ++ B "/;").
  exists c. eexists. split; [vm_compute; reflexivity|].
  cbn [l_start]. change (sub c 0 5) with (B "/**" ++ [CR] ++ B "/").
  intros H. inversion H as [| | | | |body r Hb Hr E].
  (* no strict comment can match: it would need a "*/" *)
  destruct body as [|x [|y [|z body]]]; cbn in E; inversion E.
  destruct body; cbn in *; discriminate.
Qed.

Lemma C06_lemma : forall (U : UnicodeDigits) content l,
  session content l ->
  let text := sub content (l_start l) (l_lastPos l) in
  tokenText (l_cur l) (l_str l) (l_num l) text /\
  (noLoneCR content -> tokenTextStrict (l_cur l) (l_str l) (l_num l) text).
Proof.
  intros U content l H text.
  assert (Hy : exists n, callOk content n (Ok l)).
  { inversion H as [l1 E|l0 ws com l1 Hs E]; subst.
    - exists 0%nat. rewrite <- E. apply new_spec.
    - exists (l_lastPos l0). rewrite <- E. apply session_call; auto. }
  destruct Hy as (n & (I1 & (W & _) & I3 & I4) & N1 & N2 & N3 & N4). rewrite I1 in W.
  split; auto. intros Hn. eapply tokenText_strict; eauto. apply noLoneCR_sub; auto.
Qed.

Lemma C08_lemma : forall (U : UnicodeDigits) content l,
  session content l -> l_cur l = EOF ->
  l_lines l = lineStarts content /\
  StronglySorted lt (l_lines l) /\
  forall x, In x (l_lines l) <-> x = 0%nat \/ exists i, x = S i /\ nth_error content i = Some LF.
Proof.
  intros U content l Hs He. destruct (session_eof _ _ Hs He) as [_ ->].
  split; auto. split; [apply lineStarts_sorted|].
  intros x. unfold lineStarts. cbn [In]. rewrite linesIn_iff. split; intros [H|H]; auto.
Qed.

(** Decides [stuck] away from non-ASCII digits; only used on samples. *)
Lemma noDot_notStuck {U : UnicodeDigits} r c r' : r = c :: r' ->
  c <> CR -> c <> "-"%byte -> c <> "<"%byte -> c <> "."%byte -> ~ stuck r.
Proof.
  intros -> H1 H2 H3 H4 (u & t & E & Hs).
  destruct Hs as [[Hu _]|[[Hu _]|[Hu _]]]; destruct Hu as [-> | ->]; inversion E; congruence.
Qed.
Lemma nil_notStuck {U : UnicodeDigits} : ~ stuck [].
Proof.
  intros (u & t & E & Hs). symmetry in E. apply app_eq_nil in E as [-> _].
  destruct Hs as [[[Hu|Hu] _]|[[[Hu|Hu] _]|[[Hu|Hu] _]]]; discriminate.
Qed.

Fixpoint runSession {U : UnicodeDigits} (fuel : nat) (ls : list lexer) (l : lexer) : list lexer * lexer :=
  match fuel with
  | O => (ls, l)
  | S f => match next (withFlags l false false) with Ok l' => runSession f (ls ++ [l']) l' | _ => (ls, l) end
  end.
Lemma runSession_ok {U : UnicodeDigits} content fuel : forall ls l, sessions content ls l ->
  sessions content (fst (runSession fuel ls l)) (snd (runSession fuel ls l)).
Proof.
  induction fuel as [|f IH]; intros ls l H; cbn [runSession]; auto.
  destruct (next (withFlags l false false)) eqn:E; auto. apply IH. eapply ssNext; eauto.
Qed.

Lemma session_sample_lemma :
  let U := asciiOnly in
  let content := B "@media /*x*/ 'a'" ++ [LF] ++ B "#b{1.5px}" in
  exists ls l, sessions content ls l /\ length ls = 7%nat /\ l_cur l = EOF /\
    noLoneCR content /\ (forall i, ~ stuck (skipn i content)) /\ l_lines l = [0; 17]%nat.
Proof.
  intros U content.
  destruct (newLexer content []) as [l0| |] eqn:E0; [|vm_compute in E0; discriminate|vm_compute in E0; discriminate].
  exists (fst (runSession 6 [l0] l0)), (snd (runSession 6 [l0] l0)).
  split; [apply runSession_ok, ssNew; auto|].
  vm_compute in E0. inversion E0; subst l0.
  split; [vm_compute; reflexivity|]. split; [vm_compute; reflexivity|].
  split. { intros a r E. exfalso. assert (Hin : In CR content) by (rewrite E; apply in_or_app; right; left; auto).
    revert Hin. vm_compute. intuition discriminate. }
  split; [|vm_compute; reflexivity].
  intros i. do 21 (destruct i as [|i]; [eapply noDot_notStuck; [reflexivity|discriminate..]|]).
  (* the dot of 1.5 is followed by a digit and then by a letter *)
  destruct i as [|i].
  { intros (u & t & E & Hs). cbn [skipn content] in E.
    destruct Hs as [[Hu _]|[[Hu _]|[Hu [t' [Ht _]]]]]; destruct Hu as [-> | ->]; try (cbn in E; discriminate).
    injection E as E. subst t. destruct Ht as [Ht|[Ht|[Ht|[Ht|Ht]]]]; discriminate. }
  do 4 (destruct i as [|i]; [eapply noDot_notStuck; [reflexivity|discriminate..]|]).
  replace (skipn _ content) with (@nil byte) by (destruct i; reflexivity). apply nil_notStuck.
Qed.
