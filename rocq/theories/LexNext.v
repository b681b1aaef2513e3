(** The master lemma on Next: what one call consumes and delivers. *)
From Verif Require Import Bytes Utf8 Source Lexer BytesFacts LexSpec LexFacts.

Section WithUnicode.
Context {U : UnicodeDigits}.

(** * Comments *)
Lemma unit_class l : cwf l -> l_ch l <> -1 ->
  exists pre c, unitOf l = pre ++ [c] /\ Forall (fun b => b = CR \/ 128 <= bz b) pre /\
    (bz c < 128 -> bz c <> 13 -> l_ch l = bz c).
Proof.
  intros Hw Hc. assert (Hr : rest l <> []). { intro E. apply Hc, cwf_eof; auto. }
  destruct Hw as (W1 & W2 & W3). rewrite W2. unfold unitOf. clear W1 W2 W3 Hc.
  destruct (rest l) as [|b r]; [congruence|]. unfold chOf.
  assert (HF : forall s : bytes, s <> [] -> Forall (fun b => 128 <= bz b) s ->
    exists pre c, s = pre ++ [c] /\ Forall (fun b => b = CR \/ 128 <= bz b) pre /\ 128 <= bz c).
  { intros s Hs Hf. destruct (exists_last Hs) as (pre & c & ->). exists pre, c.
    apply Forall_app in Hf as [Hf1 Hf2]. inversion Hf2; subst. repeat split; auto.
    eapply Forall_impl; [|exact Hf1]. simpl; auto. }
  destruct (decodeRune (b :: r)) as [cp n] eqn:E.
  apply decodeRune_cons in E as (Hn & Hcp & Hd).
  destruct (Z.eqb_spec cp 13) as [E13|N13].
  - destruct Hd as [(D1 & D2 & ->)|(D1 & D2 & D3)]; [|lia].
    assert (b = CR). { apply bz_inj. rewrite <- D2, E13. reflexivity. } subst b.
    destruct r as [|b1 r1].
    + exists [], CR. simpl. repeat split; auto; intros; exfalso; auto.
    + simpl skipn. destruct (decodeRune (b1 :: r1)) as [cp1 n1] eqn:E1.
      apply decodeRune_cons in E1 as (Hn1 & Hcp1 & Hd1). simpl fst. simpl snd.
      destruct Hd1 as [(F1 & F2 & ->)|(F1 & F2 & F3)].
      * exists [CR], b1. simpl. repeat split; auto.
      * assert (EF : firstn (1 + n1) (CR :: b1 :: r1) = CR :: firstn n1 (b1 :: r1)) by reflexivity.
        cbn [Nat.add] in *. rewrite EF. clear EF.
        destruct (HF (firstn n1 (b1 :: r1))) as (pre & c & H1 & H2 & H3); auto.
        { destruct n1; [lia|simpl; congruence]. }
        exists (CR :: pre), c. rewrite H1. repeat split; auto. lia.
  - simpl fst. simpl snd. destruct Hd as [(D1 & D2 & ->)|(D1 & D2 & D3)].
    + exists [], b. simpl. repeat split; auto.
    + destruct (HF (firstn n (b :: r))) as (pre & c & H1 & H2 & H3); auto.
      { destruct n; [lia|simpl; congruence]. }
      exists pre, c. rewrite H1. repeat split; auto. lia.
Qed.

(** A "*/" at or after the first unit starts after that unit, or the unit ends
    in a star. *)
Lemma unit_close l s a b : cwf l -> l_ch l <> -1 -> unitOf l ++ s = a ++ B "*/" ++ b ->
  (exists a', s = a' ++ B "*/" ++ b) \/ (l_ch l = 42 /\ exists s', s = "/"%byte :: s').
Proof.
  intros Hw Hc. destruct (unit_class _ Hw Hc) as (pre & c & -> & Hp & Hl).
  revert a. induction Hp as [|x pre Hx Hp IH]; intros a E; simpl in E.
  - destruct a as [|y a]; simpl in E; inversion E; subst.
    + right. split; [apply Hl; [reflexivity | discriminate] | eauto].
    + left. eauto.
  - destruct a as [|y a]; simpl in E; inversion E; subst.
    + destruct Hx as [Hx|Hx]; [discriminate Hx | exfalso; apply Hx; reflexivity].
    + eauto.
Qed.

Lemma chOf_slash r : fst (chOf (B "/" ++ r)) = 47.
Proof. reflexivity. Qed.

Lemma commentLoop_spec fuel l : cwf l -> (length (rest l) < fuel)%nat ->
  match commentLoop fuel l with
  | Ok (e, l') => exists body u2 u3, movesF l l' (body ++ u2 ++ u3) /\
      e = (l_lastPos l + length body)%nat /\ noClose body /\ achar "*"%byte u2 /\ achar "/"%byte u3
  | Panic (PLex sp _) ln => exists l'' t, movesF l l'' t /\ sp = tokenSpan l'' /\ ln = l_lines l''
  | _ => False
  end.
Proof.
  revert l. induction fuel as [|f IH]; intros l Hw Hf; [lia|]. simpl.
  (* the common step *)
  assert (Hstep : l_ch l <> -1 -> (l_ch l = 42 -> l_ch (step l) <> 47) ->
    match commentLoop f (step l) with
    | Ok (e, l') => exists body u2 u3, movesF l l' (body ++ u2 ++ u3) /\
        e = (l_lastPos l + length body)%nat /\ noClose body /\ achar "*"%byte u2 /\ achar "/"%byte u3
    | Panic (PLex sp _) ln => exists l'' t, movesF l l'' t /\ sp = tokenSpan l'' /\ ln = l_lines l''
    | _ => False
    end).
  { intros Hc H42. pose proof (step_movesF _ Hw Hc) as Hs. fold (unitOf l) in Hs.
    pose proof (unitOf_pos _ Hw Hc). pose proof (moves_len _ _ _ (proj1 Hs)).
    pose proof (movesF_cwf _ _ _ Hs) as W1.
    specialize (IH (step l) W1). destruct (commentLoop f (step l)) as [[e l']|p ln|]; [| |lia].
    - destruct IH as (body & u2 & u3 & M & He & Hn & H2 & H3); [lia|].
      exists (unitOf l ++ body), u2, u3.
      split; [rewrite <- app_assoc; eapply movesF_trans; eauto|].
      split. { rewrite app_length. destruct Hs as [(_ & _ & S3 & _) _]. lia. }
      split; [|auto]. intros a b E. rewrite <- app_assoc in E.
      apply unit_close in E; auto. destruct E as [[a' E]|[E1 [s' E2]]].
      + apply (Hn a' b E).
      + apply (H42 E1). destruct W1 as (_ & -> & _).
        destruct M as [(_ & M & _) _]. rewrite M, <- app_assoc.
        destruct body as [|x body]; [discriminate E2|]. inversion E2; subst. apply chOf_slash.
    - destruct p; [|specialize (IH ltac:(lia)); contradiction].
      destruct IH as (l'' & t & M & Hsp & Hln); [lia|].
      exists l''. eexists. split; [eapply movesF_trans; eauto|auto]. }
  destruct (Z.eqb_spec (l_ch l) 42) as [E|N].
  - destruct (Z.eqb_spec (l_ch (step l)) 47) as [E1|N1].
    + assert (Hc : l_ch l <> -1) by lia. assert (Hc1 : l_ch (step l) <> -1) by lia.
      pose proof (step_movesF _ Hw Hc) as Hs. fold (unitOf l) in Hs.
      pose proof (movesF_cwf _ _ _ Hs) as W1.
      pose proof (step_movesF _ W1 Hc1) as Hs1. fold (unitOf (step l)) in Hs1.
      exists [], (unitOf l), (unitOf (step l)). simpl.
      split; [eapply movesF_trans; eauto|]. split; [lia|]. split.
      { intros a b E2. destruct a as [|x [|]]; simpl in E2; inversion E2. }
      split; apply unitOf_achar; auto; reflexivity.
    + apply Hstep; [lia|auto].
  - destruct (Z.eqb_spec (l_ch l) (-1)) as [E|Ne].
    + simpl. exists l, []. split; [apply movesF_refl; auto|auto].
    + apply Hstep; [auto|contradiction].
Qed.

(** * Strings *)
Lemma stringLoop_spec fuel q l : bz q < 128 -> cwf l -> (length (rest l) < fuel)%nat ->
  match stringLoop fuel (bz q) l with
  | Ok (e, l') => exists body u2, movesF l l' (body ++ u2) /\
      e = (l_lastPos l + length body)%nat /\ achar q u2
  | Panic (PLex sp _) ln => exists l'' t, movesF l l'' t /\ sp = tokenSpan l'' /\ ln = l_lines l''
  | _ => False
  end.
Proof.
  intros Hq. revert l. induction fuel as [|f IH]; intros l Hw Hf; [lia|]. simpl.
  assert (Hmove : forall l1 t, movesF l l1 t -> (1 <= length t)%nat ->
    match stringLoop f (bz q) l1 with
    | Ok (e, l') => exists body u2, movesF l l' (body ++ u2) /\
      e = (l_lastPos l + length body)%nat /\ achar q u2
    | Panic (PLex sp _) ln => exists l'' t, movesF l l'' t /\ sp = tokenSpan l'' /\ ln = l_lines l''
    | _ => False
    end).
  { intros l1 t M Ht. pose proof (moves_len _ _ _ (proj1 M)).
    specialize (IH l1 (movesF_cwf _ _ _ M)).
    destruct (stringLoop f (bz q) l1) as [[e l']|p ln|]; [| |lia].
    - destruct IH as (body & u2 & M2 & He & Hu); [lia|].
      exists (t ++ body), u2. split; [rewrite <- app_assoc; eapply movesF_trans; eauto|].
      split; auto. rewrite app_length. destruct M as [(_ & _ & M & _) _]. lia.
    - destruct p; [|specialize (IH ltac:(lia)); contradiction].
      destruct IH as (l'' & t' & M2 & Hsp & Hln); [lia|].
      exists l''. eexists. split; [eapply movesF_trans; eauto|auto]. }
  assert (Herr : forall l1 t, movesF l l1 t ->
     exists l'' t, movesF l l'' t /\ tokenSpan l1 = tokenSpan l'' /\ l_lines l1 = l_lines l'').
  { intros l1 t M; exists l1, t; auto. }
  destruct (Z.eqb_spec (l_ch l) (bz q)) as [E|N].
  - assert (Hc : l_ch l <> -1). { pose proof (bz_range q). lia. }
    exists [], (unitOf l). simpl. split; [apply step_movesF; auto|]. split; [lia|].
    apply unitOf_achar; auto.
  - destruct (Z.eqb_spec (l_ch l) 10) as [E10|N10]; [simpl; eapply Herr; apply movesF_refl; auto|].
    destruct (Z.eqb_spec (l_ch l) 92) as [E92|N92].
    + assert (Hc : l_ch l <> -1) by lia.
      pose proof (step_movesF _ Hw Hc) as Hs. fold (unitOf l) in Hs.
      pose proof (unitOf_pos _ Hw Hc). pose proof (movesF_cwf _ _ _ Hs) as W1.
      destruct (Z.eqb_spec (l_ch (step l)) 10) as [F10|G10].
      * assert (Hc1 : l_ch (step l) <> -1) by lia.
        eapply Hmove; [eapply movesF_trans; [exact Hs|apply step_movesF; auto]|].
        rewrite app_length. lia.
      * destruct (Z.eqb_spec (l_ch (step l)) (-1)) as [F1|G1]; [simpl; eapply Herr; exact Hs|].
        destruct (startsEscape (l_ch (step l)) (peek (step l) 0)).
        -- destruct (nextEscaped_spec _ W1 G1) as (t & Mt & Ht).
           eapply Hmove; [eapply movesF_trans; [exact Hs|exact Mt]|]. rewrite app_length; lia.
        -- eapply Hmove; [exact Hs|auto].
    + destruct (Z.eqb_spec (l_ch l) (-1)) as [F1|G1]; [simpl; eapply Herr; apply movesF_refl; auto|].
      eapply Hmove; [apply step_movesF; auto|]. apply unitOf_pos; auto.
Qed.

(** * Unquoted urls *)
Lemma urlSkipWs_spec fuel i l : cwf l -> (length (rest l) < fuel)%nat ->
  exists l' t, urlSkipWs fuel i l = Ok l' /\ movesF l l' t /\ wsRun t.
Proof.
  revert i l. induction fuel as [|f IH]; intros i l Hw Hf; [lia|]. simpl.
  destruct ((i <? length (l_content l))%nat && isWhitespace (l_ch l)) eqn:E.
  - apply andb_true_iff in E as [_ E].
    assert (Hc : l_ch l <> -1) by (intro X; rewrite X in E; discriminate).
    pose proof (step_movesF _ Hw Hc) as Hs. fold (unitOf l) in Hs.
    pose proof (unitOf_pos _ Hw Hc). pose proof (moves_len _ _ _ (proj1 Hs)).
    apply isWhitespace_byte in E as (b & E & Hb & Hw').
    pose proof (unitOf_achar _ _ Hw E Hb).
    destruct (IH (i + 1)%nat (step l)) as (l' & t & E1 & E2 & E3); [eapply movesF_cwf; eauto | lia |].
    exists l', (unitOf l ++ t). split; auto. split; [eapply movesF_trans; eauto|].
    econstructor; eauto.
  - exists l, []. split; auto. split; [apply movesF_refl; auto|constructor].
Qed.

(** The consumed text of the url loop is what is delivered, then the ")". *)
Lemma urlLoop_spec fuel l0 l t0 : cwf l0 -> movesF l0 l t0 -> (length (rest l) < fuel)%nat ->
  match urlLoop fuel (l_lastPos l0) l with
  | Ok l' => exists body u2, moves l0 l' (body ++ u2) /\ l_str l' = body /\ achar ")"%byte u2 /\
      l_start l' = l_start l0 /\ l_cur l' = l_cur l0 /\ l_num l' = l_num l0 /\
      l_rws l' = l_rws l0 /\ l_rcom l' = l_rcom l0
  | Panic (PLex sp _) ln => exists l'' t, movesF l0 l'' t /\ sp = tokenSpan l'' /\ ln = l_lines l''
  | _ => False
  end.
Proof.
  intros W0. revert l t0. induction fuel as [|f IH]; intros l t0 M Hf; [lia|]. simpl.
  pose proof (movesF_cwf _ _ _ M) as Hw.
  assert (Herr : exists l'' t, movesF l0 l'' t /\ tokenSpan l = tokenSpan l'' /\ l_lines l = l_lines l'').
  { exists l, t0; auto. }
  assert (Hmove : forall l1 t, movesF l l1 t -> (1 <= length t)%nat ->
    match urlLoop f (l_lastPos l0) l1 with
    | Ok l' => exists body u2, moves l0 l' (body ++ u2) /\ l_str l' = body /\ achar ")"%byte u2 /\
      l_start l' = l_start l0 /\ l_cur l' = l_cur l0 /\ l_num l' = l_num l0 /\
      l_rws l' = l_rws l0 /\ l_rcom l' = l_rcom l0
    | Panic (PLex sp _) ln => exists l'' t, movesF l0 l'' t /\ sp = tokenSpan l'' /\ ln = l_lines l''
    | _ => False
    end).
  { intros l1 t M1 Ht. pose proof (moves_len _ _ _ (proj1 M1)).
    eapply IH; [eapply movesF_trans; eauto | lia]. }
  destruct (Z.eqb_spec (l_ch l) 41) as [E|N].
  - assert (Hc : l_ch l <> -1) by lia.
    rewrite (contentSlice_moves _ _ _ W0 (proj1 M)). cbn [bind].
    exists t0, (unitOf l).
    assert (W' : cwf (setStr l t0)) by exact Hw.
    pose proof (step_movesF (setStr l t0) W' Hc) as [Hs (F1 & F2 & F3 & F4 & F5 & F6)].
    destruct M as [M (G1 & G2 & G3 & G4 & G5 & G6)].
    split. { eapply moves_trans; [exact M|]. exact Hs. }
    split; [rewrite F3; reflexivity|].
    split; [apply unitOf_achar; auto; reflexivity|].
    rewrite F1, F2, F4, F5, F6. simpl. auto.
  - destruct (Z.eqb_spec (l_ch l) (-1)) as [E1|N1]; [exact Herr|].
    destruct ((l_ch l =? 34) || (l_ch l =? 39) || (l_ch l =? 40)); [exact Herr|].
    destruct (Z.eqb_spec (l_ch l) 92) as [E92|N92].
    + destruct (startsEscape (l_ch l) (peek l 0)); [|exact Herr].
      destruct (nextEscaped_spec _ Hw N1) as (t & Mt & Ht). eapply Hmove; eauto.
    + destruct (isWhitespace (l_ch l)).
      { eapply Hmove; [apply step_movesF; auto|apply unitOf_pos; auto]. }
      destruct (isNonPrintable (l_ch l)); [exact Herr|].
      eapply Hmove; [apply step_movesF; auto|apply unitOf_pos; auto].
Qed.

(** * Tokens *)
(** [r] is a good outcome for reading the token that starts at [l]; [z] holds
    if the token is empty. *)
Definition tokOk (l l' : lexer) (text : bytes) : Prop :=
  moves l l' text /\ l_start l' = l_start l /\ l_rws l' = l_rws l /\ l_rcom l' = l_rcom l /\
  tokenText (l_cur l') (l_str l') (l_num l') text.
Definition good (l : lexer) (z : token -> Prop) (r : res lexer) : Prop :=
  match r with
  | Ok l' => exists text, tokOk l l' text /\ (text = [] -> z (l_cur l'))
  | Panic (PLex sp _) ln => exists l'' t, movesF l l'' t /\ sp = tokenSpan l'' /\ ln = l_lines l''
  | _ => False
  end.

Definition never (t : token) : Prop := False.

Lemma single_good t l c : cwf l -> l_ch l = bz c -> bz c < 128 ->
  (forall str num text, achar c text -> tokenText t str num text) ->
  good l never (single t l).
Proof.
  intros Hw E Hc Ht. unfold single, good.
  assert (Hn : l_ch l <> -1). { pose proof (bz_range c). lia. }
  assert (W' : cwf (setCur l t)) by exact Hw.
  pose proof (step_movesF (setCur l t) W' Hn) as [M (F1 & F2 & F3 & F4 & F5 & F6)].
  exists (unitOf l). split.
  - split; [exact M|]. rewrite F1, F2, F3, F4, F5, F6. repeat split; auto. apply Ht.
    apply unitOf_achar; auto.
  - intros E1. pose proof (unitOf_pos _ Hw Hn) as P. rewrite E1 in P. simpl in P. lia.
Qed.

Lemma delim_good l : cwf l -> l_ch l <> -1 -> good l never (nextDelimToken l).
Proof.
  intros Hw Hc. unfold nextDelimToken.
  pose proof (step_movesF _ Hw Hc) as [M (F1 & F2 & F3 & F4 & F5 & F6)]. fold (unitOf l) in M.
  assert (M' : moves l (setCur (step l) Delim) (unitOf l)) by exact M.
  rewrite (contentSlice_moves _ _ _ Hw M'). cbn [bind]. exists (unitOf l).
  split; [|intros E1; pose proof (unitOf_pos _ Hw Hc) as P; rewrite E1 in P; simpl in P; lia].
  split; [exact M|]. simpl. repeat split; auto.
Qed.

Lemma numeric_good l (z : token -> Prop) : cwf l ->
  (l_ch l = 43 \/ l_ch l = 45 \/ isDigit (l_ch l) = true \/
   (l_ch l = 46 /\ isDigit (peek l 0) = true) \/ z Number) ->
  (isNameCodePoint (l_ch l) = true -> isDigit (l_ch l) = true \/ l_ch l = 45) ->
  good l z (nextNumericToken l).
Proof.
  intros Hw Hz Hname. unfold nextNumericToken.
  destruct (nextNumber_spec l Hw) as (l1 & t1 & E1 & [M1 (F1 & F2 & F3 & F4 & F5 & F6)] & N1).
  rewrite E1. cbn [bind]. rewrite (contentSlice_moves _ _ _ Hw M1). cbn [bind]. cbv zeta.
  set (l2 := setNum l1 t1).
  assert (M2 : moves l l2 t1) by exact M1.
  assert (W2 : cwf l2) by (eapply moves_cwf; eauto).
  destruct (startsIdentifier (l_ch l2) (peek l2 0) (peek l2 1)) eqn:Es.
  - destruct (nextName_spec l2 W2) as (l3 & t3 & E3 & [M3 (G1 & G2 & G3 & G4 & G5 & G6)] & N3).
    rewrite E3. cbn [bind]. rewrite (contentSlice_moves _ _ _ W2 M3). cbn [bind].
    exists (t1 ++ t3). split.
    + split; [eapply moves_trans; [exact M2|exact M3]|]. simpl. rewrite G1, G4, G5, G6. auto.
    + intros E. exfalso. apply app_eq_nil in E as [-> ->].
      apply N3; auto. left. unfold startsIdentifier in Es.
      destruct (Z.eqb_spec (l_ch l2) 45) as [->|]; [reflexivity|].
      destruct (Z.eqb_spec (l_ch l2) 10); [discriminate|auto].
  - assert (Hz' : t1 = [] -> z Number).
    { intros E. destruct Hz as [Hz|[Hz|[Hz|[Hz|Hz]]]]; auto; exfalso; apply N1; auto. }
    destruct (Z.eqb_spec (l_ch l2) 37) as [E37|N37].
    + assert (Hc : l_ch l2 <> -1) by lia.
      assert (W3 : cwf (setCur l2 Percentage)) by exact W2.
      pose proof (step_movesF (setCur l2 Percentage) W3 Hc) as [M3 (G1 & G2 & G3 & G4 & G5 & G6)].
      exists (t1 ++ unitOf l2). split.
      * split; [eapply moves_trans; [exact M2|exact M3]|].
        rewrite G1, G2, G3, G4, G5, G6. simpl. repeat split; auto.
        exists (unitOf l2). split; auto. apply unitOf_achar; auto. reflexivity.
      * intros E. exfalso. apply app_eq_nil in E as [_ E].
        pose proof (unitOf_pos _ W2 Hc) as P. rewrite E in P. simpl in P. lia.
    + exists t1. split; auto. split; [exact M2|]. simpl. auto.
Qed.

Lemma identlike_good l : cwf l ->
  (isNameCodePoint (l_ch l) = true \/ startsEscape (l_ch l) (peek l 0) = true) ->
  good l never (nextIdentLikeToken l).
Proof.
  intros Hw Hn. unfold nextIdentLikeToken.
  destruct (nextName_spec l Hw) as (l1 & t1 & E1 & [M1 (F1 & F2 & F3 & F4 & F5 & F6)] & N1).
  rewrite E1. cbn [bind]. rewrite (contentSlice_moves _ _ _ Hw M1). cbn [bind]. cbv zeta.
  set (l2 := setStr l1 t1).
  assert (M2 : moves l l2 t1) by exact M1.
  assert (W2 : cwf l2) by (eapply moves_cwf; eauto).
  assert (Hne : forall t, t1 ++ t <> []). { intros t E. apply app_eq_nil in E as [-> _]. apply N1; auto. }
  destruct (isURLString t1 && (l_ch l2 =? 40)) eqn:Eu.
  - apply andb_true_iff in Eu as [Eu Ep]. apply Z.eqb_eq in Ep.
    assert (Hc : l_ch l2 <> -1) by lia.
    pose proof (step_movesF _ W2 Hc) as M3. fold (unitOf l2) in M3.
    pose proof (movesF_cwf _ _ _ M3) as W3.
    destruct (urlSkipWs_spec (lfuel (step l2)) (l_lastPos (step l2)) _ W3 (lfuel_rest _)) as (l4 & t4 & E4 & M4 & Hws).
    rewrite E4. cbn [bind].
    pose proof (movesF_trans _ _ _ _ _ M3 M4) as [M24 (G1 & G2 & G3 & G4 & G5 & G6)].
    pose proof (movesF_cwf _ _ _ M4) as W4.
    destruct ((l_ch l4 =? 39) || (l_ch l4 =? 34)).
    + exists (t1 ++ unitOf l2 ++ t4). split; [|intros E; destruct (Hne _ E)].
      split; [eapply moves_trans; [exact M2|exact M24]|]. simpl. rewrite G1, G3, G5, G6.
      repeat split; auto. exists (unitOf l2), t4. split; auto. apply unitOf_achar; auto; reflexivity.
    + set (l5 := setCur l4 URL).
      assert (W5 : cwf l5) by exact W4.
      pose proof (urlLoop_spec (lfuel l5) l5 l5 [] W5 (movesF_refl _ W5) (lfuel_rest _)) as Hu.
      destruct (urlLoop (lfuel l5) (l_lastPos l5) l5) as [l6|p ln|]; [| |exact Hu].
      * destruct Hu as (body & u2 & M6 & S1 & S2 & S3 & S4 & S5 & S6 & S7).
        exists (t1 ++ (unitOf l2 ++ t4) ++ body ++ u2). split; [|intros E; destruct (Hne _ E)].
        split. { eapply moves_trans; [exact M2|]. eapply moves_trans; [exact M24|]. exact M6. }
        rewrite S3, S4, S6, S7, S1. simpl. rewrite G1, G5, G6. repeat split; auto.
        exists t1, (unitOf l2), t4, u2. repeat split; auto.
        -- apply unitOf_achar; auto; reflexivity.
        -- rewrite <- !app_assoc. reflexivity.
      * destruct p; [|exact Hu]. destruct Hu as (l'' & t & [M6 (S1 & S2 & S3 & S4 & S5 & S6)] & Hsp & Hln).
        (* the error frame differs in cur/str only *)
        exists (setStr (setCur (setNum l'' (l_num l)) (l_cur l)) (l_str l)), (t1 ++ (unitOf l2 ++ t4) ++ t).
        split; [|split; [exact Hsp|exact Hln]].
        split. { eapply moves_trans; [exact M2|]. eapply moves_trans; [exact M24|]. exact M6. }
        unfold frame. simpl. rewrite S1, S5, S6. simpl. rewrite G1, G5, G6. simpl. repeat split; auto.
  - destruct (Z.eqb_spec (l_ch l2) 40) as [Ep|Np].
    + assert (Hc : l_ch l2 <> -1) by lia.
      pose proof (step_movesF _ W2 Hc) as [M3 (G1 & G2 & G3 & G4 & G5 & G6)]. fold (unitOf l2) in M3.
      exists (t1 ++ unitOf l2). split; [|intros E; destruct (Hne _ E)].
      split; [eapply moves_trans; [exact M2|exact M3]|]. simpl. rewrite G1, G3, G5, G6.
      repeat split; auto. exists (unitOf l2), []. rewrite app_nil_r.
      split; [apply unitOf_achar; auto; reflexivity|]. split; [constructor|reflexivity].
    + exists t1. split; [|intros E; destruct (Hne []); rewrite app_nil_r; auto].
      split; [exact M2|]. simpl. auto.
Qed.

Lemma sigil_good t c l : cwf l -> l_ch l = bz c -> bz c < 128 ->
  (forall str num text u, achar c u -> text = u ++ str -> tokenText t str num text) ->
  good l never (nextSigilName t l).
Proof.
  intros Hw Ec Hc Ht. unfold nextSigilName. cbv zeta.
  assert (Hn : l_ch l <> -1). { pose proof (bz_range c). lia. }
  pose proof (step_movesF _ Hw Hn) as [M1 (F1 & F2 & F3 & F4 & F5 & F6)]. fold (unitOf l) in M1.
  set (l1 := setCur (step l) t).
  assert (M1' : moves l l1 (unitOf l)) by exact M1.
  assert (W1 : cwf l1) by (eapply moves_cwf; eauto).
  destruct (nextName_spec l1 W1) as (l2 & t2 & E2 & [M2 (G1 & G2 & G3 & G4 & G5 & G6)] & N2).
  rewrite E2. cbn [bind]. rewrite (contentSlice_moves _ _ _ W1 M2). cbn [bind].
  exists (unitOf l ++ t2). split.
  - split; [eapply moves_trans; eauto|]. simpl. rewrite G1, G2, G5, G6. simpl. repeat split; auto.
    eapply Ht; [|reflexivity]. apply unitOf_achar; auto.
  - intros E. apply app_eq_nil in E as [E _]. pose proof (unitOf_pos _ Hw Hn) as P.
    rewrite E in P. simpl in P. lia.
Qed.

Lemma string_good l c : cwf l -> l_ch l = bz c -> (c = """"%byte \/ c = "'"%byte) ->
  good l never (let l1 := step l in
      let start := l_lastPos l1 in
      '(e, l2) <- stringLoop (lfuel l1) (bz c) l1 ;;
      let l3 := setCur l2 TString in
      s <- contentSlice l3 start e ;;
      Ok (setStr l3 s)).
Proof.
  intros Hw Ec Hc. cbv zeta.
  assert (Hlow : bz c < 128) by (destruct Hc as [-> | ->]; reflexivity).
  assert (Hn : l_ch l <> -1). { pose proof (bz_range c). lia. }
  pose proof (step_movesF _ Hw Hn) as M1. fold (unitOf l) in M1.
  pose proof (movesF_cwf _ _ _ M1) as W1.
  pose proof (stringLoop_spec (lfuel (step l)) c (step l) Hlow W1 (lfuel_rest _)) as Hs.
  destruct (stringLoop (lfuel (step l)) (bz c) (step l)) as [[e l2]|p ln|]; cbn [bind]; [| |exact Hs].
  - destruct Hs as (body & u2 & M2 & -> & Hu).
    assert (Hsl : contentSlice (setCur l2 TString) (l_lastPos (step l)) (l_lastPos (step l) + length body) = Ok body).
    { unfold contentSlice. destruct M2 as [(A1 & A2 & A3 & A4 & _) _].
      rewrite slice_ok.
      - simpl. rewrite A1. fold (rest (step l)). rewrite A2, <- app_assoc.
        replace (l_lastPos (step l) + length body - l_lastPos (step l))%nat with (length body) by lia.
        rewrite firstn_app, Nat.sub_diag, firstn_all, app_nil_r. reflexivity.
      - simpl. destruct A4 as [A4 _]. rewrite app_length in A3. lia. }
    rewrite Hsl. cbn [bind].
    pose proof (movesF_trans _ _ _ _ _ M1 M2) as [M (G1 & G2 & G3 & G4 & G5 & G6)].
    exists (unitOf l ++ body ++ u2). split.
    + split; [exact M|]. simpl. rewrite G1, G5, G6. repeat split; auto.
      exists c, (unitOf l), u2. repeat split; auto. apply unitOf_achar; auto.
    + intros E. apply app_eq_nil in E as [E _]. pose proof (unitOf_pos _ Hw Hn) as P.
      rewrite E in P. simpl in P. lia.
  - destruct p; [|exact Hs]. destruct Hs as (l'' & t & M2 & Hsp & Hln).
    exists l''. eexists. split; [eapply movesF_trans; eauto|auto].
Qed.

(** One comment. *)
Lemma comment_spec l : cwf l -> l_ch l = 47 -> peek l 0 = 42 ->
  match commentLoop (lfuel (step (step l))) (step (step l)) with
  | Ok (e, l2) => exists body t, movesF l l2 t /\ commentText body t /\ t <> [] /\
      contentSlice (setCur l2 Comment) (l_lastPos (step (step l))) e = Ok body
  | Panic (PLex sp _) ln => exists l'' t, movesF l l'' t /\ sp = tokenSpan l'' /\ ln = l_lines l''
  | _ => False
  end.
Proof.
  intros Hw Ec Ep. assert (Hn : l_ch l <> -1) by lia.
  pose proof (step_movesF _ Hw Hn) as M1. fold (unitOf l) in M1.
  pose proof (movesF_cwf _ _ _ M1) as W1.
  destruct (peek0_unit l "*"%byte Hw Hn Ep) as [Eu Ec1]; [reflexivity|discriminate|].
  assert (Hn1 : l_ch (step l) <> -1) by (rewrite Ec1; discriminate).
  pose proof (step_movesF _ W1 Hn1) as M2. fold (unitOf (step l)) in M2. rewrite Eu in M2.
  pose proof (movesF_trans _ _ _ _ _ M1 M2) as M12.
  pose proof (movesF_cwf _ _ _ M2) as W2. set (l1 := step (step l)) in *.
  pose proof (commentLoop_spec (lfuel l1) l1 W2 (lfuel_rest _)) as Hs.
  destruct (commentLoop (lfuel l1) l1) as [[e l2]|p ln|]; [| |exact Hs].
  - destruct Hs as (body & u2 & u3 & M3 & -> & Hnc & Hu2 & Hu3).
    exists body, ((unitOf l ++ ["*"%byte]) ++ body ++ u2 ++ u3).
    split; [eapply movesF_trans; eauto|]. split; [|split].
    + exists (unitOf l), u2, u3. repeat split; auto.
      * apply unitOf_achar; auto. reflexivity.
      * rewrite <- app_assoc. reflexivity.
    + intros E. apply app_eq_nil in E as [E _]. apply app_eq_nil in E as [_ E]. discriminate.
    + unfold contentSlice. destruct M3 as [(A1 & A2 & A3 & A4 & _) _].
      rewrite slice_ok.
      * simpl. rewrite A1. fold (rest l1). rewrite A2, <- app_assoc.
        replace (l_lastPos l1 + length body - l_lastPos l1)%nat with (length body) by lia.
        rewrite firstn_app, Nat.sub_diag, firstn_all, app_nil_r. reflexivity.
      * simpl. destruct A4 as [A4 _]. rewrite app_length in A3. lia.
  - destruct p; [|exact Hs]. destruct Hs as (l'' & t & M3 & Hsp & Hln).
    exists l''. eexists. split; [eapply movesF_trans; eauto|auto].
Qed.

(** * Next *)
Definition dotNumber (p0 p1 p2 : Z) : Prop :=
  startsNumber p0 p1 p2 = true /\ isDigit p0 = false.
Definition zeroTok (l : lexer) (t : token) : Prop :=
  (l_ch l = -1 /\ t = EOF) \/
  (l_ch l = 45 /\ peek l 0 = 45 /\ peek l 1 = 62 /\ t = CDC) \/
  (l_ch l = 60 /\ peek l 0 = 33 /\ peek l 1 = 45 /\ peek l 2 = 45 /\ t = CDO) \/
  (l_ch l = 46 /\ dotNumber (peek l 0) (peek l 1) (peek l 2) /\ t = Number).

Lemma good_weaken l (z z' : token -> Prop) r : (forall t, z t -> z' t) -> good l z r -> good l z' r.
Proof.
  unfold good. intros Hz. destruct r as [l'|[sp m|] ln|]; auto.
  intros (text & H1 & H2). eauto.
Qed.
Lemma good_never l z r : good l never r -> good l z r.
Proof. apply good_weaken. intros t []. Qed.

(** Outcome of a call: a gap, then a token. *)
Definition nextOk (l : lexer) (r : res lexer) : Prop :=
  match r with
  | Ok l' => exists g lm text, gap g /\ skipped (l_rws l) (l_rcom l) g /\
      moves l lm g /\ l_start lm = l_lastPos lm /\
      l_rws lm = l_rws l /\ l_rcom lm = l_rcom l /\
      tokOk lm l' text /\ (text = [] -> zeroTok lm (l_cur l'))
  | Panic (PLex sp _) ln => exists g lm l'' t, gap g /\ moves l lm g /\ l_start lm = l_lastPos lm /\
      movesF lm l'' t /\ sp = tokenSpan l'' /\ ln = l_lines l''
  | _ => False
  end.

Lemma gap_app a b : gap a -> gap b -> gap (a ++ b).
Proof.
  intros Ha Hb. induction Ha; simpl; auto; rewrite <- app_assoc.
  - apply gapWs; auto.
  - eapply gapComment; eauto.
Qed.

Lemma skipped_app ws com a b : skipped ws com a -> skipped ws com b -> skipped ws com (a ++ b).
Proof.
  intros Ha Hb. induction Ha; simpl; auto; rewrite <- app_assoc.
  - apply skWs; auto.
  - eapply skComment; eauto.
Qed.
Lemma skipped_gap ws com a : skipped ws com a -> gap a.
Proof.
  intros H. induction H; [constructor|apply gapWs; auto|eapply gapComment; eauto].
Qed.

Lemma nextLoop_spec fuel l0 : cwf l0 -> (length (rest l0) < fuel)%nat -> nextOk l0 (nextLoop fuel l0).
Proof.
  revert l0. induction fuel as [|f IH]; intros l0 W0 Hf; [lia|]. cbn [nextLoop]. cbv zeta.
  set (l := setStart l0 (l_lastPos l0)).
  assert (Hw : cwf l) by exact W0.
  assert (M0 : moves l0 l []). { exact (moves_refl _ W0). }
  assert (Hgood : forall r, good l (zeroTok l) r -> nextOk l0 r).
  { intros r. unfold good, nextOk. destruct r as [l'|[sp m|] ln|]; auto.
    - intros (text & T & Z). exists [], l, text. split; [constructor|]. split; [constructor|]. split; [exact M0|]. auto 10.
    - intros (l'' & t & M & E1 & E2). exists [], l, l'', t. split; [constructor|]. auto. }
  assert (Hskip : forall l1 t, (movesF l l1 t \/ (moves l l1 t /\ l_rws l1 = l_rws l /\ l_rcom l1 = l_rcom l)) -> skipped (l_rws l0) (l_rcom l0) t -> t <> [] ->
            nextOk l0 (nextLoop f l1)).
  { intros l1 t Hm Hg Ht.
    assert (Hm' : moves l l1 t /\ l_rws l1 = l_rws l /\ l_rcom l1 = l_rcom l).
    { destruct Hm as [[M F]|M]; auto. split; auto. split; apply F. }
    clear Hm. destruct Hm' as (M & R1 & R2).
    assert (Hl : (length (rest l1) < f)%nat).
    { pose proof (moves_len _ _ _ M) as L. change (rest l) with (rest l0) in L.
      destruct t; [congruence|]. simpl in L. lia. }
    pose proof (IH l1 (moves_cwf _ _ _ M) Hl) as Hn. revert Hn. unfold nextOk.
    destruct (nextLoop f l1) as [l'|[sp m|] ln|]; auto.
    - intros (g & lm & text & Hg' & Hs' & Mg & S1 & S2 & S3 & T & Z).
      exists (t ++ g), lm, text. split.
      { apply gap_app; auto. eapply skipped_gap; eauto. }
      split; [apply skipped_app; auto; rewrite R1, R2 in Hs'; exact Hs'|].
      split. { eapply moves_trans; [|exact Mg]. exact M. }
      split; auto. split; [rewrite S2, R1; reflexivity|]. split; [rewrite S3, R2; reflexivity|]. auto.
    - intros (g & lm & l'' & t' & Hg' & Mg & S1 & F1 & E1 & E2).
      exists (t ++ g), lm, l'', t'. split.
      { apply gap_app; auto. eapply skipped_gap; eauto. }
      split. { eapply moves_trans; [|exact Mg]. exact M. } auto. }
  destruct (Z.eqb_spec (l_ch l) (-1)) as [Eeof|Neof].
  { apply Hgood. exists []. split; [|intros _; left; auto]. split; [exact (moves_refl _ Hw)|]. simpl. auto. }
  Ltac single1 c := apply good_never, (single_good _ _ c); auto; try reflexivity.
  destruct (Z.eqb_spec (l_ch l) 59). { apply Hgood. single1 ";"%byte. }
  destruct (Z.eqb_spec (l_ch l) 58). { apply Hgood. single1 ":"%byte. }
  destruct (Z.eqb_spec (l_ch l) 43) as [E43|N43].
  { apply Hgood. destruct (startsNumber (l_ch l) (peek l 0) (peek l 1)).
    - apply numeric_good; auto. rewrite E43. discriminate.
    - apply good_never, delim_good; auto. }
  destruct (Z.eqb_spec (l_ch l) 45) as [E45|N45].
  { apply Hgood. destruct (startsNumber (l_ch l) (peek l 0) (peek l 1)); [apply numeric_good; auto|].
    destruct ((peek l 0 =? 45) && (peek l 1 =? 62)) eqn:Ecdc.
    - apply andb_true_iff in Ecdc as [P0 P1]. apply Z.eqb_eq in P0, P1.
      exists []. split; [split; [exact (moves_refl _ Hw)|simpl; auto]|].
      intros _. right; left. auto.
    - destruct (startsIdentifier (peek l 0) (peek l 1) (peek l 2)).
      + apply good_never, identlike_good; auto. left. rewrite E45. reflexivity.
      + apply good_never, delim_good; auto. }
  destruct (Z.eqb_spec (l_ch l) 60) as [E60|N60].
  { apply Hgood. destruct ((peek l 0 =? 33) && (peek l 1 =? 45) && (peek l 2 =? 45)) eqn:Ecdo.
    - apply andb_true_iff in Ecdo as [P01 P2]. apply andb_true_iff in P01 as [P0 P1].
      apply Z.eqb_eq in P0, P1, P2.
      exists []. split; [split; [exact (moves_refl _ Hw)|simpl; auto]|].
      intros _. right; right; left. auto.
    - apply good_never, delim_good; auto. }
  destruct (Z.eqb_spec (l_ch l) 64) as [E64|N64].
  { apply Hgood, good_never. destruct (startsIdentifier (peek l 0) (peek l 1) (peek l 2)).
    - apply (sigil_good _ "@"%byte); auto; try reflexivity. simpl. eauto.
    - apply delim_good; auto. }
  destruct (Z.eqb_spec (l_ch l) 35) as [E35|N35].
  { apply Hgood, good_never. destruct (isNameCodePoint (peek l 0) || startsEscape (peek l 0) (peek l 1)).
    - apply (sigil_good _ "#"%byte); auto; try reflexivity. simpl. eauto.
    - apply delim_good; auto. }
  destruct (Z.eqb_spec (l_ch l) 44). { apply Hgood. single1 ","%byte. }
  destruct (Z.eqb_spec (l_ch l) 40). { apply Hgood. single1 "("%byte. }
  destruct (Z.eqb_spec (l_ch l) 41). { apply Hgood. single1 ")"%byte. }
  destruct (Z.eqb_spec (l_ch l) 91). { apply Hgood. single1 "["%byte. }
  destruct (Z.eqb_spec (l_ch l) 93). { apply Hgood. single1 "]"%byte. }
  destruct (Z.eqb_spec (l_ch l) 123). { apply Hgood. single1 "{"%byte. }
  destruct (Z.eqb_spec (l_ch l) 125). { apply Hgood. single1 "}"%byte. }
  destruct (Z.eqb_spec (l_ch l) 46) as [E46|N46].
  { apply Hgood. destruct (startsNumber (peek l 0) (peek l 1) (peek l 2)) eqn:Es.
    - apply numeric_good; [exact Hw| |].
      + destruct (isDigit (peek l 0)) eqn:Ed; [auto 10|].
        right; right; right; right. right; right; right. repeat split; auto.
      + rewrite E46. discriminate.
    - apply good_never, delim_good; auto. }
  destruct (Z.eqb_spec (l_ch l) 92) as [E92|N92].
  { apply Hgood. destruct (startsEscape (l_ch l) (peek l 0)) eqn:Es.
    - apply good_never, identlike_good; auto.
    - exists l, []. split; [apply movesF_refl; auto|auto]. }
  destruct (Z.eqb_spec (l_ch l) 47) as [E47|N47].
  { destruct (Z.eqb_spec (peek l 0) 42) as [Ep|Np]; cbn [negb]; [|apply Hgood, good_never, delim_good; auto].
    pose proof (comment_spec l Hw E47 Ep) as Hs.
    destruct (commentLoop (lfuel (step (step l))) (step (step l))) as [[e l2]|p ln|]; cbn [bind]; [| |exact Hs].
    - destruct Hs as (body & t & M & Hct & Hne & Hsl). rewrite Hsl. cbn [bind].
      assert (M' : moves l (setStr (setCur l2 Comment) body) t) by apply M.
      destruct M as [M (F1 & F2 & F3 & F4 & F5 & F6)].
      change (l_rcom (setStr (setCur l2 Comment) body)) with (l_rcom l2). rewrite F6.
      destruct (l_rcom l) eqn:Er; cbn [negb].
      + apply Hgood. exists t. split; [|intros ->; congruence].
        split; [exact M'|]. split; [exact F1|]. split; [exact F5|]. split; [rewrite Er; exact F6|]. exact Hct.
      + eapply Hskip; [right; split; [exact M'|simpl; auto] | | auto].
        rewrite <- (app_nil_r t). eapply skComment; [exact Er|eauto|constructor].
    - destruct p; [|exact Hs]. destruct Hs as (l'' & t & M & Hsp & Hln).
      exists [], l, l'', t. split; [constructor|]. auto. }
  destruct ((l_ch l =? 34) || (l_ch l =? 39)) eqn:Eq.
  { apply Hgood, good_never.
    apply orb_true_iff in Eq. rewrite !Z.eqb_eq in Eq. destruct Eq as [Eq|Eq]; rewrite Eq.
    - apply (string_good l """"%byte); auto.
    - apply (string_good l "'"%byte); auto. }
  destruct (isWhitespace (l_ch l)) eqn:Ews.
  { destruct (l_rws l) eqn:Er; cbn [negb].
    - apply Hgood. destruct (stepWhile_ws (lfuel l) l Hw (lfuel_rest _)) as (l' & t & E & [M (F1 & F2 & F3 & F4 & F5 & F6)] & _ & Hws & Hne).
      rewrite E. cbn [bind]. exists t. split; [|intros ->; destruct (Hne Ews); auto].
      split; [exact M|]. simpl. repeat split; auto.
    - apply isWhitespace_byte in Ews as (b & Eb & Hb & Hb').
      eapply (Hskip (step l) (unitOf l)).
      + left. apply step_movesF; auto.
      + rewrite <- (app_nil_r (unitOf l)). apply skWs; [exact Er| |constructor].
        rewrite <- (app_nil_r (unitOf l)). apply (wsCons b); [exact Hb'| |constructor].
        apply unitOf_achar; auto.
      + pose proof (unitOf_pos _ Hw Neof) as P. intros E1; rewrite E1 in P; simpl in P; lia. }
  apply Hgood.
  destruct (isDigit (l_ch l)) eqn:Ed; [apply numeric_good; auto|].
  apply good_never.
  destruct (isNameStartCodePoint (l_ch l)) eqn:En; [|apply delim_good; auto].
  apply identlike_good; auto. left. unfold isNameCodePoint. rewrite En. reflexivity.
Qed.
End WithUnicode.
