(** Two files with a common beginning: as long as the lexer is well inside of
    it, it does the same on both. *)
From Verif Require Import Bytes Utf8 Source Lexer BytesFacts LexSpec LexFacts LexNext ParseMono.

Lemma decode_firstn s : decodeRune (firstn 4 s) = decodeRune s.
Proof.
  destruct s as [|a [|b [|c [|d s]]]]; reflexivity.
Qed.

Lemma decode_size s cp n : decodeRune s = (cp, n) -> (n <= 4)%nat.
Proof.
  rewrite <- decode_firstn. intros E. pose proof (firstn_le_length 4 s) as L. destruct (firstn 4 s) as [|b t]; [injection E as <- <-; lia|].
  apply decodeRune_cons in E. cbn [length] in L. lia.
Qed.

Section Two.
Variables (k : nat) (c c' : bytes).
Hypothesis Hk : (k <= length c)%nat.
Hypothesis Hk' : (k <= length c')%nat.
Hypothesis Hc : firstn k c = firstn k c'.

Lemma common p n : (p + n <= k)%nat -> firstn n (skipn p c) = firstn n (skipn p c').
Proof.
  intros H. rewrite !firstn_skipn_comm.
  replace (firstn (p + n) c) with (firstn (p + n) (firstn k c)) by (rewrite firstn_firstn; f_equal; lia).
  replace (firstn (p + n) c') with (firstn (p + n) (firstn k c')) by (rewrite firstn_firstn; f_equal; lia).
  rewrite Hc. reflexivity.
Qed.
Lemma decode_common p : (p + 4 <= k)%nat -> decodeRune (skipn p c) = decodeRune (skipn p c').
Proof. intros H. rewrite <- (decode_firstn (skipn p c)), <- (decode_firstn (skipn p c')), common by lia. reflexivity. Qed.
(** The same state on the other file. *)
Definition sw (l : lexer) : lexer :=
  mkLexer (l_ch l) (l_pos l) (l_lastPos l) (l_start l) c' (l_lines l) (l_cur l) (l_str l) (l_num l) (l_rws l) (l_rcom l).
Definition early (l : lexer) : Prop := (l_pos l + 8 <= k)%nat.
Definition on (l : lexer) : Prop := l_content l = c /\ cwf l.

Lemma on_moves l l' t : on l -> moves l l' t -> on l'.
Proof. intros [H _] M. split; [rewrite (proj1 M); exact H|eapply moves_cwf; eauto]. Qed.
Lemma early_moves l l' t : moves l l' t -> early l' -> early l.
Proof. intros (_ & _ & _ & _ & H & _). unfold early. lia. Qed.
Lemma step_sw0 l : l_content l = c -> early l -> step (sw l) = sw (step l).
Proof.
  intros E L. unfold early in L. unfold step. cbn [sw l_pos l_content l_lines]. rewrite E, <- decode_common by lia.
  destruct (decodeRune (skipn (l_pos l) c)) as [cp n] eqn:D. pose proof (decode_size _ _ _ D).
  destruct (n =? 0)%nat; [reflexivity|]. destruct (Z.eqb_spec cp 13); [|reflexivity].
  rewrite <- decode_common; [destruct (decodeRune (skipn (l_pos l + n) c)); reflexivity|].
  assert (n = 1)%nat. { destruct (skipn (l_pos l) c) as [|b s]; [injection D as <- <-; discriminate|]. apply decodeRune_cons in D as (_ & _ & D). destruct D as [(_ & _ & ->)|D]; lia. }
  lia.
Qed.
Lemma step_sw l : on l -> early l -> step (sw l) = sw (step l).
Proof. intros [E _]. apply step_sw0; exact E. Qed.
Lemma peek_sw l i : on l -> early l -> (i <= 2)%nat -> peek (sw l) i = peek l i.
Proof.
  intros [E W] L Hi. unfold early in L. unfold peek. cbn [sw l_pos l_content]. rewrite E, <- decode_common by lia.
  destruct (Nat.ltb_spec (length c') (l_pos l + i)); [lia|]. destruct (Nat.ltb_spec (length c) (l_pos l + i)); [lia|]. reflexivity.
Qed.
Lemma slice_sw l a b s : on l -> early l -> (b <= l_pos l)%nat -> contentSlice l a b = Ok s -> contentSlice (sw l) a b = Ok s.
Proof.
  intros [E W] L Hb. unfold early in L. unfold contentSlice. cbn [sw l_content]. rewrite E. unfold slice.
  destruct ((a <=? b)%nat) eqn:Ab; cbn [andb]; [|discriminate]. destruct (Nat.leb_spec b (length c)); [|lia]. destruct (Nat.leb_spec b (length c')); [|lia].
  rewrite (common a (b - a)) by (apply Nat.leb_le in Ab; lia). auto.
Qed.
Lemma lastPos_le l : cwf l -> (l_lastPos l <= l_pos l)%nat.
Proof. intros (_ & _ & ->). lia. Qed.

(** ** One token *)
Notation sim r r' := (forall l1, r = Ok l1 -> early l1 -> lef r' (Ok (sw l1))).
Section WithUnicode.
Context {U : UnicodeDigits}.
Ltac nch := let X := fresh in intro X; rewrite X in *; discriminate.

Lemma stepWhile_sw p f : p (-1) = false -> forall f' l, on l -> (length (rest l) < f)%nat -> sim (stepWhile p f l) (stepWhile p f' (sw l)).
Proof.
  intros Hp. induction f as [|f IH]; intros f' l Ho Hf l1 E L; [lia|]. destruct f' as [|f']; [left; reflexivity|].
  destruct (stepWhile_spec p (S f) l Hp (proj2 Ho) Hf) as (l2 & t & E2 & M & _). rewrite E in E2. injection E2 as <-. pose proof (early_moves _ _ _ (proj1 M) L) as Le.
  cbn [stepWhile] in *. change (l_ch (sw l)) with (l_ch l). destruct (p (l_ch l)) eqn:P; [|injection E as <-; apply lef_refl].
  assert (N : l_ch l <> -1) by (intros X; rewrite X in P; congruence). rewrite step_sw by auto. pose proof (step_movesF _ (proj2 Ho) N) as S1. pose proof (unitOf_pos _ (proj2 Ho) N). pose proof (moves_len _ _ _ (proj1 S1)).
  apply IH; auto; [eapply on_moves; [exact Ho|apply S1]|]. fold (unitOf l) in *. lia.
Qed.
Lemma escaped_sw n : forall l, on l -> early (escapedLoop n l) -> escapedLoop n (sw l) = sw (escapedLoop n l).
Proof.
  induction n as [|n IH]; intros l Ho L; [reflexivity|]. destruct (escapedLoop_spec (S n) l (proj2 Ho)) as (t & M). pose proof (early_moves _ _ _ (proj1 M) L) as Le. clear t M.
  cbn [escapedLoop] in *. change (l_ch (sw l)) with (l_ch l). destruct (isHexDigit (l_ch l)) eqn:E; [|reflexivity].
  assert (N : l_ch l <> -1) by (intros X; rewrite X in E; discriminate). rewrite step_sw by auto. pose proof (step_movesF _ (proj2 Ho) N) as S1. pose proof (on_moves _ _ _ Ho (proj1 S1)) as O1.
  change (l_ch (sw (step l))) with (l_ch (step l)). destruct (isWhitespace (l_ch (step l))) eqn:Ew; [|apply IH; auto].
  assert (N1 : l_ch (step l) <> -1) by (intros X; rewrite X in Ew; discriminate). pose proof (step_movesF _ (proj2 O1) N1) as S2. pose proof (on_moves _ _ _ O1 (proj1 S2)) as O2.
  destruct (escapedLoop_spec n (step (step l)) (proj2 O2)) as (t & M). pose proof (early_moves _ _ _ (proj1 M) L) as L2. pose proof (early_moves _ _ _ (proj1 S2) L2) as L1.
  rewrite step_sw by auto. apply IH; auto.
Qed.
Lemma nextEscaped_sw l : on l -> l_ch l <> -1 -> early (nextEscaped l) -> nextEscaped (sw l) = sw (nextEscaped l).
Proof.
  intros Ho N L. destruct (nextEscaped_spec l (proj2 Ho) N) as (t & M & _). pose proof (early_moves _ _ _ (proj1 M) L) as Le. unfold nextEscaped in *. rewrite step_sw by auto. apply escaped_sw; auto.
  eapply on_moves; [exact Ho|apply (step_movesF _ (proj2 Ho) N)].
Qed.
Lemma nameLoop_sw f : forall f' l, on l -> (length (rest l) < f)%nat -> sim (nextNameLoop f l) (nextNameLoop f' (sw l)).
Proof.
  induction f as [|f IH]; intros f' l Ho Hf l1 E L; [lia|]. destruct f' as [|f']; [left; reflexivity|].
  destruct (nextNameLoop_spec (S f) l (proj2 Ho) Hf) as (l2 & t & E2 & M & _). rewrite E in E2. injection E2 as <-. pose proof (early_moves _ _ _ (proj1 M) L) as Le.
  cbn [nextNameLoop] in *. change (l_ch (sw l)) with (l_ch l). rewrite peek_sw by (auto; lia). destruct (isNameCodePoint (l_ch l)) eqn:P.
  - assert (N : l_ch l <> -1) by (intros X; rewrite X in P; discriminate). rewrite step_sw by auto. pose proof (step_movesF _ (proj2 Ho) N) as S1. pose proof (unitOf_pos _ (proj2 Ho) N). pose proof (moves_len _ _ _ (proj1 S1)).
    apply IH; auto; [eapply on_moves; [exact Ho|apply S1]|]. fold (unitOf l) in *. lia.
  - destruct (startsEscape (l_ch l) (peek l 0)) eqn:Es; [|injection E as <-; apply lef_refl].
    pose proof (startsEscape_ch _ _ Es) as X. assert (N : l_ch l <> -1) by lia. destruct (nextEscaped_spec l (proj2 Ho) N) as (t1 & M1 & L1). pose proof (moves_len _ _ _ (proj1 M1)). pose proof (on_moves _ _ _ Ho (proj1 M1)) as O1.
    assert (L2 : early (nextEscaped l)). { destruct (nextNameLoop_spec f (nextEscaped l) (proj2 O1) ltac:(lia)) as (l3 & t3 & E3 & M3 & _). rewrite E in E3. injection E3 as <-. exact (early_moves _ _ _ (proj1 M3) L). }
    rewrite nextEscaped_sw by auto. apply IH; auto; lia.
Qed.
Lemma name_sw l : on l -> sim (nextName l) (nextName (sw l)).
Proof. intros Ho. apply nameLoop_sw; auto. apply lfuel_rest. Qed.

Lemma lef_step {A C} (m : res A) (a : A) (f : A -> res C) r : lef m (Ok a) -> lef (f a) r -> lef (bind m f) r.
Proof. intros [-> | ->] H; [left; reflexivity|exact H]. Qed.
Lemma bind_inv {A C} (m : res A) (f : A -> res C) x : bind m f = Ok x -> exists a, m = Ok a /\ f a = Ok x.
Proof. destruct m; cbn; try discriminate. eauto. Qed.
Lemma sign_sw l : on l -> early (if (l_ch l =? 43) || (l_ch l =? 45) then step l else l) ->
  let l1 := if (l_ch l =? 43) || (l_ch l =? 45) then step l else l in
  on l1 /\ early l /\ (if (l_ch (sw l) =? 43) || (l_ch (sw l) =? 45) then step (sw l) else sw l) = sw l1.
Proof.
  intros Ho L. change (l_ch (sw l)) with (l_ch l). destruct ((l_ch l =? 43) || (l_ch l =? 45)) eqn:E; [|auto].
  assert (N : l_ch l <> -1) by (intros X; rewrite X in E; discriminate). pose proof (step_movesF _ (proj2 Ho) N) as M. pose proof (early_moves _ _ _ (proj1 M) L) as Le.
  split; [exact (on_moves _ _ _ Ho (proj1 M))|]. split; [exact Le|]. apply step_sw; auto.
Qed.
Lemma number_sw l : on l -> sim (nextNumber l) (nextNumber (sw l)).
Proof.
  intros Ho l9 E L. unfold nextNumber in *. cbv zeta in *.
  set (l1 := if (l_ch l =? 43) || (l_ch l =? 45) then step l else l) in *.
  assert (O1 : on l1). { subst l1. destruct ((l_ch l =? 43) || (l_ch l =? 45)) eqn:X; [|exact Ho]. eapply on_moves; [exact Ho|apply step_moves; [apply Ho|intros Y; rewrite Y in X; discriminate]]. }
  destruct (stepWhile_spec isDigit (lfuel l1) l1 isDigit_neg (proj2 O1) (lfuel_rest _)) as (l2 & t2 & E2 & M2 & _). rewrite E2 in E. cbn [bind] in E. pose proof (on_moves _ _ _ O1 (proj1 M2)) as O2.
  apply bind_inv in E as (l3 & E3 & E).
  (* the fraction *)
  assert (H3 : exists t, moves l2 l3 t /\ (early l3 -> lef (if (l_ch (sw l2) =? 46) && isDigit (peek (sw l2) 0) then stepWhile isDigit (lfuel (sw l2)) (step (step (sw l2))) else Ok (sw l2)) (Ok (sw l3)))).
  { destruct ((l_ch l2 =? 46) && isDigit (peek l2 0)) eqn:X.
    - apply andb_true_iff in X as [X1 X2]. pose proof X1 as X1'. apply Z.eqb_eq in X1'. assert (N : l_ch l2 <> -1) by lia.
      assert (Hp : peek l2 0 <> 13) by (intro Y; rewrite Y in X2; discriminate). pose proof (peek0_step _ (proj2 O2) N Hp) as C1.
      assert (N1 : l_ch (step l2) <> -1) by (rewrite C1; intro Y; rewrite Y in X2; discriminate).
      pose proof (step_movesF _ (proj2 O2) N) as S1. pose proof (on_moves _ _ _ O2 (proj1 S1)) as Oa. pose proof (step_movesF _ (proj2 Oa) N1) as S2. pose proof (on_moves _ _ _ Oa (proj1 S2)) as Ob.
      pose proof (moves_len _ _ _ (proj1 S1)). pose proof (moves_len _ _ _ (proj1 S2)). pose proof (lfuel_rest l2).
      destruct (stepWhile_spec isDigit (lfuel l2) (step (step l2)) isDigit_neg (proj2 Ob) ltac:(lia)) as (l3' & t3 & E3' & M3 & _). rewrite E3' in E3. injection E3 as ->.
      eexists. split; [eapply moves_trans; [apply S1|]; eapply moves_trans; [apply S2|apply M3]|]. intros L3.
      pose proof (early_moves _ _ _ (proj1 M3) L3) as L5. pose proof (early_moves _ _ _ (proj1 S2) L5) as L4. pose proof (early_moves _ _ _ (proj1 S1) L4) as L2.
      rewrite peek_sw by (auto; lia). change (l_ch (sw l2)) with (l_ch l2). rewrite X1, X2. cbn [andb]. rewrite !step_sw by auto. eapply (stepWhile_sw isDigit _ isDigit_neg); [exact Ob| |exact E3'|exact L3]. lia.
    - injection E3 as <-. exists []. split; [apply moves_refl; apply O2|]. intros L2. rewrite peek_sw by (auto; lia). change (l_ch (sw l2)) with (l_ch l2). rewrite X. apply lef_refl. }
  destruct H3 as (t3 & M3 & H3). pose proof (on_moves _ _ _ O2 M3) as O3.
  (* the exponent *)
  assert (H4 : early l3 /\ lef (if ((l_ch (sw l3) =? 101) || (l_ch (sw l3) =? 69)) && (isDigit (peek (sw l3) 0) || (((peek (sw l3) 0 =? 43) || (peek (sw l3) 0 =? 45)) && isDigit (peek (sw l3) 1)))
    then stepWhile isDigit (lfuel (if (l_ch (step (sw l3)) =? 43) || (l_ch (step (sw l3)) =? 45) then step (step (sw l3)) else step (sw l3))) (if (l_ch (step (sw l3)) =? 43) || (l_ch (step (sw l3)) =? 45) then step (step (sw l3)) else step (sw l3))
    else Ok (sw l3)) (Ok (sw l9))).
  { destruct (((l_ch l3 =? 101) || (l_ch l3 =? 69)) && _) eqn:X.
    - assert (N : l_ch l3 <> -1) by (intros Y; rewrite Y in X; discriminate). pose proof (step_movesF _ (proj2 O3) N) as S1. pose proof (on_moves _ _ _ O3 (proj1 S1)) as O4.
      set (l5 := if (l_ch (step l3) =? 43) || (l_ch (step l3) =? 45) then step (step l3) else step l3) in *.
      assert (O5 : on l5). { subst l5. destruct ((l_ch (step l3) =? 43) || (l_ch (step l3) =? 45)) eqn:Y; [|exact O4]. eapply on_moves; [exact O4|apply step_moves; [apply O4|intros Q; rewrite Q in Y; discriminate]]. }
      destruct (stepWhile_spec isDigit (lfuel l5) l5 isDigit_neg (proj2 O5) (lfuel_rest _)) as (l6 & t6 & E6 & M6 & _). rewrite E6 in E. injection E as ->.
      pose proof (early_moves _ _ _ (proj1 M6) L) as L5. destruct (sign_sw (step l3) O4 L5) as (_ & L4 & S5). pose proof (early_moves _ _ _ (proj1 S1) L4) as L3. split; [exact L3|].
      rewrite !peek_sw by (auto; lia). change (l_ch (sw l3)) with (l_ch l3). rewrite X. rewrite (step_sw l3 O3 L3), S5. fold l5. eapply (stepWhile_sw isDigit _ isDigit_neg); [exact O5|apply lfuel_rest|exact E6|exact L].
    - injection E as <-. split; [exact L|]. rewrite !peek_sw by (auto; lia). change (l_ch (sw l3)) with (l_ch l3). rewrite X. apply lef_refl. }
  destruct H4 as [L3 H4]. pose proof (early_moves _ _ _ M3 L3) as L2. pose proof (early_moves _ _ _ (proj1 M2) L2) as L1. destruct (sign_sw l Ho L1) as (_ & L0 & S1). rewrite S1. fold l1.
  eapply lef_step; [eapply (stepWhile_sw isDigit _ isDigit_neg); [exact O1|apply lfuel_rest|exact E2|exact L2]|]. eapply lef_step; [apply H3; exact L3|]. exact H4.
Qed.
Ltac sws := change (l_ch (sw ?x)) with (l_ch x).
Lemma numeric_sw l : on l -> sim (nextNumericToken l) (nextNumericToken (sw l)).
Proof.
  intros Ho l9 E L. unfold nextNumericToken in *. cbv zeta in *.
  destruct (nextNumber_spec l (proj2 Ho)) as (l1 & t1 & E1 & M1 & _). pose proof (on_moves _ _ _ Ho (proj1 M1)) as O1. rewrite E1 in E. cbn [bind] in E.
  pose proof (contentSlice_moves _ _ _ (proj2 Ho) (proj1 M1)) as C1. rewrite C1 in E. cbn [bind] in E. set (l2 := setNum l1 t1) in *. assert (O2 : on l2) by exact O1.
  assert (G : early l2 -> lef (if startsIdentifier (l_ch (sw l2)) (peek (sw l2) 0) (peek (sw l2) 1)
    then l3 <- nextName (sw l2) ;; u <- contentSlice l3 (l_lastPos (sw l2)) (l_lastPos l3) ;; Ok (setCur (setStr l3 u) Dimension)
    else if l_ch (sw l2) =? 37 then Ok (step (setCur (sw l2) Percentage)) else Ok (setCur (sw l2) Number)) (Ok (sw l9)) ->
    lef (l1 <- nextNumber (sw l) ;; num <- contentSlice l1 (l_lastPos (sw l)) (l_lastPos l1) ;; (if startsIdentifier (l_ch (setNum l1 num)) (peek (setNum l1 num) 0) (peek (setNum l1 num) 1)
    then l3 <- nextName (setNum l1 num) ;; u <- contentSlice l3 (l_lastPos (setNum l1 num)) (l_lastPos l3) ;; Ok (setCur (setStr l3 u) Dimension)
    else if l_ch (setNum l1 num) =? 37 then Ok (step (setCur (setNum l1 num) Percentage)) else Ok (setCur (setNum l1 num) Number))) (Ok (sw l9))).
  { intros L2 H. eapply lef_step; [eapply number_sw; [exact Ho|exact E1|exact L2]|]. cbn [l_lastPos sw]. fold (sw l1). rewrite (slice_sw l1 _ _ t1 O1 L2 (lastPos_le _ (proj2 O1)) C1). cbn [bind]. exact H. }
  destruct (startsIdentifier (l_ch l2) (peek l2 0) (peek l2 1)) eqn:Es.
  - destruct (nextName_spec l2 (proj2 O2)) as (l3 & t3 & E3 & M3 & _). pose proof (on_moves _ _ _ O2 (proj1 M3)) as O3. rewrite E3 in E. cbn [bind] in E.
    pose proof (contentSlice_moves _ _ _ (proj2 O2) (proj1 M3)) as C3. rewrite C3 in E. cbn [bind] in E. injection E as <-. assert (L3 : early l3) by exact L. pose proof (early_moves _ _ _ (proj1 M3) L3) as L2. apply (G L2).
    change (l_ch (sw l2)) with (l_ch l2). rewrite !peek_sw by (auto; lia). rewrite Es. eapply lef_step; [eapply name_sw; [exact O2|exact E3|exact L3]|].
    change (l_lastPos (sw l2)) with (l_lastPos l2). change (l_lastPos (sw l3)) with (l_lastPos l3). rewrite (slice_sw l3 _ _ t3 O3 L3 (lastPos_le _ (proj2 O3)) C3). apply lef_refl.
  - destruct (Z.eqb_spec (l_ch l2) 37) as [E37|N37].
    + injection E as <-. assert (N : l_ch (setCur l2 Percentage) <> -1) by (change (l_ch l2 <> -1); lia). assert (O2' : on (setCur l2 Percentage)) by exact O2.
      pose proof (early_moves _ _ _ (step_moves _ (proj2 O2') N) L) as L2. apply (G L2). change (l_ch (sw l2)) with (l_ch l2). rewrite !peek_sw by (auto; lia). rewrite Es, E37. cbn [Z.eqb Pos.eqb].
      change (setCur (sw l2) Percentage) with (sw (setCur l2 Percentage)). rewrite step_sw by auto. apply lef_refl.
    + injection E as <-. assert (L2 : early l2) by exact L. apply (G L2). change (l_ch (sw l2)) with (l_ch l2). rewrite !peek_sw by (auto; lia). rewrite Es. destruct (Z.eqb_spec (l_ch l2) 37); [contradiction|]. apply lef_refl.
Qed.
Lemma delim_sw l : on l -> l_ch l <> -1 -> sim (nextDelimToken l) (nextDelimToken (sw l)).
Proof.
  intros Ho N l9 E L. unfold nextDelimToken in *. cbv zeta in *. pose proof (step_moves _ (proj2 Ho) N) as M. pose proof (on_moves _ _ _ Ho M) as O1. apply bind_inv in E as (s & Cs & E). injection E as <-.
  pose proof (early_moves _ _ _ M L) as L0. rewrite step_sw by auto. assert (L1 : early (setCur (step l) Delim)) by exact L. change (setCur (sw (step l)) Delim) with (sw (setCur (step l) Delim)).
  match goal with |- lef (bind ?x _) _ => replace x with (Ok s) by (symmetry; exact (slice_sw (setCur (step l) Delim) _ _ s O1 L1 (lastPos_le _ (proj2 O1)) Cs)) end. apply lef_refl.
Qed.
Lemma single_sw t l : on l -> l_ch l <> -1 -> sim (single t l) (single t (sw l)).
Proof.
  intros Ho N l9 E L. unfold single in *. injection E as <-. assert (O1 : on (setCur l t)) by exact Ho. pose proof (early_moves _ _ _ (step_moves (setCur l t) (proj2 O1) N) L) as L0.
  change (setCur (sw l) t) with (sw (setCur l t)). rewrite step_sw by auto. apply lef_refl.
Qed.
Lemma sigil_sw t l : on l -> l_ch l <> -1 -> sim (nextSigilName t l) (nextSigilName t (sw l)).
Proof.
  intros Ho N l9 E L. unfold nextSigilName in *. cbv zeta in *. set (l1 := setCur (step l) t) in *. pose proof (step_moves _ (proj2 Ho) N) as M. assert (O1 : on l1) by exact (on_moves _ _ _ Ho M).
  destruct (nextName_spec l1 (proj2 O1)) as (l2 & t2 & E2 & M2 & _). pose proof (on_moves _ _ _ O1 (proj1 M2)) as O2. rewrite E2 in E. cbn [bind] in E.
  pose proof (contentSlice_moves _ _ _ (proj2 O1) (proj1 M2)) as C2. rewrite C2 in E. injection E as <-. assert (L2 : early l2) by exact L. pose proof (early_moves _ _ _ (proj1 M2) L2) as L1.
  pose proof (early_moves _ _ _ M L1) as L0. rewrite step_sw by auto. change (setCur (sw (step l)) t) with (sw l1). eapply lef_step; [eapply name_sw; [exact O1|exact E2|exact L2]|].
  change (l_lastPos (sw l1)) with (l_lastPos l1). change (l_lastPos (sw l2)) with (l_lastPos l2). rewrite (slice_sw l2 _ _ t2 O2 L2 (lastPos_le _ (proj2 O2)) C2). apply lef_refl.
Qed.
Lemma urlSkip_sw f : forall f' i l, on l -> (i <= l_lastPos l)%nat -> (length (rest l) < f)%nat -> sim (urlSkipWs f i l) (urlSkipWs f' i (sw l)).
Proof.
  induction f as [|f IH]; intros f' i l Ho Hi Hf l1 E L; [lia|]. destruct f' as [|f']; [left; reflexivity|].
  destruct (urlSkipWs_spec (S f) i l (proj2 Ho) Hf) as (l2 & t & E2 & M & _). rewrite E in E2. injection E2 as <-. pose proof (early_moves _ _ _ (proj1 M) L) as Le. unfold early in Le. pose proof (lastPos_le _ (proj2 Ho)).
  cbn [urlSkipWs] in *. change (l_ch (sw l)) with (l_ch l). change (l_content (sw l)) with c'. rewrite (proj1 Ho) in E.
  destruct (Nat.ltb_spec i (length c)); [|lia]. destruct (Nat.ltb_spec i (length c')); [|lia]. cbn [andb] in *.
  destruct (isWhitespace (l_ch l)) eqn:P; [|injection E as <-; apply lef_refl].
  assert (N : l_ch l <> -1) by (intros X; rewrite X in P; discriminate). rewrite step_sw by auto. pose proof (step_movesF _ (proj2 Ho) N) as S1. pose proof (unitOf_pos _ (proj2 Ho) N). pose proof (moves_len _ _ _ (proj1 S1)).
  fold (unitOf l) in *. apply IH; auto; [eapply on_moves; [exact Ho|apply S1]| |lia]. destruct S1 as [(_ & _ & -> & _) _]. lia.
Qed.
Lemma moves_pos l l' t : moves l l' t -> (l_pos l <= l_pos l')%nat.
Proof. intros (_ & _ & _ & _ & H & _). exact H. Qed.
Lemma step_pos l : (l_pos l <= l_pos (step l))%nat.
Proof.
  unfold step. destruct (decodeRune _) as [cp n]. destruct (n =? 0)%nat; [cbn; lia|]. destruct (cp =? 13); [destruct (decodeRune _)|]; cbn; lia.
Qed.
Lemma escaped_pos n : forall l, (l_pos l <= l_pos (escapedLoop n l))%nat.
Proof.
  induction n as [|n IH]; intros l; cbn [escapedLoop]; [lia|]. destruct (isHexDigit _); [|lia]. pose proof (step_pos l). pose proof (step_pos (step l)).
  destruct (isWhitespace _); (eapply Nat.le_trans; [|apply IH]); lia.
Qed.
Lemma nextEscaped_pos l : (l_pos l <= l_pos (nextEscaped l))%nat.
Proof. unfold nextEscaped. pose proof (step_pos l). pose proof (escaped_pos 5 (step l)). lia. Qed.
Lemma url_pos f st : forall l l1, urlLoop f st l = Ok l1 -> (l_pos l <= l_pos l1)%nat.
Proof.
  induction f as [|f IH]; intros l l1 E; [discriminate|]. cbn [urlLoop] in E. pose proof (step_pos l). pose proof (nextEscaped_pos l). destruct (_ =? 41).
  { apply bind_inv in E as (s & _ & E). injection E as <-. apply (step_pos (setStr l s)). }
  destruct (_ =? -1); [discriminate|]. destruct (_ || _); [discriminate|]. destruct (_ =? 92).
  - destruct (startsEscape _ _); [|discriminate]. apply IH in E. lia.
  - destruct (isWhitespace _); [apply IH in E; lia|]. destruct (isNonPrintable _); [discriminate|]. apply IH in E. lia.
Qed.
Lemma comment_pos f : forall l e l1, commentLoop f l = Ok (e, l1) -> (l_pos l <= l_pos l1)%nat.
Proof.
  induction f as [|f IH]; intros l e l1 E; [discriminate|]. cbn [commentLoop] in E. pose proof (step_pos l). pose proof (step_pos (step l)). destruct (_ =? 42).
  - destruct (_ =? 47); [injection E as _ <-; lia|]. apply IH in E. lia.
  - destruct (_ =? -1); [discriminate|]. apply IH in E. lia.
Qed.
Lemma string_pos f q : forall l e l1, stringLoop f q l = Ok (e, l1) -> (l_pos l <= l_pos l1)%nat.
Proof.
  induction f as [|f IH]; intros l e l1 E; [discriminate|]. cbn [stringLoop] in E. pose proof (step_pos l). pose proof (step_pos (step l)). pose proof (nextEscaped_pos (step l)).
  destruct (_ =? q); [injection E as _ <-; lia|]. destruct (_ =? 10); [discriminate|]. destruct (_ =? 92).
  - destruct (_ =? 10); [apply IH in E; lia|]. destruct (_ =? -1); [discriminate|]. destruct (startsEscape _ _); apply IH in E; lia.
  - destruct (_ =? -1); [discriminate|]. apply IH in E. lia.
Qed.
Lemma urlLoop_sw f st : forall f' l, on l -> sim (urlLoop f st l) (urlLoop f' st (sw l)).
Proof.
  induction f as [|f IH]; intros f' l Ho l1 E L; [discriminate|]. destruct f' as [|f']; [left; reflexivity|].
  assert (Le : early l) by (pose proof (url_pos _ _ _ _ E); unfold early in *; lia).
  cbn [urlLoop] in *. change (l_ch (sw l)) with (l_ch l). destruct (Z.eqb_spec (l_ch l) 41) as [C|C].
  { apply bind_inv in E as (s & Cs & E). injection E as <-. match goal with |- lef (bind ?x _) _ => replace x with (Ok s) by (symmetry; exact (slice_sw l _ _ s Ho Le (lastPos_le _ (proj2 Ho)) Cs)) end. cbn [bind].
    change (setStr (sw l) s) with (sw (setStr l s)). rewrite step_sw by auto. apply lef_refl. }
  destruct (Z.eqb_spec (l_ch l) (-1)) as [C1|C1]; [discriminate|]. destruct (_ || _); [discriminate|].
  pose proof (on_moves _ _ _ Ho (step_moves _ (proj2 Ho) C1)) as O1.
  rewrite peek_sw by (auto; lia). destruct (Z.eqb_spec (l_ch l) 92).
  - destruct (startsEscape _ _); [|discriminate]. destruct (nextEscaped_spec l (proj2 Ho) C1) as (t1 & M1 & _).
    assert (Q : early (nextEscaped l)) by (pose proof (url_pos _ _ _ _ E); unfold early in *; lia).
    rewrite nextEscaped_sw by auto. apply IH; auto. exact (on_moves _ _ _ Ho (proj1 M1)).
  - rewrite step_sw by auto. destruct (isWhitespace _); [apply IH; auto|]. destruct (isNonPrintable _); [discriminate|]. apply IH; auto.
Qed.
Notation sim2 r r' := (forall e l1, r = Ok (e, l1) -> early l1 -> (e <= l_pos l1)%nat /\ lef r' (Ok (e, sw l1))).
Lemma comment_sw f : forall f' l, on l -> sim2 (commentLoop f l) (commentLoop f' (sw l)).
Proof.
  induction f as [|f IH]; intros f' l Ho e l1 E L; [discriminate|].
  assert (Le : early l) by (pose proof (comment_pos _ _ _ _ E); unfold early in *; lia). cbn [commentLoop] in E.
  pose proof (lastPos_le _ (proj2 Ho)). pose proof (step_pos l). pose proof (step_pos (step l)).
  assert (D : (e <= l_pos l1)%nat /\ (forall f', lef (commentLoop (S f') (sw l)) (Ok (e, sw l1)))).
  { cbn [commentLoop]. change (l_ch (sw l)) with (l_ch l). change (l_lastPos (sw l)) with (l_lastPos l). destruct (Z.eqb_spec (l_ch l) 42) as [C|C].
    - assert (N : l_ch l <> -1) by lia. pose proof (on_moves _ _ _ Ho (step_moves _ (proj2 Ho) N)) as O1. rewrite step_sw by auto. change (l_ch (sw (step l))) with (l_ch (step l)).
      destruct (Z.eqb_spec (l_ch (step l)) 47) as [C2|C2].
      + injection E as <- <-. split; [lia|]. intros _. assert (L1 : early (step l)) by (unfold early in *; lia). rewrite step_sw by auto. apply lef_refl.
      + split; [eapply (proj1 (IH 0%nat _ O1 _ _ E L))|]. intros f''. apply (IH f'' _ O1 _ _ E L).
    - destruct (Z.eqb_spec (l_ch l) (-1)) as [N|N]; [discriminate|]. pose proof (on_moves _ _ _ Ho (step_moves _ (proj2 Ho) N)) as O1. rewrite step_sw by auto.
      split; [eapply (proj1 (IH 0%nat _ O1 _ _ E L))|]. intros f''. apply (IH f'' _ O1 _ _ E L). }
  split; [apply D|]. destruct f'; [left; reflexivity|apply D].
Qed.
Lemma string_sw f q : q <> -1 -> forall f' l, on l -> sim2 (stringLoop f q l) (stringLoop f' q (sw l)).
Proof.
  intros Hq. induction f as [|f IH]; intros f' l Ho e l1 E L; [discriminate|].
  assert (Le : early l) by (pose proof (string_pos _ _ _ _ _ E); unfold early in *; lia). cbn [stringLoop] in E.
  pose proof (lastPos_le _ (proj2 Ho)). pose proof (step_pos l). pose proof (step_pos (step l)).
  assert (D : (e <= l_pos l1)%nat /\ (forall f', lef (stringLoop (S f') q (sw l)) (Ok (e, sw l1)))).
  { assert (K : forall l2, on l2 -> stringLoop f q l2 = Ok (e, l1) -> (e <= l_pos l1)%nat /\ forall f', lef (stringLoop f' q (sw l2)) (Ok (e, sw l1))).
    { intros l2 O2 E2. split; [exact (proj1 (IH 0%nat _ O2 _ _ E2 L))|]. intros f''. exact (proj2 (IH f'' _ O2 _ _ E2 L)). }
    cbn [stringLoop]. change (l_ch (sw l)) with (l_ch l). change (l_lastPos (sw l)) with (l_lastPos l). destruct (Z.eqb_spec (l_ch l) q) as [C|C].
    { injection E as <- <-. split; [lia|]. intros _. rewrite step_sw by auto. apply lef_refl. }
    destruct (_ =? 10); [discriminate|]. destruct (Z.eqb_spec (l_ch l) 92) as [C2|C2].
    - assert (N : l_ch l <> -1) by lia. pose proof (on_moves _ _ _ Ho (step_moves _ (proj2 Ho) N)) as O1. rewrite step_sw by auto. change (l_ch (sw (step l))) with (l_ch (step l)).
      assert (L1 : early (step l)). { unfold early in *. destruct (_ =? 10); [apply string_pos in E; lia|]. destruct (_ =? -1); [discriminate|]. pose proof (nextEscaped_pos (step l)). destruct (startsEscape _ _); apply string_pos in E; lia. }
      rewrite peek_sw by (auto; lia). destruct (Z.eqb_spec (l_ch (step l)) 10) as [C3|C3].
      + rewrite step_sw by auto. apply K; [|exact E]. eapply on_moves; [exact O1|apply step_moves; [apply O1|lia]].
      + destruct (Z.eqb_spec (l_ch (step l)) (-1)) as [N1|N1]; [discriminate|]. destruct (startsEscape _ _) eqn:Es.
        * destruct (nextEscaped_spec (step l) (proj2 O1) N1) as (t1 & M1 & _). assert (L2 : early (nextEscaped (step l))) by (apply string_pos in E; unfold early in *; lia).
          rewrite nextEscaped_sw by auto. apply K; [|exact E]. exact (on_moves _ _ _ O1 (proj1 M1)).
        * apply K; [exact O1|exact E].
    - destruct (Z.eqb_spec (l_ch l) (-1)) as [N|N]; [discriminate|]. rewrite step_sw by auto. apply K; [|exact E]. eapply on_moves; [exact Ho|apply step_moves; [apply Ho|exact N]]. }
  split; [apply D|]. destruct f'; [left; reflexivity|apply D].
Qed.
Lemma string_on f q : q <> -1 -> forall l e l1, on l -> stringLoop f q l = Ok (e, l1) -> on l1.
Proof.
  intros Hq. induction f as [|f IH]; intros l e l1 Ho E; [discriminate|]. cbn [stringLoop] in E.
  destruct (Z.eqb_spec (l_ch l) q) as [C|C]; [injection E as _ <-; eapply on_moves; [exact Ho|apply step_moves; [apply Ho|congruence]]|].
  destruct (_ =? 10); [discriminate|]. destruct (Z.eqb_spec (l_ch l) (-1)) as [N|N]; [rewrite N in E; discriminate|]. pose proof (on_moves _ _ _ Ho (step_moves _ (proj2 Ho) N)) as O1.
  destruct (_ =? 92); [|eapply IH; eauto]. destruct (Z.eqb_spec (l_ch (step l)) 10) as [C3|C3]; [eapply IH; [|exact E]; eapply on_moves; [exact O1|apply step_moves; [apply O1|lia]]|].
  destruct (Z.eqb_spec (l_ch (step l)) (-1)) as [N1|N1]; [discriminate|]. destruct (startsEscape _ _); [|eapply IH; eauto].
  destruct (nextEscaped_spec (step l) (proj2 O1) N1) as (t & M & _). eapply IH; [|exact E]. exact (on_moves _ _ _ O1 (proj1 M)).
Qed.
Lemma skipn_skipn' p n (x : bytes) : skipn n (skipn p x) = skipn (p + n) x.
Proof. revert x; induction p as [|p IH]; intros x; [reflexivity|]. destruct x; [rewrite !skipn_nil; reflexivity|]. cbn [Nat.add skipn]. apply IH. Qed.
Lemma chOf_common p : (p + 8 <= k)%nat -> chOf (skipn p c') = chOf (skipn p c).
Proof.
  intros H. assert (N : skipn p c <> []) by (intros X; apply (f_equal (@length byte)) in X; rewrite skipn_length in X; cbn in X; lia).
  assert (N' : skipn p c' <> []) by (intros X; apply (f_equal (@length byte)) in X; rewrite skipn_length in X; cbn in X; lia).
  assert (A : forall x, x <> [] -> chOf x = let '(cp, size) := decodeRune x in if cp =? 13 then let '(nxt, ns) := decodeRune (skipn size x) in (nxt, (size + ns)%nat) else (cp, size)) by (intros [|? ?] X; [congruence|reflexivity]).
  rewrite !A by assumption. rewrite <- decode_common by lia. destruct (decodeRune (skipn p c)) as [cp n] eqn:D. pose proof (decode_size _ _ _ D).
  rewrite !skipn_skipn', <- decode_common by lia. reflexivity.
Qed.
Lemma cwf_sw l : on l -> early l -> cwf (sw l).
Proof.
  intros [E W] L. pose proof (lastPos_le l W). destruct W as (W1 & W2 & W3). unfold early in L. unfold cwf, rest in *. cbn [sw l_lastPos l_content l_ch l_pos]. rewrite E in *. rewrite chOf_common by lia. repeat split; auto; lia.
Qed.
Lemma identlike_sw l : on l -> sim (nextIdentLikeToken l) (nextIdentLikeToken (sw l)).
Proof.
  intros Ho l9 E L. unfold nextIdentLikeToken in *. cbv zeta in *.
  destruct (nextName_spec l (proj2 Ho)) as (l1 & t1 & E1 & M1 & _). pose proof (on_moves _ _ _ Ho (proj1 M1)) as O1. rewrite E1 in E. cbn [bind] in E.
  pose proof (contentSlice_moves _ _ _ (proj2 Ho) (proj1 M1)) as C1. rewrite C1 in E. cbn [bind] in E. set (l2 := setStr l1 t1) in *. assert (O2 : on l2) by exact O1.
  assert (G : early l2 /\ lef (if isURLString t1 && (l_ch (sw l2) =? 40)
    then l4 <- urlSkipWs (lfuel (step (sw l2))) (l_lastPos (step (sw l2))) (step (sw l2)) ;;
      (if (l_ch l4 =? 39) || (l_ch l4 =? 34) then Ok (setCur l4 FunctionStart) else urlLoop (lfuel (setCur l4 URL)) (l_lastPos (setCur l4 URL)) (setCur l4 URL))
    else if l_ch (sw l2) =? 40 then Ok (setCur (step (sw l2)) FunctionStart) else Ok (setCur (sw l2) Ident)) (Ok (sw l9))).
  { change (l_ch (sw l2)) with (l_ch l2). destruct (isURLString t1 && (l_ch l2 =? 40)) eqn:Eu.
    - apply andb_true_iff in Eu as [_ C]. apply Z.eqb_eq in C. assert (N : l_ch l2 <> -1) by lia. pose proof (step_moves _ (proj2 O2) N) as M3. pose proof (on_moves _ _ _ O2 M3) as O3.
      destruct (urlSkipWs_spec (lfuel (step l2)) (l_lastPos (step l2)) _ (proj2 O3) (lfuel_rest _)) as (l4 & t4 & E4 & M4 & _). pose proof (on_moves _ _ _ O3 (proj1 M4)) as O4. rewrite E4 in E. cbn [bind] in E.
      assert (L4 : early l4). { destruct (_ || _); [injection E as <-; exact L|]. apply url_pos in E. cbn [l_pos setCur] in E. unfold early in *. lia. }
      pose proof (early_moves _ _ _ (proj1 M4) L4) as L3. pose proof (early_moves _ _ _ M3 L3) as L2. split; [exact L2|]. rewrite step_sw by auto. change (l_lastPos (sw (step l2))) with (l_lastPos (step l2)).
      eapply lef_step; [eapply urlSkip_sw; [exact O3|apply le_n|apply lfuel_rest|exact E4|exact L4]|]. change (l_ch (sw l4)) with (l_ch l4).
      destruct (_ || _); [injection E as <-; apply lef_refl|]. change (setCur (sw l4) URL) with (sw (setCur l4 URL)). change (l_lastPos (sw (setCur l4 URL))) with (l_lastPos (setCur l4 URL)). eapply urlLoop_sw; [exact O4|exact E|exact L].
    - destruct (Z.eqb_spec (l_ch l2) 40) as [C|C].
      + assert (N : l_ch l2 <> -1) by lia. injection E as <-. assert (L3 : early (step l2)) by exact L. pose proof (early_moves _ _ _ (step_moves _ (proj2 O2) N) L3) as L2. split; [exact L2|]. rewrite step_sw by auto. apply lef_refl.
      + injection E as <-. split; [exact L|apply lef_refl]. }
  destruct G as [L2 G]. eapply lef_step; [eapply name_sw; [exact Ho|exact E1|exact L2]|].
  match goal with |- lef (bind ?x _) _ => replace x with (Ok t1) by (symmetry; exact (slice_sw l1 _ _ t1 O1 L2 (lastPos_le _ (proj2 O1)) C1)) end. exact G.
Qed.
Lemma next_pos f l l1 : cwf l -> (length (rest l) < f)%nat -> nextLoop f l = Ok l1 -> (l_pos l <= l_pos l1)%nat /\ cwf l1 /\ l_content l1 = l_content l.
Proof.
  intros W Hf E. pose proof (nextLoop_spec f l W Hf) as S. rewrite E in S. destruct S as (g & lm & text & _ & _ & M & _ & _ & _ & (M2 & _) & _).
  pose proof (moves_trans _ _ _ _ _ M M2) as M3. split; [eapply moves_pos; eauto|]. split; [eapply moves_cwf; eauto|]. apply M3.
Qed.
Ltac same E := injection E as <-; apply lef_refl.
Lemma nextLoop_sw f : forall f' l0, on l0 -> (length (rest l0) < f)%nat -> sim (nextLoop f l0) (nextLoop f' (sw l0)).
Proof.
  induction f as [|f IH]; intros f' l0 Ho0 Hf l1 E L; [lia|]. destruct f' as [|f']; [left; reflexivity|].
  assert (Le0 : early l0) by (destruct (next_pos _ _ _ (proj2 Ho0) Hf E) as [X _]; unfold early in *; lia).
  cbn [nextLoop] in *. cbv zeta in *. change (setStart (sw l0) (l_lastPos (sw l0))) with (sw (setStart l0 (l_lastPos l0))). set (l := setStart l0 (l_lastPos l0)) in *.
  assert (Ho : on l) by exact Ho0. assert (Le : early l) by exact Le0. change (l_ch (sw l)) with (l_ch l). rewrite !peek_sw by (auto; lia).
  destruct (Z.eqb_spec (l_ch l) (-1)) as [N|N]; [same E|].
  destruct (_ =? 59); [eapply single_sw; eauto|]. destruct (_ =? 58); [eapply single_sw; eauto|].
  destruct (_ =? 43). { destruct (startsNumber _ _ _); [eapply numeric_sw|eapply delim_sw]; eauto. }
  destruct (_ =? 45). { destruct (startsNumber _ _ _); [eapply numeric_sw; eauto|]. destruct (_ && _); [same E|]. destruct (startsIdentifier _ _ _); [eapply identlike_sw|eapply delim_sw]; eauto. }
  destruct (_ =? 60). { destruct (_ && _); [same E|]. eapply delim_sw; eauto. }
  destruct (_ =? 64). { destruct (startsIdentifier _ _ _); [eapply sigil_sw|eapply delim_sw]; eauto. }
  destruct (_ =? 35). { destruct (_ || _); [eapply sigil_sw|eapply delim_sw]; eauto. }
  destruct (_ =? 44); [eapply single_sw; eauto|]. destruct (_ =? 40); [eapply single_sw; eauto|]. destruct (_ =? 41); [eapply single_sw; eauto|].
  destruct (_ =? 91); [eapply single_sw; eauto|]. destruct (_ =? 93); [eapply single_sw; eauto|]. destruct (_ =? 123); [eapply single_sw; eauto|]. destruct (_ =? 125); [eapply single_sw; eauto|].
  destruct (_ =? 46). { destruct (startsNumber _ _ _); [eapply numeric_sw|eapply delim_sw]; eauto. }
  destruct (_ =? 92). { destruct (negb _); [discriminate|]. eapply identlike_sw; eauto. }
  destruct (Z.eqb_spec (l_ch l) 47) as [C47|_].
  { destruct (Z.eqb_spec (peek l 0) 42) as [P0|P0]; cbn [negb] in *; [|eapply delim_sw; eauto].
    pose proof (comment_spec l (proj2 Ho) C47 P0) as Cs. apply bind_inv in E as ([e l2] & E2 & E). rewrite E2 in Cs. destruct Cs as (body & t & Mt & _ & Nt & Cs). rewrite Cs in E. cbn [bind] in E.
    pose proof (on_moves _ _ _ Ho (proj1 Mt)) as O2. set (l4 := setStr (setCur l2 Comment) body) in *. assert (O4 : on l4) by exact O2.
    assert (Hf4 : (length (rest l4) < f)%nat). { pose proof (moves_len _ _ _ (proj1 Mt)) as Q. change (rest l) with (rest l0) in Q. change (rest l4) with (rest l2). destruct t; [contradiction|]. cbn [length] in Q. lia. }
    assert (L2 : early l2). { destruct (negb _); [destruct (next_pos _ _ _ (proj2 O4) Hf4 E) as [X _]; change (l_pos l4) with (l_pos l2) in X; unfold early in *; lia|injection E as <-; exact L]. }
    pose proof (on_moves _ _ _ Ho (step_moves _ (proj2 Ho) N)) as Oa. 
    assert (Na : l_ch (step l) <> -1). { rewrite (peek0_step _ (proj2 Ho) N); rewrite P0; discriminate. }
    pose proof (on_moves _ _ _ Oa (step_moves _ (proj2 Oa) Na)) as Ob. pose proof (comment_pos _ _ _ _ E2) as Pc. pose proof (step_pos (step l)) as Ps.
    assert (La : early (step l)) by (unfold early in *; lia). rewrite !step_sw by auto. destruct (comment_sw _ (lfuel (sw (step (step l)))) _ Ob _ _ E2 L2) as [Le2 S2].
    eapply lef_step; [exact S2|]. cbn beta iota. change (setCur (sw l2) Comment) with (sw (setCur l2 Comment)).
    match goal with |- lef (bind ?x _) _ => replace x with (Ok body) by (symmetry; exact (slice_sw (setCur l2 Comment) _ _ body O2 L2 Le2 Cs)) end. cbn [bind].
    change (setStr (sw (setCur l2 Comment)) body) with (sw l4). change (l_rcom (sw l4)) with (l_rcom l4). destruct (negb _); [|same E]. eapply IH; eauto. }
  destruct (_ || _).
  { pose proof (on_moves _ _ _ Ho (step_moves _ (proj2 Ho) N)) as O1. rewrite step_sw by auto. apply bind_inv in E as ([e l2] & E2 & E). apply bind_inv in E as (s & Cs & E). injection E as <-. assert (L2 : early l2) by exact L.
    destruct (string_sw _ _ N (lfuel (sw (step l))) _ O1 _ _ E2 L2) as [Le2 S2]. eapply lef_step; [exact S2|]. cbn beta iota. change (setCur (sw l2) TString) with (sw (setCur l2 TString)).
    assert (O2 : on (setCur l2 TString)). { pose proof (string_on _ _ N _ _ _ O1 E2). assumption. }
    match goal with |- lef (bind ?x _) _ => replace x with (Ok s) by (symmetry; exact (slice_sw (setCur l2 TString) _ _ s O2 L2 Le2 Cs)) end. apply lef_refl. }
  destruct (isWhitespace (l_ch l)) eqn:Ws.
  { change (l_rws (sw l)) with (l_rws l). pose proof (step_movesF _ (proj2 Ho) N) as S1. pose proof (on_moves _ _ _ Ho (proj1 S1)) as O1. destruct (negb _).
    - rewrite step_sw by auto. eapply IH; eauto. pose proof (moves_len _ _ _ (proj1 S1)) as Q. change (rest l) with (rest l0) in Q. pose proof (unitOf_pos _ (proj2 Ho) N) as Up. unfold unitOf in Up. change (rest l) with (rest l0) in Up. lia.
    - apply bind_inv in E as (l2 & E2 & E). injection E as <-. assert (L2 : early l2) by exact L. eapply lef_step; [eapply (stepWhile_sw isWhitespace); [reflexivity|exact Ho|apply lfuel_rest|exact E2|exact L2]|]. apply lef_refl. }
  destruct (isDigit _); [eapply numeric_sw; eauto|]. destruct (isNameStartCodePoint _); [eapply identlike_sw; eauto|]. eapply delim_sw; eauto.
Qed.
Lemma next_sw l l1 : on l -> next l = Ok l1 -> (early l1 -> next (sw l) = Ok (sw l1)).
Proof.
  intros Ho E L. destruct (next_pos _ _ _ (proj2 Ho) (lfuel_rest l) E) as (P & W & C).
  assert (Le : early l) by (unfold early in *; lia). destruct (nextLoop_sw _ (lfuel (sw l)) _ Ho (lfuel_rest l) _ E L) as [T|T]; [|exact T].
  exfalso. pose proof (nextLoop_spec (lfuel (sw l)) (sw l)) as S. unfold next in T. rewrite T in S. apply S; [|apply lfuel_rest]. apply cwf_sw; auto.
Qed.
End WithUnicode.
End Two.

(** ** One step of the parser *)
Section One.
Context {U : UnicodeDigits}.
Variables (k : nat) (c : bytes).
Notation on := (on c).
Notation early := (early k).
Definition onw (l : lexer) : Prop := on l /\ (l_start l <= l_lastPos l)%nat.
Definition fwd (l l1 : lexer) : Prop := onw l1 /\ (l_pos l <= l_pos l1)%nat /\
  (l_start l1 = l_start l /\ l_lastPos l1 = l_lastPos l \/ (l_lastPos l <= l_start l1)%nat).
Lemma fwd_refl l : onw l -> fwd l l.
Proof. unfold fwd. auto. Qed.
Lemma fwd_trans a b d : onw b -> fwd a b -> fwd b d -> fwd a d.
Proof. unfold fwd, onw. intros (_ & ?) (? & ? & X) (? & ? & Y). split; [assumption|]. split; [lia|]. destruct X as [[X1 X2]|X], Y as [[Y1 Y2]|Y]; lia. Qed.
Lemma fwd_last a b : onw b -> fwd a b -> (l_lastPos a <= l_lastPos b)%nat.
Proof. intros (_ & H) (_ & _ & [[_ X]|X]); lia. Qed.
Lemma fwd_early a b : fwd a b -> early b -> early a.
Proof. unfold fwd, LaterLex.early. lia. Qed.
Lemma next_fwd l l1 : on l -> next l = Ok l1 -> onw l1 /\ (l_pos l <= l_pos l1)%nat /\ (l_lastPos l <= l_start l1)%nat.
Proof.
  intros Ho E. pose proof (nextLoop_spec _ l (proj2 Ho) (lfuel_rest l)) as S. unfold next in E. rewrite E in S.
  destruct S as (g & lm & text & _ & _ & M & St & _ & _ & (M2 & St2 & _) & _). pose proof (moves_cwf _ _ _ M2) as W. destruct M as (C1 & _ & Q1 & _ & Q2 & _), M2 as (C2 & _ & R1 & _ & R2 & _).
  unfold onw, LaterLex.on. rewrite C2, C1. split; [split; [split; [apply Ho|exact W]|]|]; lia.
Qed.
Lemma pos_last l : cwf l -> (l_pos l <= l_lastPos l + 8)%nat.
Proof.
  intros (_ & _ & ->). unfold chOf. destruct (rest l) as [|b s]; [cbn; lia|]. destruct (decodeRune (b :: s)) as [cp n] eqn:D. pose proof (decode_size _ _ _ D).
  destruct (cp =? 13); [|cbn; lia]. destruct (decodeRune (skipn n (b :: s))) as [cp2 n2] eqn:D2. pose proof (decode_size _ _ _ D2). cbn [snd]. lia.
Qed.
End One.
