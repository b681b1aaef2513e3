(** The loops of the lexer read what the lexical grammar says. *)
From Verif Require Import Bytes Utf8 Source Lexer BytesFacts LexSpec LexFacts LexNext LexGrammar LexCut.

Lemma flat_app a b : flat (a ++ b) = flat a ++ flat b.
Proof. unfold flat. rewrite map_app, concat_app. reflexivity. Qed.

(** [l'] is [l] with the characters [n] read. *)
Definition runs (l l' : lexer) (n : list char) : Prop :=
  movesF l l' (flat n) /\ todo l = n ++ todo l'.
Lemma runs_refl l : cwf l -> runs l l [].
Proof. split; [apply movesF_refl; auto|reflexivity]. Qed.
Lemma runs_trans l1 l2 l3 a b : runs l1 l2 a -> runs l2 l3 b -> runs l1 l3 (a ++ b).
Proof.
  intros [A E] [C F]. split; [rewrite flat_app; eapply movesF_trans; eauto|].
  rewrite E, F, app_assoc. reflexivity.
Qed.
Lemma runs_cwf l l' n : runs l l' n -> cwf l'.
Proof. intros [H _]. eapply movesF_cwf; eauto. Qed.
Lemma runs_todo l l' n : runs l l' n -> todo l = n ++ todo l'.
Proof. intros [_ H]; exact H. Qed.
Lemma runs_step l c t : cwf l -> todo l = c :: t -> runs l (step l) [c] /\ todo (step l) = t.
Proof.
  intros W H. destruct (todo_cons _ _ _ W H) as (E1 & E2 & E3 & E4 & _).
  split; auto. split; [|rewrite H, E4; reflexivity].
  unfold flat. cbn [map concat]. rewrite app_nil_r, <- E3. apply step_movesF; auto.
Qed.
Lemma runs_flat l l' a b : runs l l' a -> movesF l l' b -> b = flat a.
Proof.
  intros [A _] C. destruct A as [(_ & A & _) _]. destruct C as [(_ & C & _) _].
  rewrite A in C. apply app_inv_tail in C. auto.
Qed.
Lemma runs_slice l l' n : cwf l -> runs l l' n -> contentSlice l' (l_lastPos l) (l_lastPos l') = Ok (flat n).
Proof. intros W [[M _] _]. apply contentSlice_moves; auto. Qed.
Lemma runs_last l l' n : runs l l' n -> l_lastPos l' = (l_lastPos l + length (flat n))%nat.
Proof. intros [[(_ & _ & H & _) _] _]. exact H. Qed.
Lemma runs_short l l' n : runs l l' n -> n <> [] -> cwf l -> (length (rest l') < length (rest l))%nat.
Proof.
  intros [M E] Hn W. pose proof (moves_len _ _ _ (proj1 M)) as L.
  assert (0 < length (flat n))%nat; [|lia].
  destruct n as [|c n]; [congruence|]. cbn [app] in E.
  destruct (todo_cons _ _ _ W E) as (_ & Hc & Hu & _). pose proof (unitOf_pos _ W Hc) as P.
  unfold flat. cbn [map concat]. rewrite app_length, <- Hu. lia.
Qed.

(** The test of the current character. *)
Lemma now (p : Z -> bool) (P : char -> Prop) l : cwf l -> p (-1) = false ->
  (forall c, p (fst c) = true <-> P c) -> (p (l_ch l) = true <-> starts P (todo l)).
Proof.
  intros W P1 HP. destruct (todo l) as [|c t] eqn:E.
  - rewrite (proj2 (todo_end _ W) E), P1. split; [discriminate|]. intros X. destruct (starts_nil _ X).
  - destruct (todo_cons _ _ _ W E) as (-> & _). rewrite HP, starts_head. tauto.
Qed.
Lemma now_is l b : cwf l -> (l_ch l = bz b <-> starts (is b) (todo l)).
Proof.
  intros W. rewrite <- Z.eqb_eq. apply (now (fun z => z =? bz b)); auto.
  - apply Z.eqb_neq. apply bz_neg.
  - intros c. apply Z.eqb_eq.
Qed.
Lemma starts_cons P (r : list char) : starts P r -> exists c t, r = c :: t /\ P c.
Proof. auto. Qed.

Section WithUnicode.
Context {U : UnicodeDigits}.

Lemma now_blank l : cwf l -> (isWhitespace (l_ch l) = true <-> starts blank (todo l)).
Proof. intros. apply now; auto. apply b_ws. Qed.
Lemma now_digit l : cwf l -> (isDigit (l_ch l) = true <-> starts digit (todo l)).
Proof. intros. apply now; auto. intros c; unfold digit; tauto. Qed.
Lemma now_hex l : cwf l -> (isHexDigit (l_ch l) = true <-> starts hex (todo l)).
Proof. intros. apply now; auto. apply b_hex. Qed.
Lemma now_name l : cwf l -> (isNameCodePoint (l_ch l) = true <-> starts nameChar (todo l)).
Proof. intros. apply now; auto. apply b_name. Qed.
Lemma now_escape l : cwf l -> (startsEscape (l_ch l) (peek l 0) = true <-> opensEscape (todo l)).
Proof.
  intros W. destruct (todo l) as [|c t] eqn:E.
  - rewrite (proj2 (todo_end _ W) E). split; [discriminate|]. intros (d & r & X & _). discriminate.
  - destruct (todo_cons _ _ _ W E) as (-> & _). apply esc_now. symmetry. apply (peeks_todo _ _ _ W E).
Qed.
Lemma now_opensName l : cwf l -> (startsIdentifier (l_ch l) (peek l 0) (peek l 1) = true <-> opensName (todo l)).
Proof.
  intros W. destruct (todo l) as [|c t] eqn:E.
  - rewrite (proj2 (todo_end _ W) E). split; [discriminate|]. intros (d & r & X & _). discriminate.
  - destruct (todo_cons _ _ _ W E) as (-> & _). apply name_now. eapply peeks_2. eapply peeks_todo; eauto.
Qed.

Lemma iff_false (b : bool) P : (b = true <-> P) -> b = false -> ~ P.
Proof. intros H E X. apply H in X. congruence. Qed.

(** ** Escapes and names *)
Lemma escapedLoop_reads n l : cwf l ->
  exists h, runs l (escapedLoop n l) h /\ hexRun n h (todo (escapedLoop n l)).
Proof.
  revert l. induction n as [|n IH]; intros l W; cbn [escapedLoop].
  - exists []. split; [apply runs_refl; auto|constructor].
  - destruct (isHexDigit (l_ch l)) eqn:E.
    + apply now_hex in E as (c & t & E & Hc); auto.
      destruct (runs_step _ _ _ W E) as [R1 T1]. pose proof (runs_cwf _ _ _ R1) as W1. cbv zeta.
      destruct (isWhitespace (l_ch (step l))) eqn:Ew.
      * apply now_blank in Ew as (b & t' & Eb & Hb); auto.
        destruct (runs_step _ _ _ W1 Eb) as [R2 T2].
        destruct (IH _ (runs_cwf _ _ _ R2)) as (h & Rh & Hh).
        exists (c :: b :: h). split.
        -- exact (runs_trans _ _ _ _ _ (runs_trans _ _ _ _ _ R1 R2) Rh).
        -- apply hrBlank; auto.
      * destruct (IH _ W1) as (h & Rh & Hh). exists (c :: h). split.
        -- exact (runs_trans _ _ _ _ _ R1 Rh).
        -- apply hrHex; auto. rewrite <- (runs_todo _ _ _ Rh). eapply iff_false; [apply now_blank; auto|exact Ew].
    + exists []. split; [apply runs_refl; auto|]. apply hrStop. eapply iff_false; [apply now_hex; auto|exact E].
Qed.
Lemma nextEscaped_reads l : cwf l -> opensEscape (todo l) ->
  exists e, runs l (nextEscaped l) e /\ escape e (todo (nextEscaped l)) /\ e <> [].
Proof.
  intros W (c & t & E & Hc & Hn). destruct (runs_step _ _ _ W E) as [R1 T1]. unfold nextEscaped.
  match goal with |- context [escapedLoop ?n _] => destruct (escapedLoop_reads n _ (runs_cwf _ _ _ R1)) as (h & Rh & Hh) end.
  exists (c :: h). split; [exact (runs_trans _ _ _ _ _ R1 Rh)|]. split; [|congruence].
  exists c, h. split; auto. split; auto. split; auto. rewrite <- (runs_todo _ _ _ Rh), T1. exact Hn.
Qed.

Lemma nextNameLoop_reads f l : cwf l -> (length (rest l) < f)%nat ->
  exists l' n, nextNameLoop f l = Ok l' /\ runs l l' n /\ word n (todo l').
Proof.
  revert l. induction f as [|f IH]; intros l W Hf; [lia|]. cbn [nextNameLoop].
  destruct (isNameCodePoint (l_ch l)) eqn:E.
  - apply now_name in E as (c & t & E & Hc); auto.
    destruct (runs_step _ _ _ W E) as [R1 T1].
    pose proof (runs_short _ _ _ R1 ltac:(congruence) W).
    destruct (IH (step l) (runs_cwf _ _ _ R1)) as (l' & n & E' & R' & H'); [lia|].
    exists l', (c :: n). split; auto. split; [exact (runs_trans _ _ _ _ _ R1 R')|apply wdChar; auto].
  - destruct (startsEscape (l_ch l) (peek l 0)) eqn:E1.
    + apply now_escape in E1; auto. destruct (nextEscaped_reads _ W E1) as (e & R1 & He & Ne).
      pose proof (runs_short _ _ _ R1 Ne W).
      destruct (IH (nextEscaped l) (runs_cwf _ _ _ R1)) as (l' & n & E' & R' & H'); [lia|].
      exists l', (e ++ n). split; auto. split; [exact (runs_trans _ _ _ _ _ R1 R')|].
      apply wdEscape; auto. rewrite <- (runs_todo _ _ _ R'). exact He.
    + exists l, []. split; auto. split; [apply runs_refl; auto|]. apply wdStop.
      * eapply iff_false; [apply now_name; auto|exact E].
      * eapply iff_false; [apply now_escape; auto|exact E1].
Qed.
Lemma nextName_reads l : cwf l -> exists l' n, nextName l = Ok l' /\ runs l l' n /\ word n (todo l').
Proof. intros. apply nextNameLoop_reads; auto. apply lfuel_rest. Qed.

(** ** Runs of digits and of white space *)
Lemma stepWhile_reads (p : Z -> bool) (P : char -> Prop) f l : cwf l -> (length (rest l) < f)%nat ->
  p (-1) = false -> (forall c, p (fst c) = true <-> P c) ->
  exists l' n, stepWhile p f l = Ok l' /\ runs l l' n /\ Forall P n /\ ~ starts P (todo l').
Proof.
  intros W Hf P1 HP. revert l W Hf. induction f as [|f IH]; intros l W Hf; [lia|]. cbn [stepWhile].
  destruct (p (l_ch l)) eqn:E.
  - apply (now p P) in E as (c & t & E & Hc); auto.
    destruct (runs_step _ _ _ W E) as [R1 T1].
    pose proof (runs_short _ _ _ R1 ltac:(congruence) W).
    destruct (IH (step l) (runs_cwf _ _ _ R1)) as (l' & n & E' & R' & H' & S'); [lia|].
    exists l', (c :: n). split; auto. split; [exact (runs_trans _ _ _ _ _ R1 R')|]. split; auto.
  - exists l, []. split; auto. split; [apply runs_refl; auto|]. split; auto.
    eapply iff_false; [apply (now p P); auto|exact E].
Qed.
Lemma digits_reads f l : cwf l -> (length (rest l) < f)%nat ->
  exists l' n, stepWhile isDigit f l = Ok l' /\ runs l l' n /\ digits n (todo l').
Proof. intros. apply (stepWhile_reads isDigit digit); auto. intros c; unfold digit; tauto. Qed.
Lemma blanks_reads f l : cwf l -> (length (rest l) < f)%nat ->
  exists l' n, stepWhile isWhitespace f l = Ok l' /\ runs l l' n /\ Forall blank n /\ ~ starts blank (todo l').
Proof. intros. apply (stepWhile_reads isWhitespace blank); auto. apply b_ws. Qed.

Lemma sign_reads l : cwf l ->
  exists n, runs l (if (l_ch l =? 43) || (l_ch l =? 45) then step l else l) n /\
    optSign n (todo (if (l_ch l =? 43) || (l_ch l =? 45) then step l else l)).
Proof.
  intros W.
  assert (K : (l_ch l =? 43) || (l_ch l =? 45) = true <-> starts sign (todo l)).
  { apply (now (fun z => (z =? 43) || (z =? 45)) sign); auto.
    intros c. rewrite orb_true_iff, !Z.eqb_eq. reflexivity. }
  destruct ((l_ch l =? 43) || (l_ch l =? 45)).
  - destruct (proj1 K eq_refl) as (c & t & E & Hc). destruct (runs_step _ _ _ W E) as [R1 T1].
    exists [c]. split; auto. left. eauto.
  - exists []. split; [apply runs_refl; auto|]. right. split; auto. intros X. apply K in X. discriminate.
Qed.
Lemma fraction_test l : cwf l -> ((l_ch l =? 46) && isDigit (peek l 0) = true <-> opensFraction (todo l)).
Proof.
  intros W. rewrite andb_true_iff, Z.eqb_eq. unfold opensFraction. destruct (todo l) as [|c t] eqn:E.
  - rewrite (proj2 (todo_end _ W) E). split; [intros [X _]; discriminate|]. intros (p & d & r & X & _). discriminate.
  - destruct (todo_cons _ _ _ W E) as (-> & _). destruct (peeks_todo _ _ _ W E) as (-> & _).
    rewrite t_digit. split.
    + intros [X (d & r & -> & Hd)]. exists c, d, r. auto.
    + intros (p & d & r & X & Hp & Hd). inversion X; subst. split; auto. exists d, r; auto.
Qed.
Lemma exponent_test l : cwf l ->
  (((l_ch l =? 101) || (l_ch l =? 69)) &&
     (isDigit (peek l 0) || (((peek l 0 =? 43) || (peek l 0 =? 45)) && isDigit (peek l 1))) = true
   <-> opensExponent (todo l)).
Proof.
  intros W. rewrite andb_true_iff, !orb_true_iff, andb_true_iff, orb_true_iff, !Z.eqb_eq. unfold opensExponent.
  destruct (todo l) as [|c t] eqn:E.
  - rewrite (proj2 (todo_end _ W) E). split; [intros [[X|X] _]; discriminate|]. intros (m & r & X & _). discriminate.
  - destruct (todo_cons _ _ _ W E) as (-> & _). pose proof (peeks_2 _ _ _ _ (peeks_todo _ _ _ W E)) as [-> H].
    rewrite t_digit. split.
    + intros [Hc H2]. exists c, t. split; auto. split; [exact Hc|]. destruct H2 as [H2|[Hs Hd]]; auto. right.
      apply sign_look in Hs as (s & t' & -> & Hs). rewrite (H s t' eq_refl (sign_low _ Hs)) in Hd.
      apply t_digit in Hd as (d & t'' & -> & Hd). exists s, d, t''. auto.
    + intros (m & t' & X & Hm & H2). inversion X; subst m t'. split; [exact Hm|].
      destruct H2 as [H2|(s & d & t' & -> & Hs & Hd)]; auto. right. split; [apply look_sign; auto|].
      rewrite (H s (d :: t') eq_refl (sign_low _ Hs)). apply t_digit. exists d, t'; auto.
Qed.

Lemma nextNumber_reads l : cwf l -> exists l' n, nextNumber l = Ok l' /\ runs l l' n /\ numeral n (todo l').
Proof.
  intros W. unfold nextNumber.
  destruct (sign_reads l W) as (s & R1 & H1). revert R1 H1. generalize (if (l_ch l =? 43) || (l_ch l =? 45) then step l else l).
  intros l1 R1 H1. cbv zeta. pose proof (runs_cwf _ _ _ R1) as W1.
  destruct (digits_reads (lfuel l1) l1 W1 (lfuel_rest _)) as (l2 & i & E2 & R2 & H2). rewrite E2. cbn [bind].
  pose proof (runs_cwf _ _ _ R2) as W2.
  assert (H3 : exists l3 f, (if (l_ch l2 =? 46) && isDigit (peek l2 0)
      then stepWhile isDigit (lfuel l2) (step (step l2)) else Ok l2) = Ok l3 /\ runs l2 l3 f /\ optFraction f (todo l3)).
  { pose proof (fraction_test l2 W2) as K. destruct ((l_ch l2 =? 46) && isDigit (peek l2 0)).
    - destruct (proj1 K eq_refl) as (p & d & t & E & Hp & Hd).
      destruct (runs_step _ _ _ W2 E) as [Ra Ta]. destruct (runs_step _ _ _ (runs_cwf _ _ _ Ra) Ta) as [Rb Tb].
      pose proof (runs_short _ _ _ Ra ltac:(congruence) W2).
      pose proof (runs_short _ _ _ Rb ltac:(congruence) (runs_cwf _ _ _ Ra)).
      pose proof (lfuel_rest l2).
      destruct (digits_reads (lfuel l2) (step (step l2)) (runs_cwf _ _ _ Rb)) as (l3 & ds & E3 & R3 & Hds); [lia|].
      exists l3, (p :: d :: ds). split; auto. split; [exact (runs_trans _ _ _ _ _ Ra (runs_trans _ _ _ _ _ Rb R3))|].
      left. eauto 8.
    - exists l2, []. split; auto. split; [apply runs_refl; auto|]. right. split; auto. intros X. apply K in X. discriminate. }
  destruct H3 as (l3 & f & E3 & R3 & H3). rewrite E3. cbn [bind].
  pose proof (runs_cwf _ _ _ R3) as W3. cbv zeta.
  pose proof (exponent_test l3 W3) as K.
  assert (Hfin : forall l' e, runs l3 l' e -> optExponent e (todo l') ->
    exists n, runs l l' n /\ numeral n (todo l')).
  { intros l' e R4 H4. exists (s ++ i ++ f ++ e). split.
    - eapply runs_trans; [exact R1|]. eapply runs_trans; [exact R2|]. eapply runs_trans; [exact R3|]. exact R4.
    - exists s, i, f, e. split; auto.
      rewrite <- (runs_todo _ _ _ R4), <- (runs_todo _ _ _ R3), <- (runs_todo _ _ _ R2). auto. }
  match goal with |- context [if ?b then _ else _] => destruct b end.
  - pose proof (proj1 K eq_refl) as Hx. pose proof Hx as (m & t & E & Hm & _).
    destruct (runs_step _ _ _ W3 E) as [Ra Ta].
    destruct (sign_reads _ (runs_cwf _ _ _ Ra)) as (s' & Rs & Hs).
    revert Rs Hs. generalize (if (l_ch (step l3) =? 43) || (l_ch (step l3) =? 45) then step (step l3) else step l3).
    intros l5 Rs Hs.
    destruct (digits_reads (lfuel l5) l5 (runs_cwf _ _ _ Rs) (lfuel_rest _)) as (l6 & ds & E6 & R6 & H6).
    assert (R : runs l3 l6 (m :: s' ++ ds)) by exact (runs_trans _ _ _ _ _ Ra (runs_trans _ _ _ _ _ Rs R6)).
    destruct (Hfin l6 (m :: s' ++ ds)) as (n & Rn & Hn); auto.
    { left. exists m, s', ds. split; auto. split; [rewrite <- (runs_todo _ _ _ R); exact Hx|].
      split; auto. rewrite <- (runs_todo _ _ _ R6). exact Hs. }
    exists l6, n. auto.
  - destruct (Hfin l3 []) as (n & Rn & Hn); [apply runs_refl; auto| |].
    { right. split; auto. intros X. apply K in X. discriminate. }
    exists l3, n. auto.
Qed.

(** ** Comments *)
Lemma closes_cons c t : closes (c :: t) <-> (is "*" c /\ starts (is "/") t) \/ closes t.
Proof.
  unfold closes. split.
  - intros (a & x & y & b & E & Hx & Hy). destruct a as [|a0 a]; inversion E; subst.
    + left. split; auto. apply starts_head; auto.
    + right. eauto 8.
  - intros [[Hc (y & b & -> & Hy)]|(a & x & y & b & -> & Hx & Hy)].
    + exists [], c, y, b. auto.
    + exists (c :: a), x, y, b. auto.
Qed.
Lemma closes_nil : ~ closes [].
Proof. intros (a & x & y & b & E & _). destruct a; discriminate. Qed.
Lemma closes_app a b : closes b -> closes (a ++ b).
Proof. intros (c & x & y & d & -> & H). exists (a ++ c), x, y, d. rewrite <- app_assoc. auto. Qed.

Lemma commentLoop_reads f l : cwf l -> (length (rest l) < f)%nat ->
  match commentLoop f l with
  | Ok (e, l') => exists b x y lx, runs l lx b /\ e = l_lastPos lx /\ runs l l' (b ++ [x; y]) /\
      is "*" x /\ is "/" y /\ ~ closes (b ++ [x])
  | Panic (PLex sp m) _ => ~ closes (todo l) /\ sp = mkSpan (l_start l) (l_lastPos l + length (flat (todo l))) /\
      m = B "unexpected EOF"
  | _ => False
  end.
Proof.
  revert l. induction f as [|f IH]; intros l W Hf; [lia|]. cbn [commentLoop].
  destruct (Z.eqb_spec (l_ch l) 42) as [E|N].
  - apply (now_is l "*" W) in E as (x & t & E & Hx).
    destruct (runs_step _ _ _ W E) as [R1 T1]. pose proof (runs_cwf _ _ _ R1) as W1. cbv zeta.
    pose proof (runs_short _ _ _ R1 ltac:(congruence) W).
    destruct (Z.eqb_spec (l_ch (step l)) 47) as [E1|N1].
    + apply (now_is _ "/" W1) in E1 as (y & t' & E1 & Hy).
      destruct (runs_step _ _ _ W1 E1) as [R2 T2].
      exists [], x, y, l. split; [apply runs_refl; auto|]. split; auto.
      split; [exact (runs_trans _ _ _ _ _ R1 R2)|]. split; auto. split; auto. cbn [app].
      rewrite closes_cons. intros [[_ X]|X]; [destruct (starts_nil _ X)|destruct (closes_nil X)].
    + assert (Nc : ~ starts (is "/") t). { rewrite <- T1. intros X. apply (now_is _ "/" W1) in X. exact (N1 X). }
      specialize (IH (step l) W1 ltac:(lia)). destruct (commentLoop f (step l)) as [[e l']|[sp m|] ln|]; auto.
      * destruct IH as (b & x' & y' & lx & Rb & -> & Rl & Hx' & Hy' & Hn).
        exists (x :: b), x', y', lx. split; [exact (runs_trans _ _ _ _ _ R1 Rb)|]. split; auto.
        split; [exact (runs_trans _ _ _ _ _ R1 Rl)|]. split; auto. split; auto. cbn [app].
        rewrite closes_cons. intros [[_ X]|X]; auto. apply Nc.
        rewrite <- T1, (runs_todo _ _ _ Rl). destruct X as (z & r & X & Hz). destruct b as [|b0 b].
        -- cbn [app] in *. inversion X; subst. exists z, ([y'] ++ todo l'). auto.
        -- cbn [app] in X. inversion X; subst. cbn [app]. eexists. eexists. split; [reflexivity|auto].
      * destruct IH as (Hn & -> & ->). rewrite E, closes_cons, <- T1. split; [|split; auto].
        -- intros [[_ X]|X]; auto. rewrite T1 in X. auto.
        -- assert (l_start (step l) = l_start l) as -> by apply R1. rewrite (runs_last _ _ _ R1).
           f_equal. change (x :: todo (step l)) with ([x] ++ todo (step l)). rewrite flat_app, app_length. lia.
  - destruct (Z.eqb_spec (l_ch l) (-1)) as [E|N'].
    + unfold errorf. apply todo_end in E; auto. rewrite E. split; [apply closes_nil|]. split; auto.
      unfold tokenSpan. cbn. rewrite Nat.add_0_r. reflexivity.
    + destruct (todo l) as [|x t] eqn:E; [elim N'; apply todo_end; auto|].
      destruct (runs_step _ _ _ W E) as [R1 T1]. pose proof (runs_cwf _ _ _ R1) as W1.
      pose proof (runs_short _ _ _ R1 ltac:(congruence) W).
      assert (Nx : ~ is "*" x). { intros X. apply N. apply (now_is _ "*" W). rewrite E. apply starts_head; auto. }
      specialize (IH (step l) W1 ltac:(lia)). destruct (commentLoop f (step l)) as [[e l']|[sp m|] ln|]; auto.
      * destruct IH as (b & x' & y' & lx & Rb & -> & Rl & Hx' & Hy' & Hn).
        exists (x :: b), x', y', lx. split; [exact (runs_trans _ _ _ _ _ R1 Rb)|]. split; auto.
        split; [exact (runs_trans _ _ _ _ _ R1 Rl)|]. split; auto. split; auto. cbn [app].
        rewrite closes_cons. intros [[X _]|X]; auto.
      * destruct IH as (Hn & -> & ->). rewrite closes_cons, <- T1. split; [|split; auto].
        -- intros [[X _]|X]; auto.
        -- assert (l_start (step l) = l_start l) as -> by apply R1. rewrite (runs_last _ _ _ R1).
           f_equal. change (x :: todo (step l)) with ([x] ++ todo (step l)). rewrite flat_app, app_length. lia.
Qed.

(** ** Strings *)
Definition stringStop (q : byte) (r : list char) (extra : list char) (m : bytes) : Prop :=
  (starts (is LF) r /\ extra = [] /\ m = B "unclosed string: unexpected newline") \/
  (r = [] /\ extra = [] /\ m = B "unexpected EOF") \/
  (exists d, r = [d] /\ is "\" d /\ extra = [d] /\ m = B "unexpected EOF").
Lemma inString_escaped q c e b r : is "\" c -> escape e (b ++ r) -> inString q b r -> inString q (c :: e ++ b) r.
Proof. apply isEscape. Qed.

Lemma stringLoop_reads q f l : (q = """" \/ q = "'")%byte -> cwf l -> (length (rest l) < f)%nat ->
  match stringLoop f (bz q) l with
  | Ok (e, l') => exists b c lx, runs l lx b /\ e = l_lastPos lx /\ runs lx l' [c] /\
      inString q b (c :: todo l') /\ is q c
  | Panic (PLex sp m) _ => exists b r x, todo l = b ++ r /\ inString q b r /\ stringStop q r x m /\
      sp = mkSpan (l_start l) (l_lastPos l + length (flat (b ++ x)))
  | _ => False
  end.
Proof.
  intros Hq. revert l. induction f as [|f IH]; intros l W Hf; [lia|]. cbn [stringLoop].
  (* carrying a result over a piece already read *)
  assert (K : forall l1 pre, runs l l1 pre -> (length (rest l1) < f)%nat ->
     (forall b r, todo l1 = b ++ r -> inString q b r -> inString q (pre ++ b) r) ->
     match stringLoop f (bz q) l1 with
     | Ok (e, l') => exists b c lx, runs l lx b /\ e = l_lastPos lx /\ runs lx l' [c] /\
         inString q b (c :: todo l') /\ is q c
     | Panic (PLex sp m) _ => exists b r x, todo l = b ++ r /\ inString q b r /\ stringStop q r x m /\
         sp = mkSpan (l_start l) (l_lastPos l + length (flat (b ++ x)))
     | _ => False
     end).
  { intros l1 pre R1 Hl Hpre. specialize (IH l1 (runs_cwf _ _ _ R1) Hl).
    destruct (stringLoop f (bz q) l1) as [[e l']|[sp m|] ln|]; auto.
    - destruct IH as (b & c & lx & Rb & -> & Rc & Hb & Hc).
      exists (pre ++ b), c, lx. split; [exact (runs_trans _ _ _ _ _ R1 Rb)|]. split; auto. split; auto. split; auto.
      apply Hpre; auto. rewrite (runs_todo _ _ _ Rb), (runs_todo _ _ _ Rc). reflexivity.
    - destruct IH as (b & r & x & Hb & Hs & Hstop & ->). exists (pre ++ b), r, x.
      split; [rewrite (runs_todo _ _ _ R1), Hb, app_assoc; reflexivity|]. split; [apply Hpre; auto|]. split; auto.
      assert (l_start l1 = l_start l) as -> by apply R1. rewrite (runs_last _ _ _ R1), <- app_assoc.
      rewrite (flat_app pre), app_length. f_equal. lia. }
  destruct (Z.eqb_spec (l_ch l) (bz q)) as [E|Nq].
  { apply now_is in E as (c & t & E & Hc); auto. destruct (runs_step _ _ _ W E) as [R1 T1].
    exists [], c, l. split; [apply runs_refl; auto|]. split; auto. split; auto. split; [constructor|auto]. }
  destruct (Z.eqb_spec (l_ch l) 10) as [E|Nn].
  { unfold errorf. exists [], (todo l), []. split; auto. split; [constructor|]. split.
    - left. split; auto. apply (now_is l LF W). exact E.
    - unfold tokenSpan. cbn. rewrite Nat.add_0_r. reflexivity. }
  destruct (Z.eqb_spec (l_ch l) 92) as [E|Nb].
  { apply (now_is l "\" W) in E as (c & t & E & Hc). destruct (runs_step _ _ _ W E) as [R1 T1].
    pose proof (runs_cwf _ _ _ R1) as W1. cbv zeta.
    pose proof (runs_short _ _ _ R1 ltac:(congruence) W) as L1.
    destruct (Z.eqb_spec (l_ch (step l)) 10) as [E1|N1].
    - apply (now_is _ LF W1) in E1 as (d & t' & E1 & Hd). destruct (runs_step _ _ _ W1 E1) as [R2 T2].
      pose proof (runs_short _ _ _ R2 ltac:(congruence) W1) as L2.
      apply (K _ [c; d]); [exact (runs_trans _ _ _ _ _ R1 R2)|lia|]. intros b r _ Hb. apply isBreak; auto.
    - destruct (Z.eqb_spec (l_ch (step l)) (-1)) as [E2|N2].
      + unfold errorf. apply todo_end in E2; auto. rewrite T1 in E2. rewrite E2 in E.
        exists [], [c], [c]. split; auto. split; [constructor|]. split.
        * right. right. exists c. auto.
        * unfold tokenSpan. assert (l_start (step l) = l_start l) as -> by apply R1.
          rewrite (runs_last _ _ _ R1). reflexivity.
      + destruct (startsEscape (l_ch (step l)) (peek (step l) 0)) eqn:E3.
        * apply now_escape in E3; auto. destruct (nextEscaped_reads _ W1 E3) as (e & R2 & He & Ne).
          pose proof (runs_short _ _ _ R2 Ne W1) as L2.
          apply (K _ (c :: e)); [exact (runs_trans _ _ _ _ _ R1 R2)|lia|].
          intros b r Hb Hs. cbn [app]. apply isEscape; auto. rewrite <- Hb. exact He.
        * apply (K _ [c]); [exact R1|lia|]. intros b r Hb Hs. apply isSkip; auto.
          -- rewrite <- Hb. intros X. apply N2. apply todo_end; auto.
          -- rewrite <- Hb. intros X. apply (now_is _ LF W1) in X. exact (N1 X).
          -- rewrite <- Hb. eapply iff_false; [apply now_escape; auto|exact E3]. }
  destruct (Z.eqb_spec (l_ch l) (-1)) as [E|Ne].
  { unfold errorf. apply todo_end in E; auto. exists [], (todo l), []. split; auto. split; [constructor|]. split.
    - right. left. auto.
    - unfold tokenSpan. cbn. rewrite Nat.add_0_r. reflexivity. }
  destruct (todo l) as [|c t] eqn:E; [elim Ne; apply todo_end; auto|].
  destruct (runs_step _ _ _ W E) as [R1 T1]. destruct (todo_cons _ _ _ W E) as (Ec & _).
  pose proof (runs_short _ _ _ R1 ltac:(congruence) W) as L1.
  rewrite <- E in *. apply (K _ [c]); [exact R1|lia|]. intros b r Hb Hs. rewrite Ec in *. cbn [app]. apply isChar; auto.
Qed.

(** ** Urls *)
Lemma urlSkipWs_reads f i l : cwf l -> (length (rest l) < f)%nat -> (i <= l_lastPos l)%nat ->
  exists l' s, urlSkipWs f i l = Ok l' /\ runs l l' s /\ Forall blank s /\ ~ starts blank (todo l').
Proof.
  revert i l. induction f as [|f IH]; intros i l W Hf Hi; [lia|]. cbn [urlSkipWs].
  destruct (isWhitespace (l_ch l)) eqn:E; rewrite ?andb_false_r.
  - apply now_blank in E as (c & t & E & Hc); auto.
    assert (Hl : (l_lastPos l < length (l_content l))%nat).
    { destruct W as (W1 & W2 & W3). destruct (Nat.eq_dec (l_lastPos l) (length (l_content l))) as [X|X]; [|lia].
      exfalso. unfold todo, rest in E. rewrite skipn_all2 in E by lia. discriminate. }
    destruct (Nat.ltb_spec i (length (l_content l))); [|lia]. cbn [andb].
    destruct (runs_step _ _ _ W E) as [R1 T1].
    pose proof (runs_short _ _ _ R1 ltac:(congruence) W) as L1.
    destruct (IH (i + 1)%nat (step l) (runs_cwf _ _ _ R1)) as (l' & s & E' & R' & H' & S'); [lia| |].
    { pose proof (rest_len _ W). pose proof (rest_len _ (runs_cwf _ _ _ R1)) as L2.
      assert (l_content (step l) = l_content l) as Ec by apply R1. rewrite Ec in L2.
      lia. }
    exists l', (c :: s). split; auto. split; [exact (runs_trans _ _ _ _ _ R1 R')|]. split; auto.
  - exists l, []. split; auto. split; [apply runs_refl; auto|]. split; auto.
    eapply iff_false; [apply now_blank; auto|exact E].
Qed.

Definition urlStop (r : list char) (m : bytes) : Prop :=
  (r = [] /\ m = B "unexpected EOF") \/
  exists c t, r = c :: t /\ (quote c \/ is "(" c \/ nonPrintable c \/ (is "\" c /\ starts (sees LF) t)) /\
    m = B "unexpected token: " ++ encodeRune (fst c).

Lemma urlLoop_reads f l0 l b0 : cwf l0 -> runs l0 l b0 -> (length (rest l) < f)%nat ->
  (forall b r, todo l = b ++ r -> inUrl b r -> inUrl (b0 ++ b) r) ->
  match urlLoop f (l_lastPos l0) l with
  | Ok l' => exists b c lx, runs l0 lx b /\ runs (setStr lx (flat b)) l' [c] /\ inUrl b (c :: todo l') /\ is ")" c
  | Panic (PLex sp m) _ => exists b r, todo l0 = b ++ r /\ inUrl b r /\ urlStop r m /\
      sp = mkSpan (l_start l0) (l_lastPos l0 + length (flat b))
  | _ => False
  end.
Proof.
  intros W0. revert l b0. induction f as [|f IH]; intros l b0 R Hf Hpre; [lia|].
  pose proof (runs_cwf _ _ _ R) as W. cbn [urlLoop]. cbv zeta.
  assert (Hstop : forall m, urlStop (todo l) m ->
     exists b r, todo l0 = b ++ r /\ inUrl b r /\ urlStop r m /\
      tokenSpan l = mkSpan (l_start l0) (l_lastPos l0 + length (flat b))).
  { intros m Hm. exists b0, (todo l). split; [apply R|]. split.
    - rewrite <- (app_nil_r b0). apply Hpre; [reflexivity|constructor].
    - split; auto. unfold tokenSpan. assert (l_start l = l_start l0) as -> by apply R.
      rewrite (runs_last _ _ _ R). reflexivity. }
  destruct (Z.eqb_spec (l_ch l) 41) as [E|N].
  { apply (now_is l ")" W) in E as (c & t & E & Hc).
    rewrite (runs_slice _ _ _ W0 R). cbn [bind].
    destruct (runs_step (setStr l (flat b0)) c t W E) as [R1 T1].
    exists b0, c, l. split; auto. split; auto. split; auto.
    rewrite T1, <- E. rewrite <- (app_nil_r b0). apply Hpre; [reflexivity|constructor]. }
  destruct (Z.eqb_spec (l_ch l) (-1)) as [E|Ne].
  { unfold errorf. apply Hstop. left. split; auto. apply todo_end; auto. }
  destruct (todo l) as [|c t] eqn:E; [elim Ne; apply todo_end; auto|].
  destruct (todo_cons _ _ _ W E) as (Ec & _). rewrite Ec in *.
  destruct (runs_step _ _ _ W E) as [R1 T1].
  pose proof (runs_short _ _ _ R1 ltac:(congruence) W) as L1.
  destruct ((fst c =? 34) || (fst c =? 39) || (fst c =? 40)) eqn:Eq.
  { unfold errorf, unexpectedCh. apply Hstop. right. exists c, t. split; auto. split; auto.
    rewrite !orb_true_iff, !Z.eqb_eq in Eq. unfold quote, is.
    change (bz """") with 34. change (bz "'") with 39. change (bz "(") with 40. tauto. }
  rewrite !orb_false_iff, !Z.eqb_neq in Eq. destruct Eq as [[Q1 Q2] Q3].
  destruct (Z.eqb_spec (fst c) 92) as [Eb|Nb].
  { pose proof (now_escape l W) as K. rewrite Ec, E in K.
    destruct (startsEscape (fst c) (peek l 0)) eqn:Es.
    - pose proof (proj1 K eq_refl) as Ho. rewrite <- E in Ho.
      destruct (nextEscaped_reads _ W Ho) as (e & R2 & He & Nne).
      pose proof (runs_short _ _ _ R2 Nne W) as L2.
      apply (IH _ (b0 ++ e)); [exact (runs_trans _ _ _ _ _ R R2)|lia|].
      intros b r Hb Hu. rewrite <- app_assoc. apply Hpre.
      + rewrite <- E, (runs_todo _ _ _ R2), Hb, app_assoc. reflexivity.
      + apply iuEscape; auto. rewrite <- Hb. exact He.
    - unfold errorf, unexpectedCh. apply Hstop. right. exists c, t. split; auto. split; auto.
      right. right. right. split; [exact Eb|].
      destruct (peeks_todo _ _ _ W E) as (Ep & _).
      apply (look_sees LF); [cbn; lia|]. unfold startsEscape in Es. rewrite Ep in Es.
      destruct (Z.eqb_spec (fst c) 92); [|contradiction]. cbn [negb] in Es.
      destruct (Z.eqb_spec (look t) 10); [auto|discriminate]. }
  assert (Hgo : ~ nonPrintable c ->
    match urlLoop f (l_lastPos l0) (step l) with
    | Ok l' => exists b c lx, runs l0 lx b /\ runs (setStr lx (flat b)) l' [c] /\ inUrl b (c :: todo l') /\ is ")" c
    | Panic (PLex sp m) _ => exists b r, todo l0 = b ++ r /\ inUrl b r /\ urlStop r m /\
      sp = mkSpan (l_start l0) (l_lastPos l0 + length (flat b))
    | _ => False
    end).
  { intros Hnp. apply (IH _ (b0 ++ [c])); [exact (runs_trans _ _ _ _ _ R R1)|lia|].
    intros b r Hb Hu. rewrite <- app_assoc. cbn [app]. apply Hpre.
    - rewrite <- T1, Hb. reflexivity.
    - apply iuChar; auto. intros [X|X]; auto. }
  destruct (isWhitespace (fst c)) eqn:Ew.
  { apply Hgo. intros X. apply b_ws in Ew. unfold blank, nonPrintable, within, is in *.
    cbn in *. lia. }
  destruct (isNonPrintable (fst c)) eqn:Enp.
  { unfold errorf, unexpectedCh. apply Hstop. right. exists c, t. split; auto. split; auto.
    right. right. left. apply b_np; auto. }
  apply Hgo. eapply iff_false; [apply b_np|exact Enp].
Qed.
End WithUnicode.
