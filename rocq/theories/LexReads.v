(** Next delivers exactly what the lexical grammar says. *)
From Verif Require Import Bytes Utf8 Source Lexer BytesFacts LexSpec LexFacts LexNext LexProps LexGrammar LexCut LexWords LexFun.

Section WithUnicode.
Context {U : UnicodeDigits}.

Definition carries (p : payload) (l l' : lexer) : Prop :=
  l_str l' = strAfter p (l_str l) /\ l_num l' = numAfter p (l_num l).

Definition lexOk (l : lexer) (r : res lexer) : Prop :=
  match r with
  | Ok l' => exists t p, moves l l' (flat t) /\ todo l = t ++ todo l' /\ lexed t (todo l') (l_cur l') p /\
      carries p l l' /\ l_start l' = l_start l /\ l_rws l' = l_rws l /\ l_rcom l' = l_rcom l
  | Panic (PLex sp m) _ => exists t r, todo l = t ++ r /\ broken t r m /\
      sp = mkSpan (l_start l) (l_lastPos l + length (flat t))
  | _ => False
  end.

(** A run followed by assignments to the fields of the token. *)
Lemma lexOk_run l l1 l' t p k : runs l l1 t ->
  l_content l' = l_content l1 -> l_ch l' = l_ch l1 -> l_pos l' = l_pos l1 -> l_lastPos l' = l_lastPos l1 ->
  l_start l' = l_start l1 -> l_lines l' = l_lines l1 -> l_rws l' = l_rws l1 -> l_rcom l' = l_rcom l1 ->
  l_cur l' = k -> lexed t (todo l1) k p -> carries p l l' -> lexOk l (Ok l').
Proof.
  intros [[M F] E] Ec Eh Ep El Es En Ew Eo <- H C.
  assert (Er : rest l' = rest l1) by (unfold rest; congruence).
  assert (Et : todo l' = todo l1) by (unfold todo; congruence).
  exists t, p. split.
  { destruct M as (M1 & M2 & M3 & M4 & M5 & M6). unfold moves, between, cwf in *.
    rewrite Ec, Er, El, Ep, En, Eh. auto 10. }
  rewrite Et. split; auto. split; auto. split; auto. destruct F as (F1 & F2 & F3 & F4 & F5 & F6).
  split; [congruence|]. split; congruence.
Qed.

Lemma single_reads k l : cwf l -> opens (todo l) (FSingle k) -> lexOk l (single k l).
Proof.
  intros W H. inversion H as [|c t b k' Hin Hb E1 E2| | | | | | | | | | | | | | |]; subst.
  symmetry in E1. destruct (runs_step _ _ _ W E1) as [R1 T1]. unfold single.
  destruct (runs_step (setCur l k) _ _ W E1) as [R1' T1'].
  assert (Fr : frame (setCur l k) (step (setCur l k))) by apply R1'.
  destruct Fr as (F1 & F2 & F3 & F4 & F5 & F6).
  exists [c], PlNone. split; [apply (proj1 (proj1 R1'))|]. rewrite T1'. split; [exact E1|].
  rewrite F2. cbn [setCur l_cur]. split; [|split; [split; assumption|auto]].
  apply lxSingle. rewrite <- E1. exact H.
Qed.

Lemma delim_reads l : cwf l -> opens (todo l) FDelim -> lexOk l (nextDelimToken l).
Proof.
  intros W H. inversion H; subst. symmetry in H0. rename H0 into E.
  destruct (runs_step _ _ _ W E) as [R1 T1]. unfold nextDelimToken. cbv zeta.
  change (l_lastPos (setCur (step l) Delim)) with (l_lastPos (step l)).
  assert (Hs : contentSlice (setCur (step l) Delim) (l_lastPos l) (l_lastPos (step l)) =
    Ok (flat [c])). { pose proof (runs_slice _ _ _ W R1) as X. unfold contentSlice in *. exact X. }
  rewrite Hs. cbn [bind].
  eapply (lexOk_run l (step l)); try reflexivity; [exact R1| |].
  - rewrite T1. apply lxDelim. rewrite <- E. exact H.
  - destruct R1 as [[_ (F1 & F2 & F3 & F4 & F5 & F6)] _]. split; [|exact F4]. unfold flat. cbn. rewrite app_nil_r. reflexivity.
Qed.

Lemma slice_frame l l' a b : l_content l' = l_content l ->
  forall s, contentSlice l a b = Ok s -> contentSlice l' a b = Ok s.
Proof. intros E s. unfold contentSlice. rewrite E. destruct (slice (l_content l) a b); [auto|discriminate]. Qed.

Lemma numeric_reads l : cwf l -> opens (todo l) FNumber -> lexOk l (nextNumericToken l).
Proof.
  intros W H. unfold nextNumericToken. cbv zeta.
  destruct (nextNumber_reads l W) as (l1 & n & E1 & R1 & H1). rewrite E1. cbn [bind].
  rewrite (runs_slice _ _ _ W R1). cbn [bind]. pose proof (runs_cwf _ _ _ R1) as W1.
  set (l2 := setNum l1 (flat n)). assert (W2 : cwf l2) by exact W1.
  assert (T2 : todo l2 = todo l1) by reflexivity.
  rewrite (runs_todo _ _ _ R1) in H.
  pose proof (now_opensName l2 W2) as K. rewrite T2 in K.
  destruct (startsIdentifier (l_ch l2) (peek l2 0) (peek l2 1)).
  - destruct (nextName_reads l2 W2) as (l3 & u & E3 & R3 & H3). rewrite E3. cbn [bind].
    rewrite (runs_slice _ _ _ W2 R3). cbn [bind].
    pose proof (runs_todo _ _ _ R3) as T3. rewrite T2 in T3.
    assert (M : moves l l3 (flat (n ++ u))).
    { rewrite flat_app. eapply moves_trans; [apply R1|]. apply R3. }
    destruct R1 as [[_ (F1 & F2 & F3 & F4 & F5 & F6)] T1]. destruct R3 as [[_ (G1 & G2 & G3 & G4 & G5 & G6)] _].
    exists (n ++ u), (PlBoth (flat n) (flat u)). split; [exact M|].
    change (todo (setCur (setStr l3 (flat u)) Dimension)) with (todo l3).
    split; [rewrite T1, T3, app_assoc; reflexivity|]. split.
    + cbn [setCur setStr l_cur]. rewrite T3 in *. apply lxDimension; auto. apply K; auto.
    + unfold carries. cbn [strAfter numAfter setCur setStr l_cur l_num l_str l_start l_rws l_rcom]. rewrite G4, G1, G5, G6.
      unfold l2. cbn [setNum l_num l_start l_rws l_rcom]. auto.
  - destruct (Z.eqb_spec (l_ch l2) 37) as [E|N].
    + pose proof (now_is l2 "%" W2) as Kp. apply Kp in E as (p & t & E & Hp).
      destruct (runs_step (setCur l2 Percentage) p t W2 E) as [R3 T3].
      assert (M : moves l (step (setCur l2 Percentage)) (flat (n ++ [p]))).
      { rewrite flat_app. eapply moves_trans; [apply R1|]. apply R3. }
      destruct R1 as [[_ (F1 & F2 & F3 & F4 & F5 & F6)] T1]. destruct R3 as [[_ (G1 & G2 & G3 & G4 & G5 & G6)] _].
      exists (n ++ [p]), (PlNum (flat n)). split; [exact M|]. rewrite T3.
      rewrite T2 in E. rewrite E in *.
      split; [rewrite T1, <- app_assoc; reflexivity|]. rewrite G2. cbn [setCur l_cur]. split.
      * apply lxPercentage; auto.
      * unfold carries. cbn [strAfter numAfter]. rewrite G3, G4, G1, G5, G6. unfold l2. cbn [setCur setNum l_str l_num l_start l_rws l_rcom]. auto.
    + assert (F3 : l_str l1 = l_str l) by apply R1.
      eapply (lexOk_run l l1 _ n (PlNum (flat n))); try reflexivity; [exact R1| |split; [exact F3|reflexivity]].
      apply lxNumber; auto.
      * intros X. apply K in X. discriminate.
      * rewrite <- T2. intros X. apply (now_is l2 "%" W2) in X. exact (N X).
Qed.

Lemma sigil_reads k l c : cwf l -> (k = At /\ opens (todo l) FAt) \/ (k = Hash /\ opens (todo l) FHash) ->
  todo l <> [] -> c = k -> lexOk l (nextSigilName k l).
Proof.
  intros W H Hne _. destruct (todo l) as [|s t] eqn:E; [congruence|].
  destruct (runs_step _ _ _ W E) as [R1 T1]. unfold nextSigilName. cbv zeta.
  set (l1 := setCur (step l) k). assert (W1 : cwf l1) by exact (runs_cwf _ _ _ R1).
  destruct (nextName_reads l1 W1) as (l2 & n & E2 & R2 & H2). rewrite E2. cbn [bind].
  rewrite (runs_slice _ _ _ W1 R2). cbn [bind].
  pose proof (runs_todo _ _ _ R2) as T2. change (todo l1) with (todo (step l)) in T2. rewrite T1 in T2.
  assert (M : moves l l2 (flat (s :: n))).
  { change (s :: n) with ([s] ++ n). rewrite flat_app. eapply moves_trans; [apply R1|]. apply R2. }
  destruct R1 as [[_ (F1 & F2 & F3 & F4 & F5 & F6)] _]. destruct R2 as [[_ (G1 & G2 & G3 & G4 & G5 & G6)] _].
  exists (s :: n), (PlStr (flat n)). split; [exact M|].
  change (todo (setStr l2 (flat n))) with (todo l2). rewrite E. rewrite T2 in H. rewrite T2. split; [reflexivity|].
  unfold carries. cbn [strAfter numAfter setStr l_cur l_str l_num l_start l_rws l_rcom]. rewrite G2, G1, G4, G5, G6.
  unfold l1. cbn [setCur l_cur l_num l_start l_rws l_rcom]. split; [|auto].
  destruct H as [[-> H]|[-> H]]; [apply lxAt|apply lxHash]; auto.
Qed.

Lemma identlike_reads l : cwf l -> opens (todo l) FWord -> lexOk l (nextIdentLikeToken l).
Proof.
  intros W H. unfold nextIdentLikeToken. cbv zeta.
  destruct (nextName_reads l W) as (l1 & n & E1 & R1 & H1). rewrite E1. cbn [bind].
  rewrite (runs_slice _ _ _ W R1). cbn [bind]. pose proof (runs_cwf _ _ _ R1) as W1.
  set (l2 := setStr l1 (flat n)). assert (W2 : cwf l2) by exact W1.
  change (l_ch l2) with (l_ch l1).
  pose proof (runs_todo _ _ _ R1) as T1. rewrite T1 in H.
  pose proof (now_is l1 "(" W1) as K. change (bz "(") with 40 in K.
  destruct (Z.eqb_spec (l_ch l1) 40) as [E|N]; cycle 1.
  { rewrite andb_false_r. assert (F4 : l_num l1 = l_num l) by apply R1.
    eapply (lexOk_run l l1 _ n (PlStr (flat n))); try reflexivity; [exact R1| |split; [reflexivity|exact F4]].
    apply lxIdent; auto. intros X. apply N. apply K. exact X. }
  apply K in E as (p & t & E & Hp). rewrite andb_true_r.
  destruct (runs_step l2 p t W2 E) as [R3 T3]. pose proof (runs_cwf _ _ _ R3) as W3.
  pose proof (b_url (flat n)) as Ku. rewrite E in *.
  destruct (isURLString (flat n)); cycle 1.
  { assert (M : moves l (step l2) (flat (n ++ [p]))).
    { rewrite flat_app. eapply moves_trans; [apply R1|]. apply R3. }
    destruct R1 as [[_ (F1 & F2 & F3 & F4 & F5 & F6)] _]. destruct R3 as [[_ (G1 & G2 & G3 & G4 & G5 & G6)] _].
    exists (n ++ [p]), (PlStr (flat n)). split; [exact M|].
    change (todo (setCur (step l2) FunctionStart)) with (todo (step l2)). rewrite T3, T1.
    split; [rewrite <- app_assoc; reflexivity|]. unfold carries. cbn [strAfter numAfter setCur l_cur l_str l_num l_start l_rws l_rcom].
    rewrite G3, G4, G1, G5, G6. split; [|auto]. apply lxFunction; auto. intros X. apply Ku in X. discriminate. }
  pose proof (proj1 Ku eq_refl) as Hu. clear Ku.
  destruct (urlSkipWs_reads (lfuel (step l2)) (l_lastPos (step l2)) (step l2) W3 (lfuel_rest _) ltac:(lia))
    as (l4 & s & E4 & R4 & H4 & S4). rewrite E4. cbn [bind].
  pose proof (runs_cwf _ _ _ R4) as W4. pose proof (runs_todo _ _ _ R4) as T4. rewrite T3 in T4. clear T3. subst t.
  assert (M4 : moves l l4 (flat (n ++ p :: s))).
  { change (n ++ p :: s) with (n ++ [p] ++ s). rewrite !flat_app. eapply moves_trans; [apply R1|].
    eapply moves_trans; [apply R3|]. apply R4. }
  assert (Fr : l_str l4 = flat n /\ l_num l4 = l_num l /\ l_start l4 = l_start l /\ l_rws l4 = l_rws l /\ l_rcom l4 = l_rcom l).
  { destruct R1 as [[_ (F1 & F2 & F3 & F4 & F5 & F6)] _]. destruct R3 as [[_ (G1 & G2 & G3 & G4 & G5 & G6)] _].
    destruct R4 as [[_ (I1 & I2 & I3 & I4 & I5 & I6)] _].
    rewrite I3, I4, I1, I5, I6, G3, G4, G1, G5, G6. unfold l2. cbn [setStr l_str l_num l_start l_rws l_rcom]. auto. }
  destruct Fr as (Fs & Fn & Fst & Fw & Fc).
  assert (Kq : (l_ch l4 =? 39) || (l_ch l4 =? 34) = true <-> starts quote (todo l4)).
  { apply (now (fun z => (z =? 39) || (z =? 34)) quote); auto.
    intros c. rewrite orb_true_iff, !Z.eqb_eq. unfold quote, is. change (bz """") with 34. change (bz "'") with 39. tauto. }
  destruct ((l_ch l4 =? 39) || (l_ch l4 =? 34)).
  - exists (n ++ p :: s), (PlStr (flat n)). split; [exact M4|].
    change (todo (setCur l4 FunctionStart)) with (todo l4). rewrite T1.
    split; [rewrite <- app_assoc; reflexivity|]. unfold carries. cbn [strAfter numAfter setCur l_cur l_str l_num l_start l_rws l_rcom].
    split; [|auto]. apply lxUrlFunction; auto. apply Kq; auto.
  - set (l5 := setCur l4 URL). assert (W5 : cwf l5) by exact W4.
    assert (Nq : ~ starts quote (todo l4)) by (intros X; apply Kq in X; discriminate).
    pose proof (urlLoop_reads (lfuel l5) l5 l5 [] W5 (runs_refl _ W5) (lfuel_rest _) (fun b r _ X => X)) as HL.
    change (todo l5) with (todo l4) in HL.
    destruct (urlLoop (lfuel l5) (l_lastPos l5) l5) as [l'|[sp m|] ln|]; auto.
    + destruct HL as (b & e & lx & Rb & Re & Hb & He).
      pose proof (runs_todo _ _ _ Rb) as Tb. change (todo l5) with (todo l4) in Tb.
      pose proof (runs_todo _ _ _ Re) as Te. change (todo (setStr lx (flat b))) with (todo lx) in Te.
      cbn [app] in Te. rewrite Te in Tb.
      exists (n ++ p :: s ++ b ++ [e]), (PlStr (flat b)). split.
      { replace (n ++ p :: s ++ b ++ [e]) with ((n ++ p :: s) ++ b ++ [e]) by (rewrite <- app_assoc; reflexivity).
        rewrite flat_app, (flat_app b). eapply moves_trans; [exact M4|].
        eapply moves_trans; [apply (proj1 (proj1 Rb))|]. apply (proj1 (proj1 Re)). }
      rewrite Tb in *.
      destruct Rb as [[_ (I1 & I2 & I3 & I4 & I5 & I6)] _]. destruct Re as [[_ (J1 & J2 & J3 & J4 & J5 & J6)] _].
      split; [rewrite T1; rewrite <- !app_assoc; cbn [app]; rewrite <- !app_assoc; reflexivity|].
      rewrite J2. cbn [setStr l_cur] in *. rewrite I2. cbn [l5 setCur l_cur].
      split; [apply lxUrl; auto|]. unfold carries. rewrite J3, J4, J1, J5, J6. cbn [strAfter numAfter setStr l_str l_num l_start l_rws l_rcom].
      rewrite I1, I4, I5, I6. auto.
    + destruct HL as (b & r & Hb & Hin & Hstop & ->).
      exists (n ++ p :: s ++ b), r. rewrite Hb in *. split; [rewrite T1; rewrite <- !app_assoc; cbn [app]; rewrite <- !app_assoc; reflexivity|].
      split.
      * destruct Hstop as [[-> ->]|(c & t & -> & Hc & ->)].
        -- rewrite app_nil_r in *. apply brUrlEnd; auto.
        -- apply brUrlChar; auto.
      * unfold l5. cbn [setCur l_start l_lastPos]. rewrite Fst. f_equal.
        destruct M4 as (_ & _ & -> & _).
        replace (n ++ p :: s ++ b) with ((n ++ p :: s) ++ b) by (rewrite <- app_assoc; reflexivity).
        rewrite (flat_app (n ++ p :: s)), app_length. lia.
Qed.

Lemma string_reads l c q : cwf l -> todo l <> [] -> (q = """" \/ q = "'")%byte -> is q c ->
  (exists t, todo l = c :: t) ->
  lexOk l (let l1 := step l in
      let start := l_lastPos l1 in
      '(e, l2) <- stringLoop (lfuel l1) (fst c) l1 ;;
      let l3 := setCur l2 TString in
      s <- contentSlice l3 start e ;;
      Ok (setStr l3 s)).
Proof.
  intros W _ Hq Hc (t & E). cbv zeta. rewrite Hc.
  assert (Ho : opens (todo l) (FString q)) by (rewrite E; apply opString; auto).
  destruct (runs_step _ _ _ W E) as [R1 T1]. pose proof (runs_cwf _ _ _ R1) as W1.
  pose proof (stringLoop_reads q (lfuel (step l)) (step l) Hq W1 (lfuel_rest _)) as H.
  destruct (stringLoop (lfuel (step l)) (bz q) (step l)) as [[e l2]|[sp m|] ln|]; cbn [bind]; auto.
  - destruct H as (b & d & lx & Rb & -> & Rd & Hb & Hd).
    pose proof (runs_slice _ _ _ W1 Rb) as Hs.
    apply (slice_frame lx (setCur l2 TString)) in Hs; [|apply Rd].
    rewrite Hs. cbn [bind].
    assert (R : runs l l2 (c :: b ++ [d])).
    { change (c :: b ++ [d]) with ([c] ++ b ++ [d]). eapply runs_trans; [exact R1|]. eapply runs_trans; eauto. }
    assert (F4 : l_num l2 = l_num l) by apply R.
    eapply (lexOk_run l l2 _ _ (PlStr (flat b))); try reflexivity; [exact R| |split; [reflexivity|exact F4]].
    apply (lxString q); auto. rewrite (runs_todo _ _ _ R) in Ho. cbn [app] in Ho. rewrite <- app_assoc in Ho. exact Ho.
  - destruct H as (b & r & x & Hb & Hin & Hstop & ->). rewrite T1 in Hb. clear T1. subst t. rewrite E in Ho.
    assert (Hsp : mkSpan (l_start (step l)) (l_lastPos (step l) + length (flat (b ++ x))) =
                  mkSpan (l_start l) (l_lastPos l + length (flat (c :: b ++ x)))).
    { assert (l_start (step l) = l_start l) as -> by apply R1. rewrite (runs_last _ _ _ R1).
      change (c :: b ++ x) with ([c] ++ b ++ x). rewrite (flat_app [c]), app_length. f_equal. lia. }
    rewrite Hsp. destruct Hstop as [(Hr & -> & ->)|[(-> & -> & ->)|(d & -> & Hd & -> & ->)]].
    + rewrite app_nil_r. exists (c :: b), r. split; [exact E|]. split; auto. eapply brStringLine; eauto.
    + rewrite !app_nil_r in *. exists (c :: b), []. split; [rewrite app_nil_r; exact E|]. split; auto. eapply brStringEnd; eauto.
    + exists (c :: b ++ [d]), []. split; [rewrite app_nil_r; exact E|]. split; auto. eapply brStringEscape; eauto.
Qed.

(** The comment branch: what was read, and whether it is a comment. *)
Lemma comment_reads l c t : cwf l -> todo l = c :: t -> is "/" c -> starts (sees "*") t ->
  match (let l1 := step (step l) in
         '(e, l2) <- commentLoop (lfuel l1) l1 ;;
         let l3 := setCur l2 Comment in
         s <- contentSlice l3 (l_lastPos l1) e ;; Ok (setStr l3 s)) with
  | Ok l' => exists u b, lexed u (todo l') Comment (PlStr b) /\ moves l l' (flat u) /\ todo l = u ++ todo l' /\ u <> [] /\
      carries (PlStr b) l l' /\ l_cur l' = Comment /\ l_start l' = l_start l /\ l_rws l' = l_rws l /\ l_rcom l' = l_rcom l
  | Panic (PLex sp m) _ => exists u r, todo l = u ++ r /\ broken u r m /\
      sp = mkSpan (l_start l) (l_lastPos l + length (flat u))
  | _ => False
  end.
Proof.
  intros W E Hc Hs. assert (Ho : opens (todo l) FComment) by (rewrite E; apply opComment; auto). cbv zeta.
  destruct Hs as (d & t' & -> & Hd). destruct (runs_step _ _ _ W E) as [R1 T1].
  destruct (runs_step _ _ _ (runs_cwf _ _ _ R1) T1) as [R2 T2]. pose proof (runs_cwf _ _ _ R2) as W2.
  pose proof (runs_trans _ _ _ _ _ R1 R2) as R12. cbn [app] in R12.
  set (l1 := step (step l)) in *.
  pose proof (commentLoop_reads (lfuel l1) l1 W2 (lfuel_rest _)) as H.
  destruct (commentLoop (lfuel l1) l1) as [[e l2]|[sp m|] ln|]; cbn [bind]; auto.
  - destruct H as (b & x & y & lx & Rb & -> & Rl & Hx & Hy & Hn).
    pose proof (runs_slice _ _ _ W2 Rb) as Hs.
    apply (slice_frame lx (setCur l2 Comment)) in Hs.
    2:{ cbn [setCur l_content]. destruct Rl as [[(-> & _) _] _]. destruct Rb as [[(-> & _) _] _]. reflexivity. }
    rewrite Hs. cbn [bind].
    pose proof (runs_trans _ _ _ _ _ R12 Rl) as R. cbn [app] in R.
    assert (Ho' : opens (c :: d :: b ++ x :: y :: todo l2) FComment).
    { rewrite (runs_todo _ _ _ R) in Ho. cbn [app] in Ho. rewrite <- app_assoc in Ho. exact Ho. }
    exists (c :: d :: b ++ [x; y]), (flat b).
    change (todo (setStr (setCur l2 Comment) (flat b))) with (todo l2).
    split; [apply lxComment; auto|]. split; [apply R|]. split; [apply R|]. split; [congruence|]. split; [split; [reflexivity|]; cbn; apply R|].
    split; [reflexivity|]. destruct R as [[_ (F1 & F2 & F3 & F4 & F5 & F6)] _]. cbn. auto.
  - destruct H as (Hn & -> & ->). exists (todo l), []. split; [rewrite app_nil_r; reflexivity|].
    rewrite T2 in Hn. rewrite E in *. split; [apply brComment; auto|].
    assert (l_start l1 = l_start l) as -> by apply R12. rewrite (runs_last _ _ _ R12), T2.
    change (c :: d :: t') with ([c; d] ++ t'). rewrite (flat_app [c; d]), app_length. f_equal. lia.
Qed.

(** * Next *)
Definition nextReads (l : lexer) (r : res lexer) : Prop :=
  match r with
  | Ok l' => exists g t p lm o, skips (l_rws l) (l_rcom l) g (t ++ todo l') o /\ moves l lm (flat g) /\
      moves lm l' (flat t) /\ l_start l' = l_lastPos lm /\
      todo l = g ++ t ++ todo l' /\ lexed t (todo l') (l_cur l') p /\
      l_str l' = strAfter p (heard o (l_str l)) /\ l_num l' = numAfter p (l_num l) /\
      delivered (l_rws l) (l_rcom l) (l_cur l')
  | Panic (PLex sp m) _ => exists g t r o, skips (l_rws l) (l_rcom l) g (t ++ r) o /\ todo l = g ++ t ++ r /\
      broken t r m /\ sp = mkSpan (l_lastPos l + length (flat g)) (l_lastPos l + length (flat g) + length (flat t))
  | _ => False
  end.

Lemma not_is b c : fst c <> bz b -> ~ is b c.
Proof. auto. Qed.
Lemma singles_no c : fst c <> 59 -> fst c <> 58 -> fst c <> 44 -> fst c <> 40 -> fst c <> 41 -> fst c <> 91 ->
  fst c <> 93 -> fst c <> 123 -> fst c <> 125 -> ~ (exists b k, In (b, k) singles /\ is b c).
Proof.
  intros. intros (b & k & Hin & Hb). unfold is in Hb. cbn in Hin.
  repeat destruct Hin as [Hin|Hin]; try contradiction; inversion Hin; subst b k; cbn in Hb; lia.
Qed.

(** Only white space and comments start where they are allowed to. *)
Lemma lexed_family t r k p : lexed t r k p ->
  (k = Whitespace -> opens (t ++ r) FBlank) /\ (k = Comment -> opens (t ++ r) FComment).
Proof.
  intros H. inversion H; subst; split; intros X; try discriminate; auto.
  1,2: match goal with H : opens _ (FSingle _) |- _ => inversion H; subst end;
    match goal with H : In _ singles |- _ => cbn in H; repeat destruct H as [H|H]; try contradiction; discriminate end.
  cbn [app]. rewrite <- app_assoc. auto.
Qed.

Lemma nextLoop_reads f l0 : cwf l0 -> (length (rest l0) < f)%nat -> nextReads l0 (nextLoop f l0).
Proof.
  revert l0. induction f as [|f IH]; intros l0 W0 Hf; [lia|]. cbn [nextLoop]. cbv zeta.
  set (l := setStart l0 (l_lastPos l0)).
  assert (W : cwf l) by exact W0.
  assert (M0 : moves l0 l []) by exact (moves_refl _ W0).
  assert (Hgood : forall r, (forall l', r = Ok l' -> delivered (l_rws l0) (l_rcom l0) (l_cur l')) ->
     lexOk l r -> nextReads l0 r).
  { intros r D. unfold lexOk, nextReads. destruct r as [l'|[sp m|] ln|]; auto.
    - intros (t & p & M & T & H & [C1 C2] & Hs & Hw & Hc). exists [], t, p, l, None. split; [constructor|].
      split; [exact M0|]. split; auto. split; [rewrite Hs; reflexivity|]. split; [exact T|]. split; auto.
    - intros (t & r & T & H & ->). exists [], t, r, None. split; [constructor|]. split; [exact T|]. split; [assumption|].
      unfold l. cbn. rewrite Nat.add_0_r. reflexivity. }
  assert (Hlex : forall r F, opens (todo l) F -> F <> FBlank -> F <> FComment -> lexOk l r -> nextReads l0 r).
  { intros r F HF N1 N2 H. apply Hgood; auto. intros l' ->. destruct H as (u & p & _ & T & HL & _).
    rewrite T in HF. destruct (lexed_family _ _ _ _ HL) as [A1 A2].
    split; intros X; exfalso; [apply N1|apply N2]; eapply opens_fun; eauto. }
  assert (Hskip : forall l1 g w, moves l l1 (flat g) -> todo l = g ++ todo l1 -> l_rws l1 = l_rws l -> l_rcom l1 = l_rcom l ->
     (length (rest l1) < f)%nat -> l_num l1 = l_num l -> l_str l1 = heard w (l_str l) ->
     (forall t r o, todo l1 = t ++ r -> skips (l_rws l0) (l_rcom l0) t r o ->
        skips (l_rws l0) (l_rcom l0) (g ++ t) r (match o with Some b => Some b | None => w end)) ->
     nextReads l0 (nextLoop f l1)).
  { intros l1 g w M T Rw Rc Hl Ln Ls Hg. specialize (IH l1 (moves_cwf _ _ _ M) Hl). revert IH. unfold nextReads.
    rewrite Rw, Rc, Ln, Ls. change (l_rws l) with (l_rws l0). change (l_rcom l) with (l_rcom l0). change (todo l) with (todo l0) in T.
    change (l_num l) with (l_num l0). change (l_str l) with (l_str l0).
    destruct (nextLoop f l1) as [l'|[sp m|] ln|]; auto.
    - intros (g' & t & p & lm & o & Hs & Mg & Mt & Hst & T' & HL & C1 & C2 & D).
      exists (g ++ g'), t, p, lm, (match o with Some b => Some b | None => w end).
      split; [apply Hg; auto|]. split; [rewrite flat_app; eapply moves_trans; [exact M|exact Mg]|].
      split; auto. split; auto. split; [rewrite T, T', <- app_assoc; reflexivity|].
      split; auto. split; [rewrite C1; destruct o; reflexivity|]. auto.
    - intros (g' & t & r & o & Hs & T' & Hb & ->). exists (g ++ g'), t, r, (match o with Some b => Some b | None => w end).
      split; [apply Hg; auto|].
      split; [rewrite T, T', <- app_assoc; reflexivity|]. split; auto.
      destruct M as (_ & _ & -> & _). rewrite flat_app, app_length. unfold l. cbn. f_equal; lia. }
  destruct (todo l) as [|c t] eqn:E.
  { rewrite (proj2 (todo_end _ W) E). change (-1 =? -1) with true. cbv iota.
    apply Hgood; [intros l' X; inversion X; subst; split; discriminate|].
    exists [], PlNone. split; [exact (moves_refl _ W)|]. change (todo (setCur l EOF)) with (todo l). rewrite E.
    split; auto. split; [constructor|]. unfold carries. cbn. auto. }
  destruct (todo_cons _ _ _ W E) as (Ec & Ne & _ & Tt & Wt).
  pose proof (peeks_todo _ _ _ W E) as P. pose proof (peeks_2 _ _ _ _ P) as P2.
  assert (L : peek l 0 = look t) by apply P.
  destruct (Z.eqb_spec (l_ch l) (-1)) as [X|_]; [contradiction|].
  rewrite Ec in *. clear Ec.
  assert (HS : forall b k, In (b, k) singles -> fst c = bz b -> nextReads l0 (single k l)).
  { intros b k Hin Hb. assert (Ho : opens (c :: t) (FSingle k)) by (eapply opSingle; eauto).
    apply (Hlex _ (FSingle k)); auto; try discriminate. apply single_reads; auto. rewrite E. exact Ho. }
  assert (HD : delimiter c t -> nextReads l0 (nextDelimToken l)).
  { intros D. assert (Ho : opens (c :: t) FDelim) by (apply opDelim; auto).
    apply (Hlex _ FDelim); auto; try discriminate. apply delim_reads; auto. rewrite E. exact Ho. }
  assert (HN : opens (c :: t) FNumber -> nextReads l0 (nextNumericToken l)).
  { intros Ho. apply (Hlex _ FNumber); auto; try discriminate. apply numeric_reads; auto. rewrite E. exact Ho. }
  assert (HI : opens (c :: t) FWord -> nextReads l0 (nextIdentLikeToken l)).
  { intros Ho. apply (Hlex _ FWord); auto; try discriminate. apply identlike_reads; auto. rewrite E. exact Ho. }
  (* a low character is a digit only if it is one of ten *)
  assert (Nd : fst c <= 255 -> ~ (48 <= fst c <= 57) -> ~ digit c).
  { intros A1 A2 X. apply digit_range in X; auto. }
  Ltac delimCode := repeat (split; [first
     [ apply singles_no; lia
     | unfold blank, quote, is; cbn; lia
     | (intros; assumption)
     | (match goal with Nd : _ -> _ -> ~ digit _ |- _ => apply Nd; lia end)
     | unfold nameStart, within, is; cbn; lia
     | (let X := fresh in intros X; exfalso; unfold sign, is in X; cbn in X; lia) ]|]); try
     first [ (intros; assumption) | (let X := fresh in intros X; exfalso; unfold sign, is in X; cbn in X; lia) ].
  destruct (Z.eqb_spec (fst c) 59) as [X|N59]. { apply (HS ";"%byte); [cbn; tauto|exact X]. }
  destruct (Z.eqb_spec (fst c) 58) as [X|N58]. { apply (HS ":"%byte); [cbn; tauto|exact X]. }
  destruct (Z.eqb_spec (fst c) 43) as [X|N43].
  { pose proof (number_signed (fst c) _ _ _ P2 (or_introl X)) as K.
    destruct (startsNumber (fst c) (peek l 0) (peek l 1)).
    - apply HN. apply opSigned; [left; exact X|apply K; auto].
    - apply HD. assert (~ seesUnsigned t) by (intros Y; apply K in Y; discriminate).
      delimCode. }
  destruct (Z.eqb_spec (fst c) 45) as [X|N45].
  { pose proof (number_signed (fst c) _ _ _ P2 (or_intror X)) as K.
    destruct (startsNumber (fst c) (peek l 0) (peek l 1)).
    { apply HN. apply opSigned; [right; exact X|apply K; auto]. }
    assert (~ seesUnsigned t) by (intros Y; apply K in Y; discriminate). clear K.
    pose proof (cdc_ahead _ _ _ _ P) as K. destruct ((peek l 0 =? 45) && (peek l 1 =? 62)).
    { assert (Ho : opens (c :: t) FCDC) by (apply opCDC; [exact X|apply K; auto]).
      apply (Hlex _ FCDC); auto; try discriminate. exists [], PlNone. split; [exact (moves_refl _ W)|].
      change (todo (setCur l CDC)) with (todo l). split; auto. split; [apply lxCDC; rewrite E; exact Ho|]. unfold carries. cbn. auto. }
    assert (~ closesCDC t) by (intros Y; apply K in Y; discriminate). clear K.
    pose proof (name_ahead _ _ _ _ P) as K. destruct (startsIdentifier (peek l 0) (peek l 1) (peek l 2)).
    - apply HI. apply opDash; [exact X|apply K; auto|auto].
    - apply HD. assert (~ seesName t) by (intros Y; apply K in Y; discriminate). delimCode.
      split; [intros _; split; assumption|]. delimCode. }
  destruct (Z.eqb_spec (fst c) 60) as [X|N60].
  { pose proof (cdo_ahead _ _ _ _ P) as K. destruct ((peek l 0 =? 33) && (peek l 1 =? 45) && (peek l 2 =? 45)).
    { assert (Ho : opens (c :: t) FCDO) by (apply opCDO; [exact X|apply K; auto]).
      apply (Hlex _ FCDO); auto; try discriminate. exists [], PlNone. split; [exact (moves_refl _ W)|].
      change (todo (setCur l CDO)) with (todo l). split; auto. split; [apply lxCDO; rewrite E; exact Ho|]. unfold carries. cbn. auto. }
    apply HD. assert (~ opensCDO t) by (intros Y; apply K in Y; discriminate). delimCode. }
  destruct (Z.eqb_spec (fst c) 64) as [X|N64].
  { pose proof (name_ahead _ _ _ _ P) as K. destruct (startsIdentifier (peek l 0) (peek l 1) (peek l 2)).
    - assert (Ho : opens (c :: t) FAt) by (apply opAt; [exact X|apply K; auto]).
      apply (Hlex _ FAt); auto; try discriminate. apply (sigil_reads _ _ At); auto; try (rewrite E; discriminate).
      left. split; auto. rewrite E. exact Ho.
    - apply HD. assert (~ seesName t) by (intros Y; apply K in Y; discriminate). delimCode. }
  destruct (Z.eqb_spec (fst c) 35) as [X|N35].
  { pose proof (hash_ahead _ _ _ P2) as K. destruct (isNameCodePoint (peek l 0) || startsEscape (peek l 0) (peek l 1)).
    - assert (Ho : opens (c :: t) FHash) by (apply opHash; [exact X|apply K; auto]).
      apply (Hlex _ FHash); auto; try discriminate. apply (sigil_reads _ _ Hash); auto; try (rewrite E; discriminate).
      right. split; auto. rewrite E. exact Ho.
    - apply HD. assert (~ seesHash t) by (intros Y; apply K in Y; discriminate). delimCode. }
  destruct (Z.eqb_spec (fst c) 44) as [X|N44]. { apply (HS ","%byte); [cbn; tauto|exact X]. }
  destruct (Z.eqb_spec (fst c) 40) as [X|N40]. { apply (HS "("%byte); [cbn; tauto|exact X]. }
  destruct (Z.eqb_spec (fst c) 41) as [X|N41]. { apply (HS ")"%byte); [cbn; tauto|exact X]. }
  destruct (Z.eqb_spec (fst c) 91) as [X|N91]. { apply (HS "["%byte); [cbn; tauto|exact X]. }
  destruct (Z.eqb_spec (fst c) 93) as [X|N93]. { apply (HS "]"%byte); [cbn; tauto|exact X]. }
  destruct (Z.eqb_spec (fst c) 123) as [X|N123]. { apply (HS "{"%byte); [cbn; tauto|exact X]. }
  destruct (Z.eqb_spec (fst c) 125) as [X|N125]. { apply (HS "}"%byte); [cbn; tauto|exact X]. }
  destruct (Z.eqb_spec (fst c) 46) as [X|N46].
  { pose proof (number_ahead _ _ _ _ P) as K. destruct (startsNumber (peek l 0) (peek l 1) (peek l 2)).
    - apply HN. apply opDot; [exact X|apply K; auto].
    - apply HD. assert (~ seesNumber t) by (intros Y; apply K in Y; discriminate). delimCode. }
  destruct (Z.eqb_spec (fst c) 92) as [X|N92].
  { assert (K : startsEscape (fst c) (peek l 0) = true <-> opensEscape (c :: t)) by (apply esc_now; auto).
    destruct (startsEscape (fst c) (peek l 0)) eqn:Es; cbn [negb].
    - apply HI. destruct (proj1 K eq_refl) as (d & r & Y & _ & Hn). inversion Y; subst. apply opEscape; auto.
    - assert (Ho : opens (c :: t) FBad).
      { apply opBad; [exact X|]. apply (look_sees LF); [cbn; lia|]. unfold startsEscape in Es.
        rewrite X in Es. change (negb (92 =? 92)) with false in Es. cbv iota in Es. rewrite L in Es.
        destruct (Z.eqb_spec (look t) 10); [auto|discriminate]. }
      apply (Hlex _ FBad); auto; try discriminate. exists [], (todo l). split; auto.
      split; [apply brEscape; rewrite E; exact Ho|]. unfold tokenSpan. cbn. rewrite Nat.add_0_r. reflexivity. }
  destruct (Z.eqb_spec (fst c) 47) as [X|N47].
  { destruct (Z.eqb_spec (peek l 0) 42) as [Ep|Np]; cbn [negb].
    - assert (Hs : starts (sees "*") t). { rewrite L in Ep. apply (look_sees "*"); [cbn; lia|exact Ep]. }
      pose proof (comment_reads l c t W E X Hs) as H. cbv zeta in H.
      destruct (commentLoop (lfuel (step (step l))) (step (step l))) as [[e l2]|[sp m|] ln|]; cbn [bind] in *; auto.
      + destruct (contentSlice (setCur l2 Comment) (l_lastPos (step (step l))) e) as [s|[sp m|] ln|]; cbn [bind] in *; auto.
        * destruct H as (u & b & HL & M & T & Nu & C & Hk & Hst & Hw & Hr).
          set (l4 := setStr (setCur l2 Comment) s) in *. rewrite Hr.
          change (l_rcom l) with (l_rcom l0). destruct (l_rcom l0) eqn:Er; cbn [negb].
          -- apply Hgood.
             ++ intros l' Y. inversion Y; subst l'. rewrite Hk. split; [discriminate|auto].
             ++ exists u, (PlStr b). rewrite Hk. auto 10.
          -- apply (Hskip l4 u (Some b)); auto.
             ++ rewrite <- E. exact T.
             ++ pose proof (moves_len _ _ _ M) as Lm. change (rest l) with (rest l0) in Lm.
                assert (0 < length (flat u))%nat; [|lia].
                destruct u as [|u0 u]; [congruence|]. rewrite E in T. cbn [app] in T. inversion T; subst u0.
                destruct (todo_cons _ _ _ W E) as (_ & Hc' & Hu' & _). pose proof (unitOf_pos _ W Hc') as Pp.
                unfold flat. cbn [map concat]. rewrite app_length, <- Hu'. lia.
             ++ apply C.
             ++ apply C.
             ++ intros t' r' o' T' Hs'. replace (match o' with Some b0 => Some b0 | None => Some b end) with (Some (match o' with Some b0 => b0 | None => b end)) by (destruct o'; reflexivity).
                eapply spComment; eauto. rewrite <- T'. exact HL.
        * destruct H as (u & r & T & Hb & ->). exists [], u, r, None. split; [constructor|]. split; [exact T|]. split; [assumption|].
          unfold l. cbn. rewrite Nat.add_0_r. reflexivity.
      + destruct H as (u & r & T & Hb & ->). exists [], u, r, None. split; [constructor|]. split; [exact T|]. split; [assumption|].
        unfold l. cbn. rewrite Nat.add_0_r. reflexivity.
    - apply HD. assert (~ starts (sees "*") t).
      { intros Y. apply Np. rewrite L. apply (look_sees "*") in Y; [exact Y|cbn; lia]. } delimCode. }
  destruct ((fst c =? 34) || (fst c =? 39)) eqn:Eq.
  { apply orb_true_iff in Eq. rewrite !Z.eqb_eq in Eq.
    assert (Hq : exists q, (q = """" \/ q = "'")%byte /\ is q c).
    { destruct Eq as [Eq|Eq]; [exists """"%byte|exists "'"%byte]; auto. }
    destruct Hq as (q & Hq & Hc). assert (Ho : opens (c :: t) (FString q)) by (apply opString; auto).
    apply (Hlex _ (FString q)); auto; try discriminate.
    apply (string_reads l c q); eauto. rewrite E. discriminate. }
  apply orb_false_iff in Eq as [N34 N39]. apply Z.eqb_neq in N34, N39.
  destruct (isWhitespace (fst c)) eqn:Ew.
  { apply b_ws in Ew. assert (Ho : opens (c :: t) FBlank) by (apply opBlank; auto).
    destruct (l_rws l) eqn:Er; cbn [negb].
    - destruct (blanks_reads (lfuel l) l W (lfuel_rest _)) as (l' & n & E' & R' & H' & S'). rewrite E'. cbn [bind].
      apply Hgood.
      + intros l'' Y. inversion Y; subst l''. split; [intros _; exact Er|discriminate].
      + pose proof (runs_todo _ _ _ R') as T'. destruct n as [|d n].
        * elim S'. cbn [app] in T'. rewrite <- T', E. apply starts_head. exact Ew.
        * assert (F3 : l_str l' = l_str l) by apply R'. assert (F4 : l_num l' = l_num l) by apply R'.
          eapply (lexOk_run l l' _ (d :: n) PlNone); try reflexivity; [exact R'| |split; [exact F3|exact F4]].
          apply lxBlank; auto; [|inversion H'; auto].
          rewrite E in T'. cbn [app] in T'. rewrite <- T'. exact Ho.
    - destruct (runs_step _ _ _ W E) as [R1 T1].
      apply (Hskip (step l) [c] None); [apply R1| |rewrite <- Er; apply R1|apply R1| |apply R1|apply R1|].
      + rewrite T1. reflexivity.
      + pose proof (runs_short _ _ _ R1 ltac:(congruence) W) as Ls. change (rest l) with (rest l0) in Ls. lia.
      + intros t' r' o' _ Hs'. cbn [app]. replace (match o' with Some b0 => Some b0 | None => None end) with o' by (destruct o'; reflexivity).
        apply spBlank; auto. }
  assert (Nb : ~ blank c) by (eapply iff_false; [apply b_ws|exact Ew]).
  destruct (isDigit (fst c)) eqn:Ed; [apply HN; apply opDigit; exact Ed|].
  assert (Ndg : ~ digit c) by (unfold digit; congruence).
  pose proof (b_name0 c) as K. destruct (isNameStartCodePoint (fst c)).
  { apply HI. apply opName; [apply K; auto|auto]. }
  apply HD. assert (~ nameStart c) by (intros Y; apply K in Y; discriminate).
  split; [apply singles_no; assumption|]. split; [assumption|].
  split; [unfold quote, is; cbn; tauto|]. split; [exact N92|]. split; [assumption|]. split; [assumption|].
  unfold sign, is. cbn. repeat split; intros; exfalso; tauto.
Qed.
Lemma next_reads l : cwf l -> nextReads l (next l).
Proof. intros. apply nextLoop_reads; auto. apply lfuel_rest. Qed.
End WithUnicode.
