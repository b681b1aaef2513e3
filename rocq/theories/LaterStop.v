(** Two files with a common beginning: an error in a token well inside of it is
    found in both. *)
From Verif Require Import Bytes Utf8 Source Lexer BytesFacts LexSpec LexFacts LexNext ParseMono LaterLex.

Section Two.
Context {U : UnicodeDigits}.
Variables (k : nat) (c c' : bytes).
Hypothesis Hk : (k <= length c)%nat.
Hypothesis Hk' : (k <= length c')%nat.
Hypothesis Hc : firstn k c = firstn k c'.
Notation sw := (LaterLex.sw c').
Notation early := (LaterLex.early k).
Notation on := (LaterLex.on c).

Definition stops {T} (l : lexer) (r : res T) (R : res T -> Prop) : Prop := forall sp msg ln, r = Panic (PLex sp msg) ln ->
  (l_lastPos l <= sp_end sp)%nat /\ ((sp_end sp + 16 <= k)%nat -> R (Panic (PLex sp msg) ln)).
Definition noLex {T} (r : res T) : Prop := forall sp msg ln, r <> Panic (PLex sp msg) ln.
Lemma noLex_ok {T} (x : T) : noLex (Ok x). Proof. intros ? ? ? E; discriminate E. Qed.
Lemma noLex_slice l a b : noLex (contentSlice l a b).
Proof. unfold contentSlice. destruct (slice _ _ _); intros ? ? ? E; discriminate E. Qed.
Lemma noLex_bind {A T} (m : res A) (f : A -> res T) : noLex m -> (forall x, noLex (f x)) -> noLex (bind m f).
Proof. intros H K. destruct m; cbn [bind]; [apply K| |intros ? ? ? E; discriminate E]. intros sp msg ln E. injection E as -> ->. exact (H _ _ _ eq_refl). Qed.
Lemma noLex_while p f : forall l, noLex (stepWhile p f l).
Proof. induction f as [|f IH]; intros l; cbn [stepWhile]; [intros ? ? ? E; discriminate E|]. destruct (p _); [apply IH|apply noLex_ok]. Qed.
Lemma noLex_nameLoop f : forall l, noLex (nextNameLoop f l).
Proof. induction f as [|f IH]; intros l; cbn [nextNameLoop]; [intros ? ? ? E; discriminate E|]. destruct (isNameCodePoint _); [apply IH|]. destruct (startsEscape _ _); [apply IH|apply noLex_ok]. Qed.
Lemma noLex_name l : noLex (nextName l). Proof. apply noLex_nameLoop. Qed.
Lemma noLex_number l : noLex (nextNumber l).
Proof.
  unfold nextNumber. cbv zeta. apply noLex_bind; [apply noLex_while|]. intros l2. apply noLex_bind; [destruct (_ && _); [apply noLex_while|apply noLex_ok]|]. intros l3. destruct (_ && _); [apply noLex_while|apply noLex_ok].
Qed.
Lemma noLex_numeric l : noLex (nextNumericToken l).
Proof.
  unfold nextNumericToken. cbv zeta. apply noLex_bind; [apply noLex_number|]. intros l1. apply noLex_bind; [apply noLex_slice|]. intros s. destruct (startsIdentifier _ _ _).
  - apply noLex_bind; [apply noLex_name|]. intros l3. apply noLex_bind; [apply noLex_slice|]. intros u. apply noLex_ok.
  - destruct (_ =? _); apply noLex_ok.
Qed.
Lemma noLex_delim l : noLex (nextDelimToken l).
Proof. unfold nextDelimToken. cbv zeta. apply noLex_bind; [apply noLex_slice|]. intros s. apply noLex_ok. Qed.
Lemma noLex_single t l : noLex (single t l). Proof. apply noLex_ok. Qed.
Lemma noLex_sigil t l : noLex (nextSigilName t l).
Proof. unfold nextSigilName. cbv zeta. apply noLex_bind; [apply noLex_name|]. intros l2. apply noLex_bind; [apply noLex_slice|]. intros s. apply noLex_ok. Qed.
Lemma stops_no {T} l (r : res T) R : noLex r -> stops l r R. Proof. intros H sp msg ln E. destruct (H _ _ _ E). Qed.
Lemma near l e : on l -> (l_lastPos l <= e)%nat -> (e + 16 <= k)%nat -> early l.
Proof. intros [_ W] H1 H2. pose proof (pos_last _ W). unfold LaterLex.early. lia. Qed.
Lemma moves_last l l' t : moves l l' t -> (l_lastPos l <= l_lastPos l')%nat.
Proof. intros (_ & _ & Q & _). lia. Qed.
Lemma stops_err {T} l l0 s (R : res T -> Prop) : (l_lastPos l <= l_lastPos l0)%nat -> R (errorf (sw l0) s) -> stops l (errorf l0 s) R.
Proof. intros H HR sp msg ln E. unfold errorf in E. injection E as <- <- <-. split; [exact H|]. intros _. exact HR. Qed.
Lemma stops_from {T} l l0 (r : res T) (R R' : res T -> Prop) : (l_lastPos l <= l_lastPos l0)%nat -> stops l0 r R -> (forall x sp, (l_lastPos l0 <= sp_end sp)%nat -> (sp_end sp + 16 <= k)%nat -> R x -> R' x) -> stops l r R'.
Proof. intros H K HR sp msg ln E. destruct (K _ _ _ E) as [P S]. split; [lia|]. intros N. apply (HR _ sp); auto. Qed.

Lemma string_stop f q : forall f' l, on l -> stops l (stringLoop f q l) (lef (stringLoop f' q (sw l))).
Proof.
  induction f as [|f IH]; intros f' l Ho; [intros ? ? ? E; discriminate E|].
  assert (G : forall f', stops l (stringLoop (S f) q l) (lef (stringLoop (S f') q (sw l)))).
  { clear f'. intros f'.
  cbn [stringLoop]. change (l_ch (sw l)) with (l_ch l). destruct (Z.eqb_spec (l_ch l) q) as [C|C]; [apply stops_no, noLex_ok|]. destruct (_ =? 10); [apply stops_err; [lia|apply lef_refl]|].
  destruct (Z.eqb_spec (l_ch l) (-1)) as [N|N]. { rewrite N. cbn [Z.eqb]. apply stops_err; [lia|apply lef_refl]. }
  pose proof (step_moves _ (proj2 Ho) N) as M. pose proof (on_moves _ _ _ _ Ho M) as O1. pose proof (moves_last _ _ _ M) as P1.
  assert (K : forall (r : res (nat * lexer)) (R : res (nat * lexer) -> Prop), stops (step l) r (fun x => early l -> early (step l) -> R x) -> stops l r R).
  { intros r R H sp msg ln E. destruct (H _ _ _ E) as [Q1 Q2]. split; [lia|]. intros Nk. apply Q2; [exact Nk| |]; eapply (near _ (sp_end sp)); auto; lia. }
  destruct (_ =? 92).
  - destruct (Z.eqb_spec (l_ch (step l)) (-1)) as [N1|N1].
    { rewrite N1. cbn [Z.eqb]. apply K. apply stops_err; [lia|]. intros L0 L1. rewrite (step_sw k c c' Hk Hk' Hc) by auto. change (l_ch (sw (step l))) with (l_ch (step l)). rewrite N1. apply lef_refl. }
    apply K. destruct (Z.eqb_spec (l_ch (step l)) 10) as [C3|C3].
    { eapply stops_from; [|apply (IH f'); exact (on_moves _ _ _ _ O1 (step_moves _ (proj2 O1) N1))|]; [exact (moves_last _ _ _ (step_moves _ (proj2 O1) N1))|].
      intros x sp _ _ H L0 L1. rewrite (step_sw k c c' Hk Hk' Hc) by auto. change (l_ch (sw (step l))) with (l_ch (step l)). rewrite C3. cbn [Z.eqb Pos.eqb]. rewrite (step_sw k c c' Hk Hk' Hc) by auto. exact H. }
    destruct (startsEscape _ _) eqn:Es.
    + destruct (nextEscaped_spec (step l) (proj2 O1) N1) as (t1 & M1 & _). pose proof (on_moves _ _ _ _ O1 (proj1 M1)) as O2. eapply stops_from; [|apply (IH f'); exact O2|]; [exact (moves_last _ _ _ (proj1 M1))|].
      intros x sp A1 A2 H L0 L1. pose proof (near _ _ O2 A1 A2) as L2. rewrite (step_sw k c c' Hk Hk' Hc) by auto. change (l_ch (sw (step l))) with (l_ch (step l)). rewrite (peek_sw k c c' Hk Hk' Hc) by (auto; lia). rewrite Es.
      destruct (Z.eqb_spec (l_ch (step l)) 10); [contradiction|]. destruct (Z.eqb_spec (l_ch (step l)) (-1)); [contradiction|]. rewrite (nextEscaped_sw k c c' Hk Hk' Hc) by auto. exact H.
    + eapply stops_from; [apply le_n|apply (IH f'); exact O1|]. intros x sp A1 A2 H L0 L1. rewrite (step_sw k c c' Hk Hk' Hc) by auto. change (l_ch (sw (step l))) with (l_ch (step l)). rewrite (peek_sw k c c' Hk Hk' Hc) by (auto; lia). rewrite Es.
      destruct (Z.eqb_spec (l_ch (step l)) 10); [contradiction|]. destruct (Z.eqb_spec (l_ch (step l)) (-1)); [contradiction|]. exact H.
  - apply K. eapply stops_from; [apply le_n|apply (IH f'); exact O1|]. intros x sp A1 A2 H L0 L1. rewrite (step_sw k c c' Hk Hk' Hc) by auto. exact H. }
  destruct f' as [|f']; [|apply G]. intros sp msg ln E. split; [exact (proj1 (G 0%nat _ _ _ E))|intros _; left; reflexivity].
Qed.
Lemma comment_stop f : forall f' l, on l -> stops l (commentLoop f l) (lef (commentLoop f' (sw l))).
Proof.
  induction f as [|f IH]; intros f' l Ho; [intros ? ? ? E; discriminate E|].
  assert (G : forall f', stops l (commentLoop (S f) l) (lef (commentLoop (S f') (sw l)))).
  { clear f'. intros f'. cbn [commentLoop]. change (l_ch (sw l)) with (l_ch l).
    destruct (Z.eqb_spec (l_ch l) (-1)) as [N|N]. { rewrite N. cbn [Z.eqb]. apply stops_err; [lia|apply lef_refl]. }
    pose proof (step_moves _ (proj2 Ho) N) as M. pose proof (on_moves _ _ _ _ Ho M) as O1. pose proof (moves_last _ _ _ M) as P1.
    destruct (_ =? 42).
    - cbv zeta. destruct (_ =? 47) eqn:E; [apply stops_no, noLex_ok|]. eapply stops_from; [exact P1|apply (IH f'); exact O1|]. intros x sp A1 A2 H. assert (L0 : early l) by (apply (near _ (sp_end sp)); auto; lia).
      rewrite (step_sw k c c' Hk Hk' Hc) by auto. change (l_ch (sw (step l))) with (l_ch (step l)). rewrite E. exact H.
    - eapply stops_from; [exact P1|apply (IH f'); exact O1|]. intros x sp A1 A2 H. assert (L0 : early l) by (apply (near _ (sp_end sp)); auto; lia). rewrite (step_sw k c c' Hk Hk' Hc) by auto. exact H. }
  destruct f' as [|f']; [|apply G]. intros sp msg ln E. split; [exact (proj1 (G 0%nat _ _ _ E))|intros _; left; reflexivity].
Qed.
Lemma url_stop f st : forall f' l, on l -> stops l (urlLoop f st l) (lef (urlLoop f' st (sw l))).
Proof.
  induction f as [|f IH]; intros f' l Ho; [intros ? ? ? E; discriminate E|].
  assert (G : forall f', stops l (urlLoop (S f) st l) (lef (urlLoop (S f') st (sw l)))).
  { clear f'. intros f'. cbn [urlLoop]. cbv zeta. change (l_ch (sw l)) with (l_ch l).
    destruct (_ =? 41). { apply stops_no, noLex_bind; [apply noLex_slice|]. intros s. apply noLex_ok. }
    destruct (Z.eqb_spec (l_ch l) (-1)) as [N|N]; [apply stops_err; [lia|apply lef_refl]|]. destruct (_ || _); [apply stops_err; [lia|apply lef_refl]|].
    pose proof (step_moves _ (proj2 Ho) N) as M. pose proof (on_moves _ _ _ _ Ho M) as O1. pose proof (moves_last _ _ _ M) as P1.
    assert (Ks : stops l (urlLoop f st (step l)) (lef (urlLoop f' st (step (sw l))))).
    { eapply stops_from; [exact P1|apply (IH f'); exact O1|]. intros x sp A1 A2 H. assert (L0 : early l) by (apply (near _ (sp_end sp)); auto; lia). rewrite (step_sw k c c' Hk Hk' Hc) by auto. exact H. }
    destruct (Z.eqb_spec (l_ch l) 92) as [C|C].
    - assert (Kp : forall sp, (l_lastPos l <= sp_end sp)%nat -> (sp_end sp + 16 <= k)%nat -> peek (sw l) 0 = peek l 0) by (intros; apply (peek_sw k c c' Hk Hk' Hc); [exact Ho|eapply near; eassumption|lia]).
      destruct (startsEscape _ _) eqn:Es.
      + destruct (nextEscaped_spec l (proj2 Ho) N) as (t1 & M1 & _). pose proof (on_moves _ _ _ _ Ho (proj1 M1)) as O2. pose proof (moves_last _ _ _ (proj1 M1)) as P2. eapply stops_from; [exact P2|apply (IH f'); exact O2|].
        intros x sp A1 A2 H. rewrite (Kp sp) by lia. rewrite Es. pose proof (near _ _ O2 A1 A2). rewrite (nextEscaped_sw k c c' Hk Hk' Hc) by auto. exact H.
      + intros sp msg ln E. assert (A1 : (l_lastPos l <= sp_end sp)%nat) by (unfold errorf in E; injection E as <- _ _; cbn; lia). split; [exact A1|]. intros A2. rewrite (Kp sp) by assumption. rewrite Es, <- E. apply lef_refl.
    - destruct (isWhitespace _); [exact Ks|]. destruct (isNonPrintable _); [apply stops_err; [lia|apply lef_refl]|exact Ks]. }
  destruct f' as [|f']; [|apply G]. intros sp msg ln E. split; [exact (proj1 (G 0%nat _ _ _ E))|intros _; left; reflexivity].
Qed.
Lemma stops_bind {A T} l (m : res A) (f : A -> res T) (R : res A -> Prop) (R' : res T -> Prop) : stops l m R -> (forall sp msg ln, R (Panic (PLex sp msg) ln) -> R' (Panic (PLex sp msg) ln)) ->
  (forall x, m = Ok x -> stops l (f x) R') -> stops l (bind m f) R'.
Proof.
  intros H1 H2 H3 sp msg ln E. destruct m as [x|p y|]; cbn [bind] in E; [exact (H3 x eq_refl _ _ _ E)| |discriminate E]. injection E as -> ->. destruct (H1 _ _ _ eq_refl) as [P Q]. split; [exact P|]. intros N. apply H2, Q, N.
Qed.
Lemma lef_panic {A T} (m : res A) (f : A -> res T) p ln : lef m (Panic p ln) -> lef (bind m f) (Panic p ln).
Proof. intros [->| ->]; [left; reflexivity|right; reflexivity]. Qed.
Lemma identlike_stop l : on l -> stops l (nextIdentLikeToken l) (lef (nextIdentLikeToken (sw l))).
Proof.
  intros Ho sp msg ln E. unfold nextIdentLikeToken in *. cbv zeta in *.
  destruct (nextName_spec l (proj2 Ho)) as (l1 & t1 & E1 & M1 & _). pose proof (on_moves _ _ _ _ Ho (proj1 M1)) as O1. rewrite E1 in E. cbn [bind] in E.
  pose proof (contentSlice_moves _ _ _ (proj2 Ho) (proj1 M1)) as C1. rewrite C1 in E. cbn [bind] in E. set (l2 := setStr l1 t1) in *. assert (O2 : on l2) by exact O1.
  destruct (isURLString t1 && (l_ch l2 =? 40)) eqn:Eu; [|destruct (_ =? 40); discriminate E].
  pose proof Eu as Eu0. apply andb_true_iff in Eu as [_ C]. apply Z.eqb_eq in C. assert (N : l_ch l2 <> -1) by lia. pose proof (step_moves _ (proj2 O2) N) as M3. pose proof (on_moves _ _ _ _ O2 M3) as O3.
  destruct (urlSkipWs_spec (lfuel (step l2)) (l_lastPos (step l2)) _ (proj2 O3) (lfuel_rest _)) as (l4 & t4 & E4 & M4 & _). pose proof (on_moves _ _ _ _ O3 (proj1 M4)) as O4. rewrite E4 in E. cbn [bind] in E.
  destruct (_ || _) eqn:Eq; [discriminate E|]. destruct (url_stop _ _ (lfuel (sw (setCur l4 URL))) _ (O4 : on (setCur l4 URL)) _ _ _ E) as [P Q]. cbn [l_lastPos setCur] in P.
  pose proof (moves_last _ _ _ (proj1 M1)) as P1. pose proof (moves_last _ _ _ M3) as P3. pose proof (moves_last _ _ _ (proj1 M4)) as P4. change (l_lastPos l2) with (l_lastPos l1) in P3. split; [lia|]. intros Nk. specialize (Q Nk).
  assert (L4 : early l4) by (apply (near _ (sp_end sp)); auto). pose proof (early_moves k c c' Hk Hk' _ _ _ (proj1 M4) L4) as L3. pose proof (early_moves k c c' Hk Hk' _ _ _ M3 L3) as L2.
  eapply lef_step; [eapply (name_sw k c c' Hk Hk' Hc); [exact Ho|exact E1|exact L2]|].
  pose proof (slice_sw k c c' Hk Hk' Hc l1 _ _ t1 O1 L2 (lastPos_le k c c' Hk Hk' _ (proj2 O1)) C1) as Z1.
  change (contentSlice (sw l1) (l_lastPos (sw l)) (l_lastPos (sw l1))) with (contentSlice (sw l1) (l_lastPos l) (l_lastPos l1)). rewrite Z1. cbn [bind]. change (setStr (sw l1) t1) with (sw l2).
  change (l_ch (sw l2)) with (l_ch l2). rewrite Eu0. rewrite (step_sw k c c' Hk Hk' Hc) by auto. change (l_lastPos (sw (step l2))) with (l_lastPos (step l2)).
  eapply lef_step; [eapply (urlSkip_sw k c c' Hk Hk' Hc); [exact O3|apply le_n|apply lfuel_rest|exact E4|exact L4]|]. change (l_ch (sw l4)) with (l_ch l4). rewrite Eq. exact Q.
Qed.
Lemma nextLoop_stop f : forall f' l0, on l0 -> (length (rest l0) < f)%nat -> stops l0 (nextLoop f l0) (lef (nextLoop f' (sw l0))).
Proof.
  induction f as [|f IH]; intros f' l0 Ho0 Hf; [lia|].
  enough (G : forall f', stops l0 (nextLoop (S f) l0) (fun x => early l0 -> lef (nextLoop (S f') (sw l0)) x)).
  { intros sp msg ln E. destruct (G (pred f') _ _ _ E) as [P Q]. split; [exact P|]. intros Nk. destruct f' as [|f']; [left; reflexivity|]. apply Q; [exact Nk|]. eapply near; eauto. }
  clear f'. intros f'. cbn [nextLoop]. cbv zeta. change (setStart (sw l0) (l_lastPos (sw l0))) with (sw (setStart l0 (l_lastPos l0))). set (l := setStart l0 (l_lastPos l0)).
  assert (Ho : on l) by exact Ho0. change (l_ch (sw l)) with (l_ch l).
  assert (Ks : forall (r : res lexer) R, stops l r R -> stops l0 r (fun x => early l0 -> R x)). { intros r R H sp msg ln E. destruct (H _ _ _ E) as [P Q]. split; [exact P|]. auto. }
  destruct (Z.eqb_spec (l_ch l) (-1)) as [N|N]; [apply stops_no, noLex_ok|].
  destruct (_ =? 59); [apply stops_no, noLex_single|]. destruct (_ =? 58); [apply stops_no, noLex_single|].
  destruct (_ =? 43). { destruct (startsNumber _ _ _); apply stops_no; [apply noLex_numeric|apply noLex_delim]. }
  destruct (_ =? 45). { destruct (startsNumber _ _ _) eqn:E1; [apply stops_no, noLex_numeric|]. destruct (_ && _) eqn:E2; [apply stops_no, noLex_ok|]. destruct (startsIdentifier _ _ _) eqn:E3; [|apply stops_no, noLex_delim].
    intros sp msg ln E. destruct (identlike_stop l Ho _ _ _ E) as [P Q]. split; [exact P|]. intros Nk Le. rewrite !(peek_sw k c c' Hk Hk' Hc) by (auto; lia). rewrite E1, E2, E3. auto. }
  destruct (_ =? 60). { destruct (_ && _); apply stops_no; [apply noLex_ok|apply noLex_delim]. }
  destruct (_ =? 64). { destruct (startsIdentifier _ _ _); apply stops_no; [apply noLex_sigil|apply noLex_delim]. }
  destruct (_ =? 35). { destruct (_ || _); apply stops_no; [apply noLex_sigil|apply noLex_delim]. }
  destruct (_ =? 44); [apply stops_no, noLex_single|]. destruct (_ =? 40); [apply stops_no, noLex_single|]. destruct (_ =? 41); [apply stops_no, noLex_single|].
  destruct (_ =? 91); [apply stops_no, noLex_single|]. destruct (_ =? 93); [apply stops_no, noLex_single|]. destruct (_ =? 123); [apply stops_no, noLex_single|]. destruct (_ =? 125); [apply stops_no, noLex_single|].
  destruct (_ =? 46). { destruct (startsNumber _ _ _); apply stops_no; [apply noLex_numeric|apply noLex_delim]. }
  destruct (_ =? 92).
  { destruct (negb _) eqn:E1.
    - intros sp msg ln E. split; [unfold errorf in E; injection E as <- _ _; cbn; lia|]. intros Nk Le. rewrite !(peek_sw k c c' Hk Hk' Hc) by (auto; lia). rewrite E1, <- E. apply lef_refl.
    - intros sp msg ln E. destruct (identlike_stop l Ho _ _ _ E) as [P Q]. split; [exact P|]. intros Nk Le. rewrite !(peek_sw k c c' Hk Hk' Hc) by (auto; lia). rewrite E1. auto. }
  destruct (Z.eqb_spec (l_ch l) 47) as [C47|_].
  { destruct (Z.eqb_spec (peek l 0) 42) as [P0|P0]; cbn [negb]; [|apply stops_no, noLex_delim].
    pose proof (on_moves _ _ _ _ Ho (step_moves _ (proj2 Ho) N)) as Oa. assert (Na : l_ch (step l) <> -1). { rewrite (peek0_step _ (proj2 Ho) N); rewrite P0; discriminate. }
    pose proof (on_moves _ _ _ _ Oa (step_moves _ (proj2 Oa) Na)) as Ob. pose proof (moves_last _ _ _ (step_moves _ (proj2 Ho) N)) as Qa. pose proof (moves_last _ _ _ (step_moves _ (proj2 Oa) Na)) as Qb.
    change (l_lastPos l) with (l_lastPos l0) in Qa.
    pose proof (comment_spec l (proj2 Ho) C47 P0) as Cs.
    destruct (commentLoop (lfuel (step (step l))) (step (step l))) as [[e l2]|p y|] eqn:E2; cbn [bind]; [| |intros ? ? ? E; discriminate E].
    - destruct Cs as (body & t & Mt & _ & Nt & Cs). rewrite Cs. cbn [bind]. set (l4 := setStr (setCur l2 Comment) body) in *. pose proof (on_moves _ _ _ _ Ho (proj1 Mt)) as O2. assert (O4 : on l4) by exact O2.
      assert (Hf4 : (length (rest l4) < f)%nat). { pose proof (moves_len _ _ _ (proj1 Mt)) as Q. change (rest l) with (rest l0) in Q. change (rest l4) with (rest l2). destruct t; [contradiction|]. cbn [length] in Q. lia. }
      destruct (negb (l_rcom l4)) eqn:Er; [|apply stops_no, noLex_ok]. intros sp msg ln E. destruct (IH f' l4 O4 Hf4 _ _ _ E) as [P Q]. pose proof (moves_last _ _ _ (proj1 Mt)) as Q4. change (l_lastPos l) with (l_lastPos l0) in Q4. change (l_lastPos l4) with (l_lastPos l2) in P.
      split; [lia|]. intros Nk Le. assert (L2 : early l2) by (apply (near _ (sp_end sp)); auto). rewrite !(peek_sw k c c' Hk Hk' Hc) by (auto; lia). rewrite P0. cbn [Z.eqb Pos.eqb negb].
      pose proof (comment_pos k c c' Hk Hk' _ _ _ _ E2) as Pc. pose proof (step_pos k c c' Hk Hk' (step l)) as Ps. assert (La : early (step l)) by (unfold LaterLex.early in *; lia). rewrite !(step_sw k c c' Hk Hk' Hc) by auto.
      destruct (comment_sw k c c' Hk Hk' Hc _ (lfuel (sw (step (step l)))) _ Ob _ _ E2 L2) as [Le2 S2].
      eapply lef_step; [exact S2|]. cbn beta iota. change (setCur (sw l2) Comment) with (sw (setCur l2 Comment)).
      match goal with |- lef (bind ?x _) _ => replace x with (Ok body) by (symmetry; exact (slice_sw k c c' Hk Hk' Hc (setCur l2 Comment) _ _ body O2 L2 Le2 Cs)) end. cbn [bind].
      change (setStr (sw (setCur l2 Comment)) body) with (sw l4). change (l_rcom (sw l4)) with (l_rcom l4). rewrite Er. apply Q, Nk.
    - intros sp msg ln E. injection E as -> ->. destruct (comment_stop _ (lfuel (sw (step (step l)))) _ Ob _ _ _ E2) as [P Q]. split; [lia|]. intros Nk Le. rewrite !(peek_sw k c c' Hk Hk' Hc) by (auto; lia). rewrite P0. cbn [Z.eqb Pos.eqb negb].
      assert (La : early (step l)) by (apply (near _ (sp_end sp)); auto; lia). rewrite !(step_sw k c c' Hk Hk' Hc) by auto. apply lef_panic. apply Q, Nk. }
  destruct (_ || _).
  { pose proof (on_moves _ _ _ _ Ho (step_moves _ (proj2 Ho) N)) as O1. pose proof (moves_last _ _ _ (step_moves _ (proj2 Ho) N)) as Q1. change (l_lastPos l) with (l_lastPos l0) in Q1.
    destruct (stringLoop (lfuel (step l)) (l_ch l) (step l)) as [[e l2]|p y|] eqn:E2; cbn [bind]; [| |intros ? ? ? E; discriminate E].
    - apply stops_no, noLex_bind; [apply noLex_slice|]. intros s. apply noLex_ok.
    - intros sp msg ln E. injection E as -> ->. destruct (string_stop _ _ (lfuel (sw (step l))) _ O1 _ _ _ E2) as [P Q]. split; [lia|]. intros Nk Le. rewrite !(step_sw k c c' Hk Hk' Hc) by auto. apply lef_panic. apply Q, Nk. }
  destruct (isWhitespace (l_ch l)) eqn:Ws.
  { pose proof (step_movesF _ (proj2 Ho) N) as S1. pose proof (on_moves _ _ _ _ Ho (proj1 S1)) as O1. change (l_rws (sw l)) with (l_rws l). destruct (negb _).
    - pose proof (moves_last _ _ _ (proj1 S1)) as Q1. change (l_lastPos l) with (l_lastPos l0) in Q1. intros sp msg ln E. assert (Hf1 : (length (rest (step l)) < f)%nat).
      { pose proof (moves_len _ _ _ (proj1 S1)) as Q. change (rest l) with (rest l0) in Q. pose proof (unitOf_pos _ (proj2 Ho) N) as Up. unfold unitOf in Up. change (rest l) with (rest l0) in Up. lia. }
      destruct (IH f' _ O1 Hf1 _ _ _ E) as [P Q]. split; [lia|]. intros Nk Le. rewrite (step_sw k c c' Hk Hk' Hc) by auto. apply Q, Nk.
    - apply stops_no, noLex_bind; [apply noLex_while|]. intros l2. apply noLex_ok. }
  destruct (isDigit _); [apply stops_no, noLex_numeric|]. destruct (isNameStartCodePoint _); [|apply stops_no, noLex_delim].
  apply Ks. apply identlike_stop; exact Ho.
Qed.
Lemma next_stop l : on l -> stops l (next l) (fun x => next (sw l) = x).
Proof.
  intros Ho sp msg ln E. destruct (nextLoop_stop _ (lfuel (sw l)) _ Ho (lfuel_rest l) _ _ _ E) as [P Q]. split; [exact P|]. intros Nk. destruct (Q Nk) as [T|T]; [|exact T].
  exfalso. pose proof (nextLoop_spec (lfuel (sw l)) (sw l)) as S. rewrite T in S. apply S; [|apply lfuel_rest]. apply (cwf_sw k c c' Hk Hk' Hc); auto. eapply near; eauto.
Qed.
End Two.
