(** The tokens of two files in a row. *)
From Verif Require Import Bytes Utf8 Source Lexer BytesFacts LexSpec LexFacts LexNext LexStream ReadSpec LexStreamSpec LexGrammar LexCut JoinSpec JoinLex.

Section WithUnicode.
Context {U : UnicodeDigits}.

Definition carriesStr (k : token) : bool :=
  match k with Ident | At | Hash | TString | URL | Delim | FunctionStart | Dimension | Comment => true | _ => false end.
Definition carriesNum (k : token) : bool := match k with Number | Percentage | Dimension => true | _ => false end.
Lemma single_kind l k : opens l (FSingle k) -> exists b c r, l = c :: r /\ In (b, k) singles /\ is b c.
Proof. intros H. inversion H; subst. eauto 7. Qed.
Ltac single E := exfalso; match goal with H : opens _ (FSingle ?k) |- _ => apply single_kind in H as (? & ? & ? & ? & H & ?); cbn in H;
  repeat (destruct H as [H|H]; [injection H as <- <-; discriminate E|]); destruct H end.
Lemma lexed_str t r k p : lexed t r k p -> carriesStr k = true -> forall s s', strAfter p s = strAfter p s'.
Proof. destruct 1; cbn; try discriminate; auto; intros E; single E. Qed.
Lemma lexed_num t r k p : lexed t r k p -> carriesNum k = true -> forall s s', numAfter p s = numAfter p s'.
Proof. destruct 1; cbn; try discriminate; auto; intros E; single E. Qed.

(** The same token elsewhere; a token that carries no string or numeral
    may show another one. *)
Record mv (k : shift) (x y : tk) : Prop := mkMv {
  mv_tok : k_tok y = k_tok x;
  mv_kept : k_kept y = k_kept x;
  mv_sp : k_sp y = mkSpan (sh_from k (from x)) (sh_upto k (upto x));
  mv_str : carriesStr (k_tok x) = true -> k_str y = k_str x;
  mv_num : carriesNum (k_tok x) = true -> k_num y = k_num x;
  mv_end : k_tok x <> EOF -> (0 < upto x)%nat }.
(** Strings that are looked at after a token of kind [k], whatever the kind of
    the token they belong to. *)
Definition heeded (k : token) (s : bytes) : Prop :=
  (k = Delim /\ saysImportant s) \/ (k = Ident /\ In s [B "^"; B "~"; B "$"; B "*"; B "|"]).
Definition sameHead (k : token) (ts ts' : list tk) : Prop :=
  match ts, ts' with x :: _, y :: _ => heeded k (k_str x) -> k_str y = k_str x | _, _ => True end.
Lemma sameHead_if k ts ts' : (carriesStr k = true -> sameHead k ts ts') -> sameHead k ts ts'.
Proof. intros H. destruct k; try (apply H; reflexivity); destruct ts, ts'; try exact I; intros [[X _]|[X _]]; discriminate X. Qed.
Lemma sameHead_same k ts : sameHead k ts ts.
Proof. destruct ts; [exact I|intros _; reflexivity]. Qed.
Inductive mvs (k : shift) : list tk -> list tk -> Prop :=
| mvsNil : mvs k [] []
| mvsCons x y ts ts' : mv k x y -> sameHead (k_tok x) ts ts' -> mvs k ts ts' -> mvs k (x :: ts) (y :: ts').

(** * Tokens of no length *)
Lemma flat_app a b : flat (a ++ b) = flat a ++ flat b.
Proof. unfold flat. rewrite map_app. apply concat_app. Qed.
Lemma skip_twice {A} n m (l : list A) : skipn n (skipn m l) = skipn (n + m) l.
Proof. revert l. induction m as [|m IH]; intros l; [rewrite Nat.add_0_r; reflexivity|]. rewrite Nat.add_succ_r. destruct l; cbn [skipn]; [destruct n; reflexivity|apply IH]. Qed.
Lemma token_rest content ws com a k p b e o : tokenAt content ws com a k p b e o -> (a <= length content)%nat ->
  exists g t r, cuts (skipn a content) (g ++ t ++ r) /\ skips ws com g (t ++ r) o /\ lexed t r k p /\ delivered ws com k /\
    b = (a + length (flat g))%nat /\ e = (b + length (flat t))%nat /\ cuts (skipn e content) r /\ (e <= length content)%nat.
Proof.
  intros (g & t & r & H1 & H2 & H3 & H4 & H5 & H6) L. exists g, t, r. do 6 (split; [assumption|]).
  pose proof (cuts_flat _ _ H1) as F. rewrite !flat_app in F.
  assert (E : skipn e content = flat r).
  { replace e with (length (flat g) + length (flat t) + a)%nat by lia. rewrite <- skip_twice, <- F.
    rewrite app_assoc, skipn_app, skipn_all2 by (rewrite app_length; lia).
    replace (length (flat g) + length (flat t) - length (flat g ++ flat t))%nat with 0%nat by (rewrite app_length; lia). reflexivity. }
  split.
  - rewrite E. rewrite app_assoc in H1. apply (cuts_rest _ _ _ H1).
  - apply (f_equal (@length _)) in F. rewrite !app_length, skipn_length in F. lia.
Qed.
Lemma stuck_for_ever content a s n ts : scanned content a s n ts -> (a <= length content)%nat -> forall r k p, cuts (skipn a content) r ->
  lexed [] r k p -> k <> EOF -> k <> Whitespace -> k <> Comment -> False.
Proof.
  assert (X : forall a r k p ws, cuts (skipn a content) r -> lexed [] r k p -> k <> Whitespace -> k <> Comment -> tokenAt content ws false a k p a a None).
  { clear. intros a r k p ws C L N1 N2. exists [], [], r. cbn. split; [exact C|]. split; [constructor|]. split; [exact L|]. split; [split; intros ->; congruence|]. lia. }
  induction 1 as [a s n b e o T|a s n x ts p o T Hs Hn H IH]; intros La r k p' C Lx N N1 N2.
  - destruct (tokenAt_fun _ _ _ _ _ _ _ _ _ _ _ _ _ _ T (X _ _ _ _ _ C Lx N1 N2)) as (E & _). congruence.
  - destruct (tokenAt_fun _ _ _ _ _ _ _ _ _ _ _ _ _ _ T (X _ _ _ _ _ C Lx N1 N2)) as (E & E1 & E2 & E3 & _).
    rewrite E3 in IH. eapply IH; eauto.
Qed.
Lemma kinds_long k t r p : lexed t r k p -> t = [] -> k <> Whitespace /\ k <> Comment.
Proof.
  destruct 1; intros E; split; try discriminate; try (destruct t; discriminate E); 
    try (match goal with H : opens _ (FSingle ?k) |- _ => apply single_kind in H as (? & ? & ? & ? & H & ?); intros ->; cbn in H; intuition congruence end).
Qed.
Lemma cuts_width s c cs : cuts s (c :: cs) -> snd c <> [].
Proof.
  intros H. inversion H as [|s' c' n cs' Hs E Nc H'|s' c' n cs' E H']; subst; cbn [snd]; [|discriminate].
  destruct (decode_width _ _ _ E Hs) as [W1 W2]. destruct n, s; try (cbn in *; lia); discriminate.
Qed.
Lemma scanned_long content a s n ts : scanned content a s n ts -> (a <= length content)%nat ->
  Forall (fun x => k_tok x <> EOF -> (from x < upto x)%nat) ts.
Proof.
  induction 1 as [a s n b e o T|a s n x ts p o T Hs Hn H IH]; intros La; [constructor|].
  destruct (token_rest _ _ _ _ _ _ _ _ _ T La) as (g & t & r & H1 & H2 & H3 & H4 & H5 & H6 & H7 & H8).
  constructor; [|apply IH; exact H8]. intros N.
  destruct t as [|c t].
  - exfalso. destruct (kinds_long _ _ _ _ H3 eq_refl). eapply stuck_for_ever; eauto.
  - rewrite H6. unfold flat. cbn [map concat]. rewrite app_length.
    assert (snd c <> []).
    { apply cuts_rest in H1. eapply cuts_width, H1. }
    destruct (snd c); [contradiction|cbn; lia].
Qed.
Lemma scanned_real content a s n ts : scanned content a s n ts -> (a <= length content)%nat ->
  Forall (fun x => k_tok x <> CDO /\ k_tok x <> CDC) ts.
Proof.
  induction 1 as [a s n b e o T|a s n x ts p o T Hs Hn H IH]; intros La; [constructor|].
  destruct (token_rest _ _ _ _ _ _ _ _ _ T La) as (g & t & r & H1 & H2 & H3 & H4 & H5 & H6 & H7 & H8).
  constructor; [|apply IH; exact H8].
  split; intros E; rewrite E in H3; inversion H3; subst;
    try (match goal with H : opens _ (FSingle ?k) |- _ => apply single_kind in H as (? & ? & ? & ? & H & ?); cbn in H; intuition congruence end);
    eapply stuck_for_ever; eauto; discriminate.
Qed.

(** * The second file *)
Lemma tokenAt_move A B ws com a k p b e o : tokenAt B ws com a k p b e o ->
  tokenAt (A ++ B) ws com (length A + a) k p (length A + b) (length A + e) o.
Proof.
  intros (g & t & r & H1 & H2 & H3 & H4 & H5 & H6). exists g, t, r. split; [|split; [auto|split; [auto|split; [auto|split; lia]]]].
  rewrite skipn_app, skipn_all2 by lia. replace (length A + a - length A)%nat with a by lia. exact H1.
Qed.
Definition movedTk (k : nat) (x : tk) (s n : bytes) : tk := mkTk (k_tok x) s n (mkSpan (k + from x) (k + upto x)) (k_kept x).
Lemma scanned_move A B a s n ts : scanned B a s n ts -> Forall (fun x => k_tok x <> EOF -> (from x < upto x)%nat) ts -> forall s' n',
  exists ts', scanned (A ++ B) (length A + a) s' n' ts' /\ mvs (later (length A)) ts ts' /\ (s = s' -> forall k, sameHead k ts ts').
Proof.
  induction 1 as [a s n b e o T|a s n x ts p o T Hs Hn H IH]; intros F s' n'.
  - exists []. split; [|split; [constructor|intros _ k0; exact I]]. eapply scEnd. apply tokenAt_move. exact T.
  - inversion F as [|? ? Fx F']; subst.
    set (y := movedTk (length A) x (strAfter p (heard o s')) (numAfter p n')).
    destruct (IH F' (k_str y) (k_num y)) as (ts' & S1 & M & Hh). exists (y :: ts').
    assert (T' := tokenAt_move A _ _ _ _ _ _ _ _ _ T).
    destruct T as (g & t & r & _ & _ & L & _).
    assert (St : carriesStr (k_tok x) = true -> k_str y = k_str x) by (intros C; rewrite Hs; apply (lexed_str _ _ _ _ L C)).
    split; [|split].
    + eapply scTok with (p := p) (o := o); auto.
    + constructor; auto; [constructor; auto|].
      * intros C. rewrite Hn. apply (lexed_num _ _ _ _ L C).
      * intros N. specialize (Fx N). lia.
      * apply sameHead_if. intros C. apply Hh. symmetry. auto.
    + intros <- k0 _. symmetry. exact Hs.
Qed.

(** * Both *)
Lemma eof_lexed t r p : lexed t r EOF p -> t = [] /\ r = [].
Proof.
  intros H. remember EOF as k eqn:E. destruct H; try discriminate; auto.
  exfalso. apply single_kind in H as (? & ? & ? & ? & I & ?). subst k. cbn in I. intuition congruence.
Qed.
Lemma skips_join g o : skips false false g [] o -> forall g' r o', skips false false g' r o' ->
  skips false false (g ++ g') r (match o' with Some b => Some b | None => o end).
Proof.
  remember [] as e eqn:Ee. induction 1 as [r|c t r o H1 H2 H IH|c b t r o H1 H2 H IH]; intros g' r' o' K; subst; cbn [app].
  - destruct o'; exact K.
  - apply spBlank; auto.
  - rewrite <- app_assoc. replace (match o' with Some b0 => Some b0 | None => Some (match o with Some b' => b' | None => b end) end)
      with (Some (match (match o' with Some b0 => Some b0 | None => o end) with Some b' => b' | None => b end)) by (destruct o'; reflexivity).
    apply spComment; auto. apply (comment_more (g' ++ r')) in H2. rewrite <- !app_assoc in *. exact H2.
Qed.
(** The token is a punctuation mark. *)
Definition stopTok (x : tk) : Prop := exists b, In (b, k_tok x) singles.
Inductive ends : list tk -> Prop :=
| endsNil : ends []
| endsOne x : stopTok x -> ends [x]
| endsMore x ts : ts <> [] -> ends ts -> ends (x :: ts).
Lemma stop_lexed t r k p : lexed t r k p -> (exists b, In (b, k) singles) ->
  exists c, t = [c] /\ stop c /\ fst c < 128 /\ fst c <> 13 /\ p = PlNone /\ carriesStr k = false /\ k <> EOF /\ (forall r', lexed t r' k p).
Proof.
  intros L [b0 K]. assert (X : carriesStr k = false /\ k <> EOF).
  { cbn in K. repeat (destruct K as [K|K]; [injection K as <- <-; split; [reflexivity|discriminate]|]). destruct K. }
  assert (Y : forall k', k = k' -> match k' with Semicolon | Colon | Comma | LParen | RParen | LBracket | RBracket | LCurly | RCurly => True | _ => False end).
  { intros k' <-. cbn in K. repeat (destruct K as [K|K]; [injection K as <- <-; exact I|]). destruct K. }
  destruct L; try (exfalso; exact (Y _ eq_refl)).
  exists c. split; [reflexivity|]. pose proof (single_kind _ _ H) as (b & c' & r' & E & Hin & Hc). injection E as <- <-.
  assert (S0 : stop c) by (apply stop_single; eauto). split; [exact S0|].
  assert (Z0 : fst c < 128 /\ fst c <> 13).
  { unfold is in Hc. rewrite Hc. cbn in Hin. repeat (destruct Hin as [Hin|Hin]; [injection Hin as <- <-; vm_compute; split; congruence|]). destruct Hin. }
  destruct Z0, X. repeat (split; [assumption || reflexivity|]).
  intros z. apply lxSingle. eapply opSingle; eauto.
Qed.
Lemma scanned_sealed A a s n ts : scanned A a s n ts -> (a <= length A)%nat -> ends ts -> ts <> [] -> forall cs, cuts (skipn a A) cs -> sealed cs.
Proof.
  induction 1 as [a s n b e o T|a s n x ts p o T Hs Hn H IH]; intros La E N cs C; [contradiction|].
  destruct (token_rest _ _ _ _ _ _ _ _ _ T La) as (g & t & r & H1 & H2 & H3 & H4 & H5 & H6 & H7 & H8).
  rewrite (cuts_fun _ _ C), <- (cuts_fun _ _ H1). inversion E as [|? K|? ? N' K]; subst.
  - destruct (stop_lexed _ _ _ _ H3 K) as (c & -> & S0 & _). apply sealed_app. left. exact S0.
  - apply sealed_app, sealed_app. eapply IH; eauto.
Qed.
Lemma skips_last ws com g r o : skips ws com g r o -> g = [] \/ exists g0 c, g = g0 ++ [c] /\ fst c < 128 /\ fst c <> 13.
Proof.
  induction 1 as [r|c t r o H1 H2 H IH|c b t r o H1 H2 H IH]; [auto| |]; right.
  - destruct IH as [->|(g0 & d & -> & D)]; [exists [], c; split; [reflexivity|]|exists (c :: g0), d; auto].
    destruct H2 as [K|[K|K]]; unfold is in K; rewrite K; vm_compute; split; congruence.
  - destruct IH as [->|(g0 & d & -> & D)]; [|exists (c ++ g0), d; rewrite app_assoc; auto].
    rewrite app_nil_r. inversion H2 as [|c0 r0 k0 Ho| |c0 d0 b0 x y r0 Ho Hx Hy Hb| | | | | | | | | | | | |]; subst.
    + exists (c0 :: d0 :: b0 ++ [x]), y. split; [cbn [app]; rewrite <- app_assoc; reflexivity|].
      unfold is in Hy. rewrite Hy. vm_compute. split; congruence.
Qed.
Lemma clean_front u s : clean s -> s <> [] -> clean (u ++ s).
Proof. intros [->|(s0 & z & -> & H)] N; [contradiction|]. right. exists (u ++ s0), z. rewrite app_assoc. auto. Qed.
Lemma scanned_clean A a s n ts : scanned A a s n ts -> (a <= length A)%nat -> ends ts -> clean (skipn a A).
Proof.
  induction 1 as [a s n b e o T|a s n x ts p o T Hs Hn H IH]; intros La E;
  destruct (token_rest _ _ _ _ _ _ _ _ _ T La) as (g & t & r & H1 & H2 & H3 & H4 & H5 & H6 & H7 & H8).
  - destruct (eof_lexed _ _ _ H3) as [-> ->].
    cbn [app] in H1, H2. rewrite app_nil_r in H1. destruct (skips_last _ _ _ _ _ H2) as [->|(g0 & c & -> & D1 & D2)].
    + left. symmetry. exact (cuts_flat _ _ H1).
    + eapply cuts_clean; eauto.
  - pose proof (cuts_flat _ _ H1) as F. pose proof (cuts_flat _ _ H7) as F7.
    rewrite !flat_app, F7, app_assoc in F.
    destruct (skipn (upto x) A) as [|b' s'] eqn:Es.
    + assert (r = []) as -> by (rewrite (cuts_fun _ _ H7); reflexivity).
      inversion E as [|? K|? ? N' K]; subst.
      * destruct (stop_lexed _ _ _ _ H3 K) as (c & -> & _ & Z1 & Z2 & _). cbn [app] in H1. exact (cuts_clean _ _ _ H1 Z1 Z2).
      * exfalso. assert (X : sealed []) by (eapply scanned_sealed; eauto; rewrite Es; constructor). inversion X.
    + rewrite <- F. apply clean_front; [|discriminate]. apply IH; auto.
      inversion E; subst; [constructor|assumption].
Qed.

Lemma scanned_join A B tsB : clean A -> scanned B 0 [] [] tsB -> match tsB with x :: _ => k_kept x = false | [] => True end ->
  forall a s n ts, scanned A a s n ts -> (a <= length A)%nat -> ends ts ->
  exists ts', scanned (A ++ B) a s n (ts ++ ts') /\ mvs (later (length A)) tsB ts'.
Proof.
  intros CA SB KB. induction 1 as [a s n b e o T|a s n x ts p o T Hs Hn H IH]; intros La E;
  destruct (token_rest _ _ _ _ _ _ _ _ _ T La) as (g & t & r & H1 & H2 & H3 & H4 & H5 & H6 & H7 & H8).
  - destruct (eof_lexed _ _ _ H3) as [-> ->].
    cbn [app] in H1, H2. rewrite app_nil_r in H1.
    assert (Lg : (a + length (flat g))%nat = length A).
    { pose proof (cuts_flat _ _ H1) as F. rewrite F, skipn_length. lia. }
    assert (C : forall ds, cuts B ds -> cuts (skipn a (A ++ B)) (g ++ ds)).
    { intros ds D. rewrite skipn_app. replace (a - length A)%nat with 0%nat by lia. cbn [skipn]. apply cuts_more; auto. apply clean_skipn; auto. }
    cbn [app].
    assert (FB := scanned_long _ _ _ _ _ SB ltac:(lia)).
    inversion SB as [a0 s0 n0 b0 e0 o0 T0|a0 s0 n0 x ts p0 o0 T0 Hs0 Hn0 SB']; subst.
    + destruct T0 as (g' & t' & r' & C' & K' & L' & D' & _). exists []. split; [|constructor]. cbn [skipn] in C'.
      eapply scEnd. exists (g ++ g'), t', r'. rewrite <- app_assoc. split; [apply C; exact C'|]. split; [apply skips_join with (1 := H2) (2 := K')|]. auto.
    + inversion FB as [|? ? Fx F']; subst.
      destruct T0 as (g' & t' & r' & C' & K' & L' & D' & E1 & E2). cbn [skipn] in C'. rewrite KB in *.
      set (o' := match o0 with Some b => Some b | None => o end) in *.
      set (y := movedTk (length A) x (strAfter p0 (heard o' s)) (numAfter p0 n)).
      destruct (scanned_move A B _ _ _ _ SB' F' (k_str y) (k_num y)) as (ts' & S1 & M & Hh). exists (y :: ts').
      assert (St : carriesStr (k_tok x) = true -> k_str y = k_str x) by (intros K; rewrite Hs0; apply (lexed_str _ _ _ _ L' K)).
      split.
      * eapply scTok with (p := p0) (o := o'); auto.
        change (k_kept y) with (k_kept x). rewrite KB. exists (g ++ g'), t', r'. rewrite <- app_assoc. split; [apply C; exact C'|].
        split; [apply skips_join with (1 := H2) (2 := K')|]. split; [exact L'|]. split; [exact D'|].
        unfold from, upto in *. cbn [y movedTk k_sp sp_start sp_end]. unfold from, upto. rewrite flat_app, app_length. lia.
      * constructor; auto; [constructor; auto|].
        -- intros K. rewrite Hn0. apply (lexed_num _ _ _ _ L' K).
        -- intros N. specialize (Fx N). lia.
        -- apply sameHead_if. intros K. apply Hh. symmetry. auto.
  - destruct (IH H8) as (ts' & S1 & M); [inversion E; subst; [constructor|assumption]|].
    exists ts'. split; [|exact M]. cbn [app]. eapply scTok with (p := p) (o := o); auto.
    exists g, t, (r ++ chars B). rewrite skipn_app. replace (a - length A)%nat with 0%nat by lia. cbn [skipn].
    split; [|split; [|split; [|split; [exact H4|lia]]]].
    + rewrite !app_assoc. apply cuts_more; [rewrite <- app_assoc; exact H1|apply clean_skipn; exact CA|apply cuts_chars].
    + apply (skips_more (chars B)) in H2. rewrite <- app_assoc in H2. exact H2.
    + inversion E as [|? K|? ? N' K]; subst.
      * destruct (stop_lexed _ _ _ _ H3 K) as (c & _ & _ & _ & _ & _ & _ & _ & X). apply X.
      * apply lexed_more; [exact H3|]. apply (scanned_sealed A (upto x) (k_str x) (k_num x) ts); auto.
Qed.
Lemma tokenized_join A B tsA tsB : tokenized A tsA -> tokenized B tsB -> ends tsA ->
  exists ts', tokenized (A ++ B) (tsA ++ ts') /\ mvs (later (length A)) tsB ts'.
Proof.
  intros [SA KA] [SB KB] E. pose proof (scanned_clean _ _ _ _ _ SA ltac:(lia) E) as C. cbn [skipn] in C.
  destruct (scanned_join A B tsB C SB KB _ _ _ _ SA ltac:(lia) E) as (ts' & S1 & M). exists ts'. split; [|exact M].
  split; [exact S1|]. destruct tsA; [|exact KA]. cbn [app]. destruct M as [|x y ts ts' [K1 K2] _ _]; [exact I|]. congruence.
Qed.
End WithUnicode.
