(** The tokens of a file with white space or comments added after a punctuation
    mark. *)
From Verif Require Import Bytes Utf8 Source Lexer BytesFacts LexSpec LexFacts LexNext LexStream ReadSpec LexStreamSpec LexGrammar LexCut JoinSpec JoinLex JoinTokens LayoutLex.

Section WithUnicode.
Context {U : UnicodeDigits}.

(** * The order of tokens *)
Lemma scanned_ordered c a s n ts : scanned c a s n ts -> (a <= length c)%nat ->
  Forall (fun x => (a <= from x <= upto x)%nat /\ (upto x <= length c)%nat /\ (k_tok x = EOF -> upto x = length c)) ts.
Proof.
  induction 1 as [a s n b e o T|a s n x ts p o T Hs Hn H IH]; intros La; [constructor|].
  destruct (token_rest _ _ _ _ _ _ _ _ _ T La) as (g & t & r & H1 & H2 & H3 & H4 & H5 & H6 & H7 & H8).
  constructor; [|eapply Forall_impl; [|exact (IH H8)]; cbn; intros y Hy; intuition lia].
  split; [lia|]. split; [lia|]. intros E. rewrite E in H3. destruct (eof_lexed _ _ _ H3) as [-> ->].
  pose proof (cuts_flat _ _ H7) as F. change (flat []) with (@nil byte) in F. apply (f_equal (@length _)) in F. rewrite skipn_length in F. cbn [length] in F. lia.
Qed.
Lemma scanned_before c ts0 x ts2 : forall a s n, scanned c a s n (ts0 ++ x :: ts2) -> (a <= length c)%nat ->
  Forall (fun y => (from y <= upto y)%nat /\ (upto y <= from x)%nat) ts0 /\ (a <= from x)%nat.
Proof.
  induction ts0 as [|y ts0 IH]; intros a s n H La; pose proof (scanned_ordered _ _ _ _ _ H La) as F; cbn [app] in *; inversion F as [|? ? (O1 & O2 & _) F']; subst.
  - split; [constructor|lia].
  - inversion H as [|? ? ? ? ? p o T Hs Hn H']; subst. destruct (IH _ _ _ H' O2) as [G L]. split; [constructor; [lia|exact G]|lia].
Qed.
Lemma scanned_here c ts0 x ts2 : forall a s n, scanned c a s n (ts0 ++ x :: ts2) -> (a <= length c)%nat ->
  exists a' s' n', scanned c a' s' n' (x :: ts2) /\ (a <= a' <= length c)%nat.
Proof.
  induction ts0 as [|y ts0 IH]; intros a s n H La; cbn [app] in *; [exists a, s, n; split; [exact H|lia]|].
  pose proof (scanned_ordered _ _ _ _ _ H La) as F. inversion F as [|? ? (O1 & O2 & _) F']; subst.
  inversion H as [|? ? ? ? ? p o T Hs Hn H']; subst. destruct (IH _ _ _ H' O2) as (a' & s' & n' & S1 & L). exists a', s', n'. split; [exact S1|lia].
Qed.

Lemma firstn_mid {A} (a b : list A) : firstn (length a) (a ++ b) = a.
Proof. rewrite firstn_app, firstn_all, Nat.sub_diag. cbn. apply app_nil_r. Qed.
Lemma skipn_front {A} n (a b : list A) : (n <= length a)%nat -> skipn n (a ++ b) = skipn n a ++ b.
Proof. intros H. rewrite skipn_app. replace (n - length a)%nat with 0%nat by lia. reflexivity. Qed.
Lemma skipn_back {A} n (a b : list A) : skipn (length a + n) (a ++ b) = skipn n b.
Proof. rewrite skipn_app, skipn_all2 by lia. replace (length a + n - length a)%nat with n by lia. reflexivity. Qed.

Lemma app4 {A} (a b c d : list A) : a ++ b ++ c ++ d = (a ++ b ++ c) ++ d.
Proof. rewrite !app_assoc. reflexivity. Qed.

(** * Adding [w] between [u] and [v] *)
Variables u w v : bytes.
Hypothesis v_ne : v <> [].
Hypothesis w_blank : tokenized w [].
Let K : shift := spread (length u) (length w).
Lemma spread_low_from x : (from x < length u)%nat -> sh_from K (from x) = from x.
Proof. intros H. cbn [K spread sh_from]. destruct (Nat.ltb_spec (from x) (length u)); [reflexivity|lia]. Qed.
Lemma spread_low_upto x : (upto x <= length u)%nat -> sh_upto K (upto x) = upto x.
Proof. intros H. cbn [K spread sh_upto]. destruct (Nat.leb_spec (upto x) (length u)); [reflexivity|lia]. Qed.
Lemma spread_high_from x : (length u <= from x)%nat -> sh_from K (from x) = (length w + from x)%nat.
Proof. intros H. cbn [K spread sh_from]. destruct (Nat.ltb_spec (from x) (length u)); [lia|reflexivity]. Qed.
Lemma spread_high_upto x : (length u < upto x)%nat -> sh_upto K (upto x) = (length w + upto x)%nat.
Proof. intros H. cbn [K spread sh_upto]. destruct (Nat.leb_spec (upto x) (length u)); [lia|reflexivity]. Qed.
Lemma spread_max a b : sh_upto K (Nat.max a b) = Nat.max (sh_upto K a) (sh_upto K b).
Proof. cbn [K spread sh_upto]. destruct (Nat.leb_spec (Nat.max a b) (length u)), (Nat.leb_spec a (length u)), (Nat.leb_spec b (length u)); lia. Qed.

Lemma tokenAt_tail ws com a k p b e o : (length u <= a)%nat -> tokenAt (u ++ v) ws com a k p b e o ->
  tokenAt (u ++ w ++ v) ws com (length w + a) k p (length w + b) (length w + e) o.
Proof.
  intros La (g & t & r & H1 & H2 & H3 & H4 & H5 & H6). exists g, t, r. split; [|split; [auto|split; [auto|split; [auto|split; lia]]]].
  replace a with (length u + (a - length u))%nat in H1 by lia. rewrite skipn_back in H1.
  replace (length w + a)%nat with (length u + (length w + (a - length u)))%nat by lia. rewrite !skipn_back. exact H1.
Qed.
(** A token that starts after [u] ends after it. *)
Definition beyond (x : tk) : Prop := (length u <= from x)%nat /\ (length u < upto x)%nat.
Lemma scanned_beyond a s n ts : scanned (u ++ v) a s n ts -> (length u <= a <= length (u ++ v))%nat -> Forall beyond ts.
Proof.
  intros H [L1 L2]. pose proof (scanned_ordered _ _ _ _ _ H L2) as F1. pose proof (scanned_long _ _ _ _ _ H L2) as F2.
  rewrite Forall_forall in *. intros x Hx. destruct (F1 _ Hx) as (O1 & O2 & O3). specialize (F2 _ Hx). unfold beyond.
  assert (D : k_tok x = EOF \/ k_tok x <> EOF) by (destruct (k_tok x); (left; reflexivity) || (right; discriminate)).
  destruct D as [D|D]; [|specialize (F2 D); lia]. specialize (O3 D). rewrite app_length in O3. destruct v; [contradiction|cbn [length] in O3; lia].
Qed.
Definition tailTk (x : tk) (s n : bytes) : tk := mkTk (k_tok x) s n (mkSpan (length w + from x) (length w + upto x)) (k_kept x).
Lemma tail_mv x s n : beyond x -> (carriesStr (k_tok x) = true -> s = k_str x) -> (carriesNum (k_tok x) = true -> n = k_num x) -> mv K x (tailTk x s n).
Proof.
  intros [B1 B2] Hs Hn. constructor; cbn [tailTk k_tok k_kept k_sp k_str k_num]; auto; [|lia].
  rewrite spread_high_from, spread_high_upto by auto. reflexivity.
Qed.
Lemma scanned_tail a s n ts : scanned (u ++ v) a s n ts -> (length u <= a)%nat -> Forall beyond ts -> forall s' n',
  exists ts', scanned (u ++ w ++ v) (length w + a) s' n' ts' /\ mvs K ts ts' /\ (s = s' -> forall k, sameHead k ts ts').
Proof.
  induction 1 as [a s n b e o T|a s n x ts p o T Hs Hn H IH]; intros La F s' n'.
  - exists []. split; [|split; [constructor|intros _ k0; exact Logic.I]]. eapply scEnd. apply tokenAt_tail; [exact La|exact T].
  - inversion F as [|? ? Fx F']; subst.
    set (y := tailTk x (strAfter p (heard o s')) (numAfter p n')).
    destruct (IH ltac:(destruct Fx; lia) F' (k_str y) (k_num y)) as (ts' & S1 & M & Hh). exists (y :: ts').
    assert (T' := tokenAt_tail _ _ _ _ _ _ _ _ La T).
    destruct T as (g & t & r & _ & _ & L & _).
    assert (St : carriesStr (k_tok x) = true -> k_str y = k_str x) by (intros C; rewrite Hs; apply (lexed_str _ _ _ _ L C)).
    split; [|split].
    + eapply scTok with (p := p) (o := o); auto.
    + constructor; auto; [apply tail_mv; auto|].
      * intros C. rewrite Hn. apply (lexed_num _ _ _ _ L C).
      * apply sameHead_if. intros C. apply Hh. symmetry. auto.
    + intros <- k0 _. symmetry. exact Hs.
Qed.

(** The token after [u]. *)
Lemma w_cut : exists g o, cuts w g /\ skips false false g [] o /\ clean w.
Proof.
  destruct w_blank as [H _]. inversion H as [a s n b e o T|]; subst.
  destruct T as (g & t & r & C & Sk & L & _). destruct (eof_lexed _ _ _ L) as [-> ->]. cbn [app skipn] in C, Sk. rewrite app_nil_r in C.
  exists g, o. split; [exact C|]. split; [exact Sk|]. destruct (skips_last _ _ _ _ _ Sk) as [->|(g0 & c & -> & D1 & D2)].
  - left. symmetry. exact (cuts_flat _ _ C).
  - eapply cuts_clean; eauto.
Qed.
Lemma scanned_at s n ts : scanned (u ++ v) (length u) s n ts -> match ts with x :: _ => k_kept x = false | [] => True end ->
  exists ts', scanned (u ++ w ++ v) (length u) s n ts' /\ mvs K ts ts' /\
    forall k, match ts with x :: _ => carriesStr (k_tok x) = true \/ ~ heeded k (k_str x) | [] => True end -> sameHead k ts ts'.
Proof.
  intros H Kp. destruct w_cut as (g & o & C & Sk & Cl).
  assert (Lc : (length u <= length u <= length (u ++ v))%nat) by (rewrite app_length; lia).
  pose proof (scanned_beyond _ _ _ _ H Lc) as F.
  assert (C' : forall ds, cuts v ds -> cuts (skipn (length u) (u ++ w ++ v)) (g ++ ds)).
  { intros ds D. rewrite <- (Nat.add_0_r (length u)), skipn_back. cbn [skipn]. apply cuts_more; auto. }
  assert (Lw : length (flat g) = length w) by (rewrite (cuts_flat _ _ C); reflexivity).
  assert (V : skipn (length u) (u ++ v) = v) by (rewrite <- (Nat.add_0_r (length u)), skipn_back; reflexivity).
  inversion H as [a0 s0 n0 b0 e0 o0 T0|a0 s0 n0 x ts0 p0 o0 T0 Hs0 Hn0 H']; subst.
  - destruct T0 as (g' & t' & r' & C0 & K' & L' & D' & _). rewrite V in C0. exists []. split; [|split; [constructor|intros k0 _; exact I]].
    eapply scEnd. exists (g ++ g'), t', r'. rewrite <- app_assoc. split; [apply C'; exact C0|]. split; [apply skips_join with (1 := Sk) (2 := K')|]. auto.
  - inversion F as [|? ? Fx F']; subst.
    destruct T0 as (g' & t' & r' & C0 & K' & L' & D' & E1 & E2). rewrite V in C0. rewrite Kp in *.
    set (o' := match o0 with Some b => Some b | None => o end) in *.
    set (y := tailTk x (strAfter p0 (heard o' s)) (numAfter p0 n)).
    destruct (scanned_tail _ _ _ _ H' ltac:(destruct Fx; lia) F' (k_str y) (k_num y)) as (ts' & S1 & M & Hh). exists (y :: ts').
    assert (St : carriesStr (k_tok x) = true -> k_str y = k_str x) by (intros X; rewrite Hs0; apply (lexed_str _ _ _ _ L' X)).
    split; [|split].
    + eapply scTok with (p := p0) (o := o'); auto.
      change (k_kept y) with (k_kept x). rewrite Kp. exists (g ++ g'), t', r'. rewrite <- app_assoc. split; [apply C'; exact C0|].
      split; [apply skips_join with (1 := Sk) (2 := K')|]. split; [exact L'|]. split; [exact D'|].
      unfold from, upto in *. cbn [y tailTk k_sp sp_start sp_end]. unfold from, upto. rewrite flat_app, app_length. lia.
    + constructor; auto; [apply tail_mv; auto|].
      apply sameHead_if. intros X. apply Hh. symmetry. auto.
    + intros k0 [D|D] J; [apply St, D|contradiction].
Qed.

(** The tokens of [u]. *)
Lemma front_split a e g t r : clean u -> (a <= e <= length u)%nat -> cuts (skipn a (u ++ v)) (g ++ t ++ r) -> cuts (skipn e (u ++ v)) r ->
  r = chars (skipn e u) ++ chars v /\ chars (skipn a u) = g ++ t ++ chars (skipn e u).
Proof.
  intros Cl L C1 C2. rewrite skipn_front in C1, C2 by lia.
  pose proof (cuts_more _ _ (cuts_chars (skipn a u)) (clean_skipn _ _ Cl) _ _ (cuts_chars v)) as D1.
  pose proof (cuts_more _ _ (cuts_chars (skipn e u)) (clean_skipn _ _ Cl) _ _ (cuts_chars v)) as D2.
  assert (R : r = chars (skipn e u) ++ chars v) by (rewrite (cuts_fun _ _ C2), <- (cuts_fun _ _ D2); reflexivity).
  split; [exact R|]. rewrite R in C1. apply (app_inv_tail (chars v)). rewrite (cuts_fun _ _ D1), <- (cuts_fun _ _ C1). rewrite !app_assoc. reflexivity.
Qed.
Lemma front_sealed x ts2 : stopTok x -> upto x = length u -> clean u -> forall ts0 a s n,
  scanned (u ++ v) a s n (ts0 ++ x :: ts2) -> (a <= length u)%nat -> sealed (chars (skipn a u)).
Proof.
  intros Sx Ux Cl. induction ts0 as [|y ts0 IH]; intros a s n H La; cbn [app] in H;
  assert (La' : (a <= length (u ++ v))%nat) by (rewrite app_length; lia);
  inversion H as [|? ? ? ? ? p o T Hs Hn H']; subst;
  destruct (token_rest _ _ _ _ _ _ _ _ _ T La') as (g & t & r & H1 & H2 & H3 & H4 & H5 & H6 & H7 & H8).
  - destruct (front_split a (upto x) g t r Cl) as [_ E]; [lia|exact H1|exact H7|].
    destruct (stop_lexed _ _ _ _ H3 Sx) as (c & -> & S0 & _). rewrite E. apply sealed_app. left. exact S0.
  - destruct (scanned_before _ _ _ _ _ _ _ H' H8) as [_ B].
    assert (Fx : (from x <= upto x)%nat).
    { pose proof (scanned_ordered _ _ _ _ _ H' H8) as F. apply Forall_app in F as [_ F]. inversion F; subst. lia. }
    destruct (front_split a (upto y) g t r Cl) as [_ E]; [lia|exact H1|exact H7|].
    rewrite E. apply sealed_app, sealed_app. eapply IH; [exact H'|lia].
Qed.
Lemma mv_same x : (from x < length u)%nat -> (0 < upto x <= length u)%nat -> mv K x x.
Proof.
  intros H1 H2. constructor; auto; [|intros _; lia]. rewrite spread_low_from, spread_low_upto by lia.
  unfold from, upto. destruct (k_sp x). reflexivity.
Qed.
Lemma scanned_spread x ts2 : stopTok x -> upto x = length u -> clean u -> match ts2 with y :: _ => k_kept y = false | [] => True end ->
  forall ts0 a s n, scanned (u ++ v) a s n (ts0 ++ x :: ts2) -> (a <= length u)%nat ->
  exists ts2', scanned (u ++ w ++ v) a s n (ts0 ++ x :: ts2') /\ mvs K (ts0 ++ x :: ts2) (ts0 ++ x :: ts2').
Proof.
  intros Sx Ux Cl Kp. induction ts0 as [|y ts0 IH]; intros a s n H La; cbn [app] in H;
  assert (La' : (a <= length (u ++ v))%nat) by (rewrite app_length; lia);
  inversion H as [|? ? ? ? ? p o T Hs Hn H']; subst;
  destruct (token_rest _ _ _ _ _ _ _ _ _ T La') as (g & t & r & H1 & H2 & H3 & H4 & H5 & H6 & H7 & H8).
  - destruct (front_split a (upto x) g t r Cl) as [R E]; [lia|exact H1|exact H7|].
    destruct (stop_lexed _ _ _ _ H3 Sx) as (c & Et & S0 & Z1 & Z2 & Ep & Cs & Ne & Lx).
    assert (Lt : (from x < upto x)%nat).
    { pose proof (scanned_long _ _ _ _ _ H La') as F. inversion F; subst; auto. }
    assert (H'0 := H'). rewrite Ux in H'0. destruct (scanned_at _ _ _ H'0 Kp) as (ts2' & S1 & M & _). exists ts2'. cbn [app]. split.
    + eapply scTok with (p := p) (o := o); auto; [|rewrite Ux; exact S1].
      exists g, t, (chars (skipn (upto x) u) ++ chars (w ++ v)). rewrite skipn_front by lia.
      split; [|split; [|split; [apply Lx|split; [exact H4|lia]]]].
      * rewrite (app4 g t). apply cuts_more; [rewrite <- E; apply cuts_chars|apply clean_skipn, Cl|apply cuts_chars].
      * rewrite R, app_assoc in H2. apply skips_less with (r := t ++ chars (skipn (upto x) u)) (z := chars v) in H2; [|reflexivity].
        rewrite app_assoc. apply skips_more. exact H2.
    + constructor; auto; [apply mv_same; lia|]. apply sameHead_if. intros X. congruence.
  - destruct (scanned_before _ _ _ _ _ _ _ H' H8) as [_ B].
    assert (Fx : (from x < upto x)%nat).
    { pose proof (scanned_long _ _ _ _ _ H' H8) as F. apply Forall_app in F as [_ F]. inversion F as [|? ? F1 F2]; subst. apply F1.
      destruct Sx as [b Sx]. intros X. rewrite X in Sx. cbn in Sx. intuition congruence. }
    destruct (front_split a (upto y) g t r Cl) as [R E]; [lia|exact H1|exact H7|].
    assert (Se := front_sealed _ _ Sx Ux Cl _ _ _ _ H' ltac:(lia)).
    destruct (IH _ _ _ H' ltac:(lia)) as (ts2' & S1 & M). exists ts2'. cbn [app]. split.
    + eapply scTok with (p := p) (o := o); auto.
      exists g, t, (chars (skipn (upto y) u) ++ chars (w ++ v)). rewrite skipn_front by lia.
      split; [|split; [|split; [|split; [exact H4|lia]]]].
      * rewrite (app4 g t). apply cuts_more; [rewrite <- E; apply cuts_chars|apply clean_skipn, Cl|apply cuts_chars].
      * rewrite R, app_assoc in H2. apply skips_less with (r := t ++ chars (skipn (upto y) u)) (z := chars v) in H2; [|reflexivity].
        rewrite app_assoc. apply skips_more. exact H2.
      * apply lexed_more; [|exact Se]. rewrite R in H3. apply lexed_less in H3; [exact H3|exact Se].
    + constructor; auto; [apply mv_same; [lia|]|].
      * split; [|lia]. pose proof (scanned_long _ _ _ _ _ H La') as F. inversion F as [|? ? F1 F2]; subst.
        destruct (k_tok y) eqn:Ey; try (specialize (F1 ltac:(discriminate)); lia).
        pose proof (scanned_ordered _ _ _ _ _ H La') as G. inversion G as [|? ? (_ & _ & G1) _]; subst. specialize (G1 Ey).
        rewrite G1, app_length. destruct v; [contradiction|cbn [length]; lia].
      * destruct ts0; intros _; reflexivity.
Qed.
Lemma stop_clean ts0 x ts2 a0 s0 n0 : stopTok x -> upto x = length u -> scanned (u ++ v) a0 s0 n0 (ts0 ++ x :: ts2) -> (a0 <= length (u ++ v))%nat -> clean u.
Proof.
  intros Sx Ux H La0.
  destruct (scanned_here _ _ _ _ _ _ _ H La0) as (a & s & n & H' & La). inversion H' as [|? ? ? ? ? p o T Hs Hn H'']; subst.
    destruct (token_rest _ _ _ _ _ _ _ _ _ T ltac:(lia)) as (g & t & r & H1 & H2 & H3 & H4 & H5 & H6 & H7 & H8).
    destruct (stop_lexed _ _ _ _ H3 Sx) as (c & -> & S0 & Z1 & Z2 & _).
    destruct (cuts_low _ _ H1 c) as (q & z & E & L' & N'); auto; [apply in_or_app; right; left; reflexivity|].
    assert (Fu : u = (firstn a (u ++ v) ++ flat g ++ q) ++ [z]).
    { pose proof (cuts_flat _ _ H1) as F. rewrite !flat_app in F. change (flat [c]) with (snd c ++ []) in F. rewrite app_nil_r, E in F.
      assert (Lf : length u = length (firstn a (u ++ v) ++ flat g ++ q ++ [z])).
      { rewrite !app_length, firstn_length. change (flat [c]) with (snd c ++ []) in H6. rewrite app_nil_r, E, app_length in H6. cbn [length] in *. lia. }
      assert (Eq : u ++ v = (firstn a (u ++ v) ++ flat g ++ q ++ [z]) ++ flat r).
      { rewrite <- (firstn_skipn a (u ++ v)) at 1. rewrite <- F. rewrite <- !app_assoc. reflexivity. }
      set (front := firstn a (u ++ v)) in *. rewrite <- (firstn_mid u v) at 1. rewrite Eq, Lf, firstn_mid. rewrite <- !app_assoc. reflexivity. }
    right. eexists _, z. split; [exact Fu|auto].
Qed.
Lemma tokenized_spread ts0 x ts2 : tokenized (u ++ v) (ts0 ++ x :: ts2) -> stopTok x -> upto x = length u ->
  match ts2 with y :: _ => k_kept y = false | [] => True end ->
  exists ts2', tokenized (u ++ w ++ v) (ts0 ++ x :: ts2') /\ mvs K (ts0 ++ x :: ts2) (ts0 ++ x :: ts2').
Proof.
  intros [H Hk] Sx Ux Kp.
  pose proof (stop_clean _ _ _ _ _ _ Sx Ux H ltac:(lia)) as Cl.
  destruct (scanned_spread _ _ Sx Ux Cl Kp _ _ _ _ H ltac:(lia)) as (ts2' & S1 & M). exists ts2'. split; [|exact M].
  split; [exact S1|]. destruct ts0; exact Hk.
Qed.
Lemma tokenized_front ts : u = [] -> tokenized (u ++ v) ts -> exists ts', tokenized (u ++ w ++ v) ts' /\ mvs K ts ts'.
Proof.
  intros E [H Hk]. assert (Z : length u = 0%nat) by (rewrite E; reflexivity). rewrite <- Z in H.
  destruct (scanned_at [] [] ts H Hk) as (ts' & S1 & M & _). rewrite Z in S1. exists ts'. split; [|exact M]. split; [exact S1|].
  destruct M as [|x y ts ts' [_ E'] _ _]; [exact I|]. congruence.
Qed.
End WithUnicode.
