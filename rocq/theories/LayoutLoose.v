(** The tokens of a file with white space or comments added where the next
    character ends every token. *)
From Verif Require Import Bytes Utf8 Source Lexer BytesFacts LexSpec LexFacts LexNext LexStream ReadSpec LexStreamSpec LexGrammar LexCut JoinSpec JoinLex JoinTokens LayoutSpec LayoutLex LayoutSwap LayoutTokens.

(** * Cutting before a low byte *)
Definition low (t : bytes) : Prop := exists b r, t = b :: r /\ bz b < 128.
Definition uncut (s : bytes) : Prop := forall s0 b, s = s0 ++ [b] -> b <> CR.
Lemma decode_low s t : s <> [] -> low t -> decodeRune (s ++ t) = decodeRune s.
Proof.
  intros N (z & t' & -> & L).
  assert (NC : isCont (bz z) = false) by (unfold isCont; destruct (Z.leb_spec 128 (bz z)); [lia|reflexivity]).
  assert (LO : forall b, (if b =? 224 then 160 else if b =? 240 then 144 else 128) <=? bz z = false).
  { intros b. destruct (b =? 224), (b =? 240); apply Z.leb_gt; lia. }
  destruct s as [|c0 [|c1 [|c2 [|c3 s0]]]]; [contradiction|..]; cbn [app].
  - destruct t' as [|d1 [|d2 t']]; cbn [decodeRune]; rewrite ?NC, ?LO; cbn [andb negb];
    destruct (bz c0 <? 128), ((bz c0 <? 194) || (244 <? bz c0)), (bz c0 <? 224), (bz c0 <? 240); reflexivity.
  - destruct t' as [|d1 t']; cbn [decodeRune]; rewrite ?NC; cbn [negb];
    destruct (bz c0 <? 128), ((bz c0 <? 194) || (244 <? bz c0)), (bz c0 <? 224); try reflexivity;
    repeat match goal with |- context [if negb ?x then _ else _] => destruct x; try reflexivity end; destruct (bz c0 <? 240); reflexivity.
  - cbn [decodeRune]. rewrite NC. cbn [negb].
    destruct (bz c0 <? 128), ((bz c0 <? 194) || (244 <? bz c0)), (bz c0 <? 224); try reflexivity;
    repeat match goal with |- context [if negb ?x then _ else _] => destruct x end; destruct (bz c0 <? 240); reflexivity.
  - reflexivity.
Qed.
Lemma uncut_skipn n s : uncut s -> uncut (skipn n s).
Proof. intros H s0 b E. apply (H (firstn n s ++ s0)). rewrite <- app_assoc, <- E, firstn_skipn. reflexivity. Qed.
Lemma cuts_onto s cs : cuts s cs -> uncut s -> forall t ds, low t -> cuts t ds -> cuts (s ++ t) (cs ++ ds).
Proof.
  induction 1 as [|s c n cs Hs E Nc H IH|s c n cs E H IH]; intros C t ds Lt D; [exact D| |].
  - pose proof (JoinLex.decode_width _ _ _ E Hs) as W. cbn [app].
    replace (firstn n s) with (firstn n (s ++ t)) by (rewrite firstn_app; replace (n - length s)%nat with 0%nat by lia; cbn; apply app_nil_r).
    apply cutPlain; auto; [destruct s; [contradiction|discriminate]|rewrite decode_low; auto|].
    rewrite skipn_app. replace (n - length s)%nat with 0%nat by lia. cbn [skipn]. apply IH; auto. apply uncut_skipn; auto.
  - destruct s as [|b s]; [destruct (C [] CR); reflexivity|].
    pose proof (JoinLex.decode_width _ _ _ E) as W. specialize (W ltac:(discriminate)). apply (uncut_skipn 1) in C. cbn [skipn] in C.
    set (s' := b :: s) in *. change ((CR :: s') ++ t) with (CR :: (s' ++ t)). cbn [app].
    replace (firstn n s') with (firstn n (s' ++ t)) by (rewrite firstn_app; replace (n - length s')%nat with 0%nat by lia; cbn; apply app_nil_r).
    apply cutFold; [rewrite decode_low; auto; discriminate|].
    rewrite skipn_app. replace (n - length s')%nat with 0%nat by lia. cbn [skipn]. apply IH; auto. apply uncut_skipn; auto.
Qed.
Lemma cuts_back s cs : cuts s cs -> forall c, In c cs -> is "\" c -> exists q, snd c = q ++ ["\"%byte].
Proof.
  induction 1 as [|s c n cs Hs E Nc H IH|s c n cs E H IH]; intros d J Hd; [destruct J| |]; (destruct J as [<-|J]; [|eauto]);
    unfold is in Hd; cbn [fst snd] in *; subst c; (apply decodeRune_low in E as (b & s' & -> & Eb & ->); [|reflexivity]); apply bz_inj in Eb; subst b; cbn.
  - exists []. reflexivity.
  - exists [CR]. reflexivity.
Qed.

(** The last byte of a text, from the text of its last token. *)
Lemma last_in (s : bytes) i s0 b : s = s0 ++ [b] -> (i < length s)%nat -> In b (skipn i s).
Proof.
  intros -> L. rewrite app_length in L. cbn [length] in L. rewrite skipn_app. apply in_or_app. right.
  replace (i - length s0)%nat with 0%nat by lia. left. reflexivity.
Qed.
Lemma no_cr_uncut s i : (i < length s)%nat -> ~ In CR (skipn i s) -> uncut s.
Proof. intros L N s0 b E ->. apply N. eapply last_in; eauto. Qed.
Section WithUnicode.
Context {U : UnicodeDigits}.
Lemma no_back_solid s i : (i < length s)%nat -> ~ In "\"%byte (skipn i s) -> solid (chars s).
Proof.
  intros L N r1 c E Hc. pose proof (cuts_chars s) as C. destruct (cuts_back _ _ C c) as (q & Eq); [rewrite E; apply in_or_app; right; left; reflexivity|exact Hc|].
  apply N. apply last_in with (s0 := flat r1 ++ q); [|exact L]. rewrite <- (cuts_flat _ _ C), E, flat_app. unfold flat at 2. cbn [map concat]. rewrite Eq, app_nil_r, app_assoc. reflexivity.
Qed.
Variables u w v : bytes.
Hypothesis v_ne : v <> [].
Hypothesis w_blank : tokenized w [].
Hypothesis v_low : low v.
Hypothesis w_low : low (w ++ v).
Hypothesis v_quiet : exists c t, chars v = c :: t /\ quiet c.
Hypothesis w_gentle : exists c t, chars (w ++ v) = c :: t /\ gentle c.
Hypothesis u_uncut : uncut u.
Hypothesis u_solid : solid (chars u).
Let K : shift := spread (length u) (length w).
Lemma loose_split a e g t r : (a <= e <= length u)%nat -> cuts (skipn a (u ++ v)) (g ++ t ++ r) -> cuts (skipn e (u ++ v)) r ->
  r = chars (skipn e u) ++ chars v /\ chars (skipn a u) = g ++ t ++ chars (skipn e u).
Proof.
  intros L C1 C2. rewrite skipn_front in C1, C2 by lia.
  pose proof (cuts_onto _ _ (cuts_chars (skipn a u)) (uncut_skipn _ _ u_uncut) _ _ v_low (cuts_chars v)) as D1.
  pose proof (cuts_onto _ _ (cuts_chars (skipn e u)) (uncut_skipn _ _ u_uncut) _ _ v_low (cuts_chars v)) as D2.
  assert (R : r = chars (skipn e u) ++ chars v) by (rewrite (cuts_fun _ _ C2), <- (cuts_fun _ _ D2); reflexivity).
  split; [exact R|]. rewrite R in C1. apply (app_inv_tail (chars v)). rewrite (cuts_fun _ _ D1), <- (cuts_fun _ _ C1). rewrite !app_assoc. reflexivity.
Qed.
Lemma solid_suffix (a b : list char) : solid (a ++ b) -> solid b.
Proof. intros H r1 c ->. apply (H (a ++ r1)). apply app_assoc. Qed.
(** One token. *)
Lemma loose_token ws com a k p b e o : tokenAt (u ++ v) ws com a k p b e o -> (e <= length u)%nat -> (b < e)%nat ->
  solid (chars (skipn a u)) -> (e = length u -> k <> Whitespace /\ ~ In "\"%byte (skipn b u)) ->
  tokenAt (u ++ w ++ v) ws com a k p b e o /\ solid (chars (skipn e u)).
Proof.
  intros T Le Lb So Last. assert (La : (a <= length (u ++ v))%nat).
  { destruct T as (g & t & r & _ & _ & _ & _ & E1 & E2). rewrite app_length. lia. }
  destruct (token_rest _ _ _ _ _ _ _ _ _ T La) as (g & t & r & H1 & H2 & H3 & H4 & H5 & H6 & H7 & H8).
  destruct (loose_split a e g t r) as [R E]; [lia|exact H1|exact H7|].
  assert (Nt : t <> []) by (intros ->; cbn in H6; lia).
  assert (So' : solid (chars (skipn e u))) by (rewrite E, app_assoc in So; apply solid_suffix in So; exact So).
  split; [|exact So'].
  exists g, t, (chars (skipn e u) ++ chars (w ++ v)). rewrite skipn_front by lia.
  split; [|split; [|split; [|split; [exact H4|lia]]]].
  - rewrite (app4 g t). apply cuts_onto; [rewrite <- E; apply cuts_chars|apply uncut_skipn, u_uncut|exact w_low|apply cuts_chars].
  - rewrite R, app_assoc in H2. apply skips_less with (r := t ++ chars (skipn e u)) (z := chars v) in H2; [|reflexivity].
    rewrite app_assoc. apply skips_more. exact H2.
  - rewrite R in H3. destruct (Nat.eq_dec e (length u)) as [Ee|Ne].
    + destruct (Last Ee) as [Nw Nb].
      assert (Z : chars (skipn e u) = []) by (rewrite Ee, skipn_all; reflexivity). rewrite Z in *.
      apply (lexed_swap (chars v) (chars (w ++ v)) v_quiet w_gentle) in H3; auto; [rewrite app_nil_r; exact Nt|].
      right. split; [reflexivity|]. rewrite Forall_forall. intros c J Hc. apply Nb.
      pose proof (cuts_chars (skipn a u)) as C. rewrite E, app_nil_r in C. pose proof (cuts_flat _ _ C) as F. rewrite flat_app in F.
      assert (Fb : skipn b u = flat t).
      { rewrite H5, Nat.add_comm, <- skip_twice, <- F, <- (Nat.add_0_r (length (flat g))), skipn_back. reflexivity. }
      rewrite Fb. unfold flat. apply in_concat. exists (snd c). split; [apply in_map, J|].
      destruct (cuts_back _ _ C c) as (q & ->); [apply in_or_app; auto|exact Hc|]. apply in_or_app. right. left. reflexivity.
    + assert (Nr : chars (skipn e u) <> []).
      { intros Z. pose proof (flat_chars (skipn e u)) as F. rewrite Z in F. apply (f_equal (@length _)) in F. rewrite skipn_length in F. cbn in F. lia. }
      apply (lexed_swap (chars v) (chars (w ++ v)) v_quiet w_gentle) in H3; auto; [apply app_ne, Nr|left; auto].
Qed.
Lemma scanned_loose x ts2 : upto x = length u -> k_tok x <> Whitespace -> ~ In "\"%byte (skipn (from x) u) ->
  match ts2 with y :: _ => k_kept y = false /\ (carriesStr (k_tok y) = true \/ ~ heeded (k_tok x) (k_str y)) | [] => True end ->
  forall ts0 a s n, scanned (u ++ v) a s n (ts0 ++ x :: ts2) -> (a <= length u)%nat -> solid (chars (skipn a u)) ->
  exists ts2', scanned (u ++ w ++ v) a s n (ts0 ++ x :: ts2') /\ mvs K (ts0 ++ x :: ts2) (ts0 ++ x :: ts2').
Proof.
  intros Ux Nw Nb Kp. induction ts0 as [|y ts0 IH]; intros a s n H La So; cbn [app] in H;
  assert (La' : (a <= length (u ++ v))%nat) by (rewrite app_length; lia); pose proof (scanned_long _ _ _ _ _ H La') as Lg; pose proof (scanned_ordered _ _ _ _ _ H La') as Or;
  inversion Or as [|? ? (O1 & O2 & O3) Or']; subst; inversion Lg as [|? ? L1 Lg']; subst;
  inversion H as [|? ? ? ? ? p o T Hs Hn H']; subst.
  - assert (NE : k_tok x <> EOF).
    { intros X. specialize (O3 X). rewrite Ux, app_length in O3. destruct v; [contradiction|cbn [length] in O3; lia]. }
    specialize (L1 NE). destruct (loose_token _ _ _ _ _ _ _ _ T ltac:(lia) L1 So ltac:(auto)) as [T' _].
    assert (H'0 := H'). rewrite Ux in H'0.
    destruct (scanned_at u w v v_ne w_blank _ _ _ H'0) as (ts2' & S1 & M & Sh); [destruct ts2; tauto|]. exists ts2'. cbn [app]. split.
    + eapply scTok with (p := p) (o := o); auto. rewrite Ux. exact S1.
    + constructor; auto; [apply mv_same; lia|]. apply Sh. destruct ts2; tauto.
  - assert (Lx : (upto y <= from x)%nat /\ (from x < upto x)%nat).
    { destruct (scanned_before _ _ _ _ _ _ _ H' O2) as [_ Bx]. split; [exact Bx|]. apply Forall_app in Lg' as [_ Lg']. inversion Lg' as [|? ? L2 _]; subst. apply L2.
      intros X. apply Forall_app in Or' as [_ Or']. inversion Or' as [|? ? (_ & _ & O4) _]; subst. specialize (O4 X). rewrite Ux, app_length in O4.
      destruct v; [contradiction|cbn [length] in O4; lia]. }
    assert (NE : k_tok y <> EOF).
    { intros X. specialize (O3 X). rewrite app_length in O3. lia. }
    specialize (L1 NE). destruct (loose_token _ _ _ _ _ _ _ _ T ltac:(lia) L1 So ltac:(lia)) as [T' So'].
    destruct (IH _ _ _ H' ltac:(lia) So') as (ts2' & S1 & M). exists ts2'. cbn [app]. split.
    + eapply scTok with (p := p) (o := o); auto.
    + constructor; auto; [apply mv_same; lia|]. destruct ts0; intros _; reflexivity.
Qed.
Lemma tokenized_loose ts0 x ts2 : tokenized (u ++ v) (ts0 ++ x :: ts2) -> upto x = length u -> k_tok x <> Whitespace -> ~ In "\"%byte (skipn (from x) u) ->
  match ts2 with y :: _ => k_kept y = false /\ (carriesStr (k_tok y) = true \/ ~ heeded (k_tok x) (k_str y)) | [] => True end ->
  exists ts2', tokenized (u ++ w ++ v) (ts0 ++ x :: ts2') /\ mvs K (ts0 ++ x :: ts2) (ts0 ++ x :: ts2').
Proof.
  intros [H Hk] Ux Nw Nb Kp. destruct (scanned_loose _ _ Ux Nw Nb Kp _ _ _ _ H ltac:(lia) u_solid) as (ts2' & S1 & M).
  exists ts2'. split; [|exact M]. split; [exact S1|]. destruct ts0; exact Hk.
Qed.
End WithUnicode.
