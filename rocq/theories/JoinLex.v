(** What follows a file does not change its tokens, if the last of them is a
    punctuation mark. *)
From Verif Require Import Bytes Utf8 Source Lexer BytesFacts LexSpec LexFacts LexNext ReadSpec LexStreamSpec LexGrammar LexCut.

(** * Cutting two files in a row *)
(** The last byte is a character of its own. *)
Definition clean (s : bytes) : Prop := s = [] \/ exists s0 z, s = s0 ++ [z] /\ bz z < 128 /\ bz z <> 13.
Lemma clean_skipn n s : clean s -> clean (skipn n s).
Proof.
  intros [->|(s0 & z & -> & L & N)]; [left; destruct n; reflexivity|].
  rewrite skipn_app. destruct (n - length s0)%nat as [|m] eqn:E; [right; exists (skipn n s0), z; auto|].
  left. rewrite skipn_all2 by lia. destruct m; reflexivity.
Qed.
Lemma clean_cons b s : clean (b :: s) -> clean s.
Proof. apply (clean_skipn 1). Qed.
Lemma decode_more s t : s <> [] -> clean s -> decodeRune (s ++ t) = decodeRune s.
Proof.
  intros N [->|(s0 & z & -> & L & N13)]; [contradiction|].
  assert (NC : isCont (bz z) = false) by (unfold isCont; destruct (Z.leb_spec 128 (bz z)); [lia|reflexivity]).
  assert (LO : forall b, (if b =? 224 then 160 else if b =? 240 then 144 else 128) <=? bz z = false).
  { intros b. destruct (b =? 224), (b =? 240); apply Z.leb_gt; lia. }
  destruct s0 as [|c0 [|c1 [|c2 [|c3 s0]]]]; cbn [app decodeRune].
  - destruct (Z.ltb_spec (bz z) 128); [reflexivity|lia].
  - rewrite NC, LO. cbn [andb negb].
    destruct (bz c0 <? 128), ((bz c0 <? 194) || (244 <? bz c0)), (bz c0 <? 224); reflexivity.
  - rewrite NC. cbn [negb].
    destruct (bz c0 <? 128), ((bz c0 <? 194) || (244 <? bz c0)), (bz c0 <? 224); try reflexivity;
    match goal with |- context [if negb ?x then _ else _] => destruct x end; reflexivity.
  - rewrite NC. cbn [negb].
    destruct (bz c0 <? 128), ((bz c0 <? 194) || (244 <? bz c0)), (bz c0 <? 224); try reflexivity;
    repeat match goal with |- context [if negb ?x then _ else _] => destruct x end; reflexivity.
  - reflexivity.
Qed.
Lemma decode_width s c n : decodeRune s = (c, n) -> s <> [] -> (1 <= n <= length s)%nat.
Proof.
  intros E N. destruct s as [|b s]; [contradiction|]. apply decodeRune_cons in E as (H & _). cbn [length]. lia.
Qed.
Lemma cuts_more s cs : cuts s cs -> clean s -> forall t ds, cuts t ds -> cuts (s ++ t) (cs ++ ds).
Proof.
  induction 1 as [|s c n cs Hs E Nc H IH|s c n cs E H IH]; intros C t ds D; [exact D| |].
  - pose proof (decode_width _ _ _ E Hs) as W. cbn [app].
    replace (firstn n s) with (firstn n (s ++ t)) by (rewrite firstn_app; replace (n - length s)%nat with 0%nat by lia; cbn; apply app_nil_r).
    apply cutPlain; auto; [destruct s; [contradiction|discriminate]|rewrite decode_more; auto|].
    rewrite skipn_app. replace (n - length s)%nat with 0%nat by lia. cbn [skipn]. apply IH; auto. apply clean_skipn; auto.
  - destruct s as [|b s].
    { exfalso. destruct C as [C|(s0 & z & C & L & N)]; [discriminate|]. destruct s0 as [|x [|y s0]]; try discriminate C.
      injection C as <-. apply N. reflexivity. }
    pose proof (decode_width _ _ _ E) as W. specialize (W ltac:(discriminate)). apply clean_cons in C.
    set (s' := b :: s) in *. change ((CR :: s') ++ t) with (CR :: (s' ++ t)). cbn [app].
    replace (firstn n s') with (firstn n (s' ++ t)) by (rewrite firstn_app; replace (n - length s')%nat with 0%nat by lia; cbn; apply app_nil_r).
    apply cutFold; [rewrite decode_more; auto; discriminate|].
    rewrite skipn_app. replace (n - length s')%nat with 0%nat by lia. cbn [skipn]. apply IH; auto. apply clean_skipn; auto.
Qed.
(** The rest of a cut is a cut of the rest. *)
Lemma cuts_flat s cs : cuts s cs -> flat cs = s.
Proof. intros H. rewrite (cuts_fun _ _ H). apply flat_chars. Qed.
Lemma cuts_rest cs : forall s ds, cuts s (cs ++ ds) -> cuts (flat ds) ds.
Proof.
  induction cs as [|c cs IH]; intros s ds H; cbn [app] in H; [rewrite (cuts_flat _ _ H); exact H|].
  inversion H; subst; eapply IH; eassumption.
Qed.
(** A low character ends in a low byte. *)
Lemma cuts_low s cs : cuts s cs -> forall c, In c cs -> fst c < 128 -> fst c <> 13 -> exists u z, snd c = u ++ [z] /\ bz z < 128 /\ bz z <> 13.
Proof.
  induction 1 as [|s c n cs Hs E Nc H IH|s c n cs E H IH]; intros d I L N; [destruct I| |]; (destruct I as [<-|I]; [|eauto]);
    cbn [fst snd] in *; apply decodeRune_low in E as (b & s' & -> & -> & ->); auto; cbn [firstn].
  - exists [], b. auto.
  - exists [CR], b. auto.
Qed.
Lemma cuts_clean s cs c : cuts s (cs ++ [c]) -> fst c < 128 -> fst c <> 13 -> clean s.
Proof.
  intros H L N. destruct (cuts_low _ _ H c) as (u & z & E & L' & N'); auto; [apply in_or_app; right; left; reflexivity|].
  right. exists (flat cs ++ u), z. rewrite <- (cuts_flat _ _ H). unfold flat. rewrite map_app, concat_app. cbn [map concat].
  rewrite E, app_nil_r, app_assoc. auto.
Qed.

(** * What is seen ahead *)
Section WithUnicode.
Context {U : UnicodeDigits}.

(** A punctuation mark is a token of its own. *)
Definition mark (x : Z) : bool := existsb (fun p => bz (fst p) =? x) singles.
Definition stop (c : char) : Prop := mark (fst c) = true.
(** A punctuation mark is yet to come. *)
Definition sealed (r : list char) : Prop := Exists stop r.
Lemma sealed_app a r : sealed r -> sealed (a ++ r).
Proof. intros H. apply Exists_app. auto. Qed.
Lemma sealed_cons c r : sealed r -> sealed (c :: r).
Proof. intros H. right. exact H. Qed.
Lemma sealed_tail c r : sealed (c :: r) -> ~ stop c -> sealed r.
Proof. intros H N. inversion H; subst; [contradiction|auto]. Qed.
Lemma sealed_ne r : sealed r -> r <> [].
Proof. intros H ->. inversion H. Qed.
Hint Resolve sealed_app sealed_cons sealed_ne : seal.


Lemma ns_is b c : is b c -> mark (bz b) = false -> ~ stop c.
Proof. unfold is, stop. intros -> ->. discriminate. Qed.
Lemma ns_sees b c : sees b c -> mark (bz b) = false -> ~ stop c.
Proof. intros [H _]. apply ns_is; auto. Qed.
Lemma stop_single c : stop c <-> exists b k, In (b, k) singles /\ is b c.
Proof.
  unfold stop, mark. rewrite existsb_exists. split.
  - intros ([b k] & I & E). apply Z.eqb_eq in E. exists b, k. split; [exact I|]. symmetry. exact E.
  - intros (b & k & I & E). exists (b, k). split; [exact I|]. apply Z.eqb_eq. symmetry. exact E.
Qed.
Lemma ns_digit c : digit c -> ~ stop c.
Proof.
  unfold digit. intros D H. apply stop_single in H as (b & k & I & H). unfold is in H. rewrite H in D. cbn in I.
  repeat (destruct I as [I|I]; [injection I as <- <-; vm_compute in D; discriminate|]). destruct I.
Qed.
Lemma ns_name c : nameChar c -> ~ stop c.
Proof.
  unfold nameChar, nameStart, within, is. intros D H. apply stop_single in H as (b & k & I & H). unfold is in H. rewrite H in D. cbn in I.
  repeat (destruct I as [I|I]; [injection I as <- <-; vm_compute in D; intuition congruence|]). destruct I.
Qed.
Lemma ns_sign c : sign c -> ~ stop c.
Proof. intros [H|H]; (eapply ns_is; [exact H|]); reflexivity. Qed.
Ltac ns := match goal with
  | H : is _ ?c |- ~ stop ?c => apply (ns_is _ _ H); reflexivity
  | H : sees _ ?c |- ~ stop ?c => apply (ns_sees _ _ H); reflexivity
  | H : sign ?c |- ~ stop ?c => apply (ns_sign _ H)
  | H : digit ?c |- ~ stop ?c => apply (ns_digit _ H)
  | H : nameChar ?c |- ~ stop ?c => apply (ns_name _ H)
  end.

Variable z : list char.
Lemma starts_more P r : r <> [] -> (starts P (r ++ z) <-> starts P r).
Proof. destruct r as [|c r]; [contradiction|]. intros _. cbn [app]. rewrite !starts_head. reflexivity. Qed.
Lemma starts_sealed P r : sealed r -> (starts P (r ++ z) <-> starts P r).
Proof. intros H. apply starts_more. apply sealed_ne, H. Qed.

Definition ahead (P : char -> Prop) (F : list char -> Prop) (r : list char) : Prop := exists c t, r = c :: t /\ P c /\ F t.
Lemma ahead_more (P : char -> Prop) F r : sealed r -> (forall c, P c -> ~ stop c) -> (forall t, sealed t -> (F (t ++ z) <-> F t)) ->
  (ahead P F (r ++ z) <-> ahead P F r).
Proof.
  intros H HP HF. destruct r as [|c r]; [destruct (sealed_ne _ H); reflexivity|]. cbn [app].
  split; intros (c' & t & E & Hc & Ht); injection E as <- <-.
  - exists c, r. repeat split; auto. apply HF; auto. apply (sealed_tail c); auto.
  - exists c, (r ++ z). repeat split; auto. apply HF; auto. apply (sealed_tail c); auto.
Qed.
Lemma ahead2 (P Q : char -> Prop) r : (exists p d t, r = p :: d :: t /\ P p /\ Q d) <-> ahead P (starts Q) r.
Proof.
  split.
  - intros (p & d & t & -> & Hp & Hd). exists p, (d :: t). repeat split; auto. exists d, t. auto.
  - intros (p & t & -> & Hp & (d & u & -> & Hd)). exists p, d, u. auto.
Qed.
Lemma two_more (P Q : char -> Prop) r : sealed r -> (forall c, P c -> ~ stop c) ->
  ((exists p d t, r ++ z = p :: d :: t /\ P p /\ Q d) <-> (exists p d t, r = p :: d :: t /\ P p /\ Q d)).
Proof. intros H HP. rewrite !ahead2. apply ahead_more; auto. intros t Ht. apply starts_sealed, Ht. Qed.

Lemma opensEscape_more r : sealed r -> (opensEscape (r ++ z) <-> opensEscape r).
Proof.
  intros H. apply (ahead_more (is "\") (fun t => ~ starts (sees LF) t)); auto; [intros c Hc; ns|].
  intros t Ht. rewrite starts_sealed by auto. reflexivity.
Qed.
Lemma seesEscape_more r : sealed r -> (seesEscape (r ++ z) <-> seesEscape r).
Proof. intros H. unfold seesEscape. rewrite opensEscape_more, starts_sealed by auto. reflexivity. Qed.
Lemma opensName_more r : sealed r -> (opensName (r ++ z) <-> opensName r).
Proof.
  intros H. destruct r as [|c r]; [destruct (sealed_ne _ H); reflexivity|]. cbn [app]. unfold opensName.
  assert (K : is "-" c -> sealed r) by (intros Hc; apply (sealed_tail c); auto; ns).
  split; intros (c' & t & E & D); injection E as <- <-; eexists _, _; (split; [reflexivity|]);
    (destruct D as [(D1 & D2)|D]; [left; split; [exact D1|]; specialize (K D1)|right; exact D]).
  - rewrite starts_sealed, seesEscape_more in D2 by auto. exact D2.
  - rewrite starts_sealed, seesEscape_more by auto. exact D2.
Qed.
Lemma seesName_more r : sealed r -> (seesName (r ++ z) <-> seesName r).
Proof. intros H. unfold seesName. rewrite opensName_more, starts_sealed by auto. reflexivity. Qed.
Lemma seesUnsigned_more r : sealed r -> (seesUnsigned (r ++ z) <-> seesUnsigned r).
Proof.
  intros H. unfold seesUnsigned. rewrite starts_sealed by auto. rewrite (two_more (sees ".") rawDigit) by (auto; intros c Hc; ns). reflexivity.
Qed.
Lemma seesNumber_more r : sealed r -> (seesNumber (r ++ z) <-> seesNumber r).
Proof.
  intros H. unfold seesNumber. rewrite seesUnsigned_more by auto.
  assert (K := ahead_more (fun s => sees "+" s \/ sees "-" s) seesUnsigned r). unfold ahead in K.
  rewrite K; [reflexivity|auto|intros c [Hc|Hc]; ns|apply seesUnsigned_more].
Qed.
Lemma opensFraction_more r : sealed r -> (opensFraction (r ++ z) <-> opensFraction r).
Proof. intros H. apply (two_more (is ".") rawDigit); auto. intros c Hc; ns. Qed.
Lemma opensExponent_more r : sealed r -> (opensExponent (r ++ z) <-> opensExponent r).
Proof.
  intros H. apply (ahead_more (fun m => is "e" m \/ is "E" m) (fun t => starts rawDigit t \/
    exists s d t', t = s :: d :: t' /\ (sees "+" s \/ sees "-" s) /\ rawDigit d) r); auto; [intros c [Hc|Hc]; ns|].
  intros t Ht. rewrite starts_sealed by auto. rewrite (two_more (fun s => sees "+" s \/ sees "-" s) rawDigit); [reflexivity|auto|intros c [Hc|Hc]; ns].
Qed.
Lemma closesCDC_more r : sealed r -> (closesCDC (r ++ z) <-> closesCDC r).
Proof. intros H. apply (two_more (sees "-") (sees ">")); auto. intros c Hc; ns. Qed.
Lemma opensCDO_ahead r : opensCDO r <-> ahead (sees "!") (ahead (sees "-") (starts (sees "-"))) r.
Proof.
  split.
  - intros (a & b & c & t & -> & Ha & Hb & Hc). exists a, (b :: c :: t). repeat split; auto; try apply Ha.
    exists b, (c :: t). repeat split; auto; try apply Hb. exists c, t. auto.
  - intros (a & t & -> & Ha & (b & t' & -> & Hb & (c & u & -> & Hc))). exists a, b, c, u. auto.
Qed.
Lemma opensCDO_more r : sealed r -> (opensCDO (r ++ z) <-> opensCDO r).
Proof.
  intros H. rewrite !opensCDO_ahead. apply ahead_more; auto; [intros c Hc; ns|]. intros t Ht.
  apply ahead_more; auto; [intros c Hc; ns|]. intros u Hu. apply starts_sealed, Hu.
Qed.
Lemma seesHash_more r : sealed r -> (seesHash (r ++ z) <-> seesHash r).
Proof. intros H. unfold seesHash. rewrite seesEscape_more, starts_sealed by auto. reflexivity. Qed.

(** * Tokens with more behind them *)
Lemma hexRun_more k h r : hexRun k h r -> sealed r -> hexRun k h (r ++ z).
Proof.
  induction 1 as [r|k r H|k h t r Hh Hb H IH|k h b t r Hh Hb H IH]; intros S0.
  - constructor.
  - apply hrStop. rewrite starts_sealed; auto.
  - apply hrHex; auto. rewrite app_assoc, starts_sealed; auto with seal.
  - apply hrBlank; auto.
Qed.
Lemma escape_more e r : escape e r -> sealed r -> escape e (r ++ z).
Proof.
  intros (c & h & -> & Hc & Hn & Hh) S0. exists c, h. repeat split; auto.
  - rewrite app_assoc, starts_sealed; auto with seal.
  - apply hexRun_more; auto.
Qed.
Lemma word_more n r : word n r -> sealed r -> word n (r ++ z).
Proof.
  induction 1 as [r H1 H2|c n r Hc H IH|e n r He H IH]; intros S0.
  - apply wdStop; [rewrite starts_sealed|rewrite opensEscape_more]; auto.
  - apply wdChar; auto.
  - apply wdEscape; auto. rewrite app_assoc. apply escape_more; auto with seal.
Qed.
Lemma digits_more ds r : digits ds r -> sealed r -> digits ds (r ++ z).
Proof. intros [H1 H2] S0. split; auto. rewrite starts_sealed; auto. Qed.
Lemma optSign_more s r : optSign s r -> sealed r -> optSign s (r ++ z).
Proof. intros [H|[H1 H2]] S0; [left; exact H|right]. split; auto. rewrite starts_sealed; auto. Qed.
Lemma optFraction_more f r : optFraction f r -> sealed r -> optFraction f (r ++ z).
Proof.
  intros [(p & d & ds & -> & Hp & Hd & H)|[H1 H2]] S0; [left|right].
  - exists p, d, ds. do 3 (split; [assumption || reflexivity|]). apply digits_more; auto.
  - split; auto. rewrite opensFraction_more; auto.
Qed.
Lemma optExponent_more e r : optExponent e r -> sealed r -> optExponent e (r ++ z).
Proof.
  intros [(m & s & ds & E & Ho & Hs & H)|[H1 H2]] S0; [left|right].
  - exists m, s, ds. split; [auto|]. split; [|split].
    + rewrite app_assoc, opensExponent_more; auto with seal.
    + rewrite app_assoc. apply optSign_more; auto with seal.
    + apply digits_more; auto.
  - split; auto. rewrite opensExponent_more; auto.
Qed.
Lemma numeral_more n r : numeral n r -> sealed r -> numeral n (r ++ z).
Proof.
  intros (s & i & f & e & -> & Hs & Hi & Hf & He) S0. exists s, i, f, e. split; auto. split; [|split; [|split]].
  - apply optSign_more in Hs; auto with seal. rewrite <- !app_assoc in Hs. exact Hs.
  - apply digits_more in Hi; auto with seal. rewrite <- !app_assoc in Hi. exact Hi.
  - apply optFraction_more in Hf; auto with seal. rewrite <- !app_assoc in Hf. exact Hf.
  - apply optExponent_more; auto.
Qed.
Lemma inString_more q b r : inString q b r -> sealed r -> inString q b (r ++ z).
Proof.
  induction 1 as [r|c b r H1 H2 H3 H IH|c d b r H1 H2 H IH|c e b r H1 He H IH|c b r H1 H2 H3 H4 H IH]; intros S0.
  - constructor.
  - apply isChar; auto.
  - apply isBreak; auto.
  - apply isEscape; auto. rewrite app_assoc. apply escape_more; auto with seal.
  - apply isSkip; auto; rewrite app_assoc.
    + intros E. apply app_eq_nil in E as [E _]. auto.
    + rewrite starts_sealed; auto with seal.
    + rewrite opensEscape_more; auto with seal.
Qed.
Lemma inUrl_more b r : inUrl b r -> sealed r -> inUrl b (r ++ z).
Proof.
  induction 1 as [r|c b r H1 H2 H3 H4 H5 H IH|e b r He H IH]; intros S0.
  - constructor.
  - apply iuChar; auto.
  - apply iuEscape; auto. rewrite app_assoc. apply escape_more; auto with seal.
Qed.

Lemma delimiter_more c t : delimiter c t -> sealed (c :: t) -> delimiter c (t ++ z).
Proof.
  intros (H1 & H2 & H3 & H4 & H5 & H6 & H7 & H8 & H9 & H10 & H11 & H12 & H13) S0.
  assert (T : sealed t).
  { apply (sealed_tail c); auto. intros K. apply H1, stop_single, K. }
  unfold delimiter. rewrite starts_sealed, seesUnsigned_more, seesNumber_more, seesName_more, closesCDC_more, opensCDO_more, seesHash_more by auto.
  repeat (split; [assumption|]). assumption.
Qed.
Lemma opens_more l F : opens l F -> sealed l -> opens (l ++ z) F.
Proof.
  intros H. destruct H as [|c t b k H1 H2|c t H|c t H1 H2|q c t H1 H2|c t H|c t H1 H2|c t H1 H2|c t H1 H2|c t H1 H2|c t H1 H2|c t H1 H2
    |c t H1 H2|c t H1 H2 H3|c t H1 H2|c t H1 H2|c t H]; intros S0; cbn [app];
    try (assert (T : sealed t) by (apply (sealed_tail c); auto; ns)).
  - destruct (sealed_ne _ S0). reflexivity.
  - eapply opSingle; eauto.
  - apply opBlank; auto.
  - apply opComment; auto. rewrite starts_sealed; auto.
  - eapply opString; eauto.
  - apply opDigit; auto.
  - apply opSigned; auto. rewrite seesUnsigned_more; auto.
  - apply opDot; auto. rewrite seesNumber_more; auto.
  - apply opCDC; auto. rewrite closesCDC_more; auto.
  - apply opCDO; auto. rewrite opensCDO_more; auto.
  - apply opAt; auto. rewrite seesName_more; auto.
  - apply opHash; auto. rewrite seesHash_more; auto.
  - apply opName; auto.
  - apply opDash; auto; [rewrite seesName_more|rewrite seesUnsigned_more]; auto.
  - apply opEscape; auto. rewrite starts_sealed; auto.
  - apply opBad; auto. rewrite starts_sealed; auto.
  - apply opDelim. apply delimiter_more; auto.
Qed.
Ltac norm H := repeat (rewrite <- app_assoc in H || cbn [app] in H).
Lemma lexed_more t r k p : lexed t r k p -> sealed r -> lexed t (r ++ z) k p.
Proof.
  intros H. destruct H as [|c r k Ho|c t r Ho Ht Hr|c d b x y r Ho Hx Hy Hb|q c b e r Ho Hb He|n r Ho Hn H1 H2|n x r Ho Hn Hx
    |n u r Ho Hn H1 Hu|r Ho|r Ho|c n r Ho Hn|c n r Ho Hn|n r Ho Hn H1|n x r Ho Hn Hx H1|n x s r Ho Hn Hx H1 H2 H3
    |n x s b e r Ho Hn Hx H1 H2 H3 H4 H5 H6|c r Ho]; intros S0; try (apply opens_more in Ho; [|auto 8 with seal]); norm Ho.
  - destruct (sealed_ne _ S0). reflexivity.
  - apply lxSingle; auto.
  - apply lxBlank; auto. rewrite starts_sealed; auto.
  - apply lxComment; auto.
  - apply (lxString q); auto. apply (inString_more q b (e :: r)); auto with seal.
  - apply lxNumber; auto; [apply numeral_more|rewrite opensName_more|rewrite starts_sealed]; auto.
  - apply lxPercentage; auto. apply (numeral_more n (x :: r)); auto with seal.
  - apply lxDimension; auto; [|rewrite app_assoc, opensName_more; auto with seal|apply word_more; auto].
    rewrite app_assoc. apply numeral_more; auto with seal.
  - apply lxCDO; auto.
  - apply lxCDC; auto.
  - apply lxAt; auto. apply word_more; auto.
  - apply lxHash; auto. apply word_more; auto.
  - apply lxIdent; auto; [apply word_more|rewrite starts_sealed]; auto.
  - apply lxFunction; auto. apply (word_more n (x :: r)); auto with seal.
  - apply lxUrlFunction; auto; [|rewrite starts_sealed; auto].
    apply word_more in Hn; auto with seal. norm Hn. exact Hn.
  - apply word_more in Hn; auto 6 with seal. norm Hn. apply (inUrl_more b (e :: r)) in H5; auto with seal.
    rewrite <- starts_sealed in H3, H4 by auto with seal. norm H3. norm H4. apply lxUrl; auto.
  - apply lxDelim; auto.
Qed.
Lemma comment_more t r p : lexed t r Comment p -> lexed t (r ++ z) Comment p.
Proof.
  intros H. inversion H; subst.
  - apply lxSingle. assert (X : ~ exists b, In (b, Comment) singles) by (intros [b X]; cbn in X; intuition congruence).
    match goal with K : opens _ (FSingle Comment) |- _ => inversion K; subst end. destruct X. eauto.
  - apply lxComment; auto. match goal with K : opens _ FComment |- _ => inversion K; subst end.
    apply opComment; auto. rewrite starts_head in *. assumption.
Qed.
Lemma skips_more ws com g r o : skips ws com g r o -> skips ws com g (r ++ z) o.
Proof.
  induction 1 as [r|c t r o H1 H2 H IH|c b t r o H1 H2 H IH]; [constructor|apply spBlank; auto|].
  apply spComment; auto. apply comment_more in H2. norm H2. exact H2.
Qed.
End WithUnicode.
