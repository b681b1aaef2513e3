(** What follows a punctuation mark does not change the tokens before it. *)
From Verif Require Import Bytes Utf8 Source Lexer BytesFacts LexSpec LexFacts LexNext ReadSpec LexStreamSpec LexGrammar LexCut JoinLex.

Section WithUnicode.
Context {U : UnicodeDigits}.
Hint Resolve sealed_app sealed_cons sealed_ne : seal.
Ltac ns := match goal with
  | H : is _ ?c |- ~ stop ?c => apply (ns_is _ _ H); reflexivity
  | H : sees _ ?c |- ~ stop ?c => apply (ns_sees _ _ H); reflexivity
  | H : sign ?c |- ~ stop ?c => apply (ns_sign _ H)
  | H : digit ?c |- ~ stop ?c => apply (ns_digit _ H)
  | H : nameChar ?c |- ~ stop ?c => apply (ns_name _ H)
  end.
Ltac norm H := repeat (rewrite <- app_assoc in H || cbn [app] in H).

Variable z : list char.
Lemma hexRun_less k h y : hexRun k h y -> forall r, y = r ++ z -> sealed r -> hexRun k h r.
Proof.
  induction 1 as [y|k y H|k h t y Hh Hb H IH|k h b t y Hh Hb H IH]; intros r -> S0.
  - constructor.
  - apply hrStop. rewrite starts_sealed in H; auto.
  - apply hrHex; auto. rewrite app_assoc, starts_sealed in Hb; auto with seal.
  - apply hrBlank; auto.
Qed.
Lemma escape_less e r : escape e (r ++ z) -> sealed r -> escape e r.
Proof.
  intros (c & h & -> & Hc & Hn & Hh) S0. exists c, h. repeat split; auto.
  - rewrite app_assoc, starts_sealed in Hn; auto with seal.
  - eapply hexRun_less; eauto.
Qed.
Lemma word_less' n y : word n y -> forall r, y = r ++ z -> sealed r -> word n r.
Proof.
  induction 1 as [y H1 H2|c n y Hc H IH|e n y He H IH]; intros r -> S0.
  - apply wdStop; [rewrite starts_sealed in H1|rewrite opensEscape_more in H2]; auto.
  - apply wdChar; auto.
  - apply wdEscape; auto. rewrite app_assoc in He. apply escape_less; auto with seal.
Qed.
Lemma word_less n r : word n (r ++ z) -> sealed r -> word n r.
Proof. intros H. eapply word_less'; eauto. Qed.
Lemma digits_less ds r : digits ds (r ++ z) -> sealed r -> digits ds r.
Proof. intros [H1 H2] S0. split; auto. rewrite starts_sealed in H2; auto. Qed.
Lemma optSign_less s r : optSign s (r ++ z) -> sealed r -> optSign s r.
Proof. intros [H|[H1 H2]] S0; [left; exact H|right]. split; auto. rewrite starts_sealed in H2; auto. Qed.
Lemma optFraction_less f r : optFraction f (r ++ z) -> sealed r -> optFraction f r.
Proof.
  intros [(p & d & ds & -> & Hp & Hd & H)|[H1 H2]] S0; [left|right].
  - exists p, d, ds. do 3 (split; [assumption || reflexivity|]). apply digits_less; auto.
  - split; auto. rewrite opensFraction_more in H2; auto.
Qed.
Lemma optExponent_less e r : optExponent e (r ++ z) -> sealed r -> optExponent e r.
Proof.
  intros [(m & s & ds & E & Ho & Hs & H)|[H1 H2]] S0; [left|right].
  - exists m, s, ds. split; [auto|]. split; [|split].
    + rewrite app_assoc, opensExponent_more in Ho; auto with seal.
    + rewrite app_assoc in Hs. apply optSign_less in Hs; auto with seal.
    + apply digits_less; auto.
  - split; auto. rewrite opensExponent_more in H2; auto.
Qed.
Lemma numeral_less n r : numeral n (r ++ z) -> sealed r -> numeral n r.
Proof.
  intros (s & i & f & e & -> & Hs & Hi & Hf & He) S0. exists s, i, f, e. split; auto. split; [|split; [|split]].
  - apply optSign_less; auto with seal. rewrite <- !app_assoc. exact Hs.
  - apply digits_less; auto with seal. rewrite <- !app_assoc. exact Hi.
  - apply optFraction_less; auto with seal. rewrite <- !app_assoc. exact Hf.
  - apply optExponent_less; auto.
Qed.
Lemma inString_less' q b y : inString q b y -> forall r, y = r ++ z -> sealed r -> inString q b r.
Proof.
  induction 1 as [y|c b y H1 H2 H3 H IH|c d b y H1 H2 H IH|c e b y H1 He H IH|c b y H1 H2 H3 H4 H IH]; intros r -> S0.
  - constructor.
  - apply isChar; auto.
  - apply isBreak; auto.
  - apply isEscape; auto. rewrite app_assoc in He. apply escape_less; auto with seal.
  - apply isSkip; auto; rewrite app_assoc in *.
    + auto with seal.
    + rewrite starts_sealed in H3; auto with seal.
    + rewrite opensEscape_more in H4; auto with seal.
Qed.
Lemma inString_less q b r : inString q b (r ++ z) -> sealed r -> inString q b r.
Proof. intros H. eapply inString_less'; eauto. Qed.
Lemma inUrl_less' b y : inUrl b y -> forall r, y = r ++ z -> sealed r -> inUrl b r.
Proof.
  induction 1 as [y|c b y H1 H2 H3 H4 H5 H IH|e b y He H IH]; intros r -> S0.
  - constructor.
  - apply iuChar; auto.
  - apply iuEscape; auto. rewrite app_assoc in He. apply escape_less; auto with seal.
Qed.
Lemma inUrl_less b r : inUrl b (r ++ z) -> sealed r -> inUrl b r.
Proof. intros H. eapply inUrl_less'; eauto. Qed.
Lemma delimiter_less c t : delimiter c (t ++ z) -> sealed (c :: t) -> delimiter c t.
Proof.
  intros D S0. assert (T : sealed t) by (apply (sealed_tail c); auto; intros K; apply (proj1 D), stop_single, K).
  unfold delimiter in *. rewrite starts_sealed, seesUnsigned_more, seesNumber_more, seesName_more, closesCDC_more, opensCDO_more, seesHash_more in D by auto.
  exact D.
Qed.
Lemma opens_less y F : opens y F -> forall l, y = l ++ z -> sealed l -> opens l F.
Proof.
  intros H. destruct H as [|c y b k H1 H2|c y H|c y H1 H2|q c y H1 H2|c y H|c y H1 H2|c y H1 H2|c y H1 H2|c y H1 H2|c y H1 H2|c y H1 H2
    |c y H1 H2|c y H1 H2 H3|c y H1 H2|c y H1 H2|c y H]; intros l El S0; (destruct l as [|c' t]; [inversion S0|]); try discriminate El;
    cbn [app] in El; injection El as <- ->;
    try (assert (T : sealed t) by (apply (sealed_tail c); auto; ns)).
  - eapply opSingle; eauto.
  - apply opBlank; auto.
  - apply opComment; auto. rewrite starts_sealed in H2; auto.
  - eapply opString; eauto.
  - apply opDigit; auto.
  - apply opSigned; auto. rewrite seesUnsigned_more in H2; auto.
  - apply opDot; auto. rewrite seesNumber_more in H2; auto.
  - apply opCDC; auto. rewrite closesCDC_more in H2; auto.
  - apply opCDO; auto. rewrite opensCDO_more in H2; auto.
  - apply opAt; auto. rewrite seesName_more in H2; auto.
  - apply opHash; auto. rewrite seesHash_more in H2; auto.
  - apply opName; auto.
  - apply opDash; auto; [rewrite seesName_more in H2|rewrite seesUnsigned_more in H3]; auto.
  - apply opEscape; auto. rewrite starts_sealed in H2; auto.
  - apply opBad; auto. rewrite starts_sealed in H2; auto.
  - apply opDelim. apply delimiter_less; auto.
Qed.
Ltac back L := eapply L; [repeat (rewrite <- app_assoc || cbn [app]); eassumption|auto 8 with seal].
Ltac backO := eapply opens_less; [eassumption|repeat (rewrite <- app_assoc || cbn [app]); reflexivity|auto 8 with seal].
Lemma lexed_less t r k p : lexed t (r ++ z) k p -> sealed r -> lexed t r k p.
Proof.
  intros H S0. remember (r ++ z) as y eqn:Ey.
  destruct H as [|c y k Ho|c t y Ho Ht Hr|c d b x x' y Ho Hx Hy Hb|q c b e y Ho Hb He|n y Ho Hn H1 H2|n x y Ho Hn Hx
    |n u y Ho Hn H1 Hu|y Ho|y Ho|c n y Ho Hn|c n y Ho Hn|n y Ho Hn H1|n x y Ho Hn Hx H1|n x s y Ho Hn Hx H1 H2 H3
    |n x s b e y Ho Hn Hx H1 H2 H3 H4 H5 H6|c y Ho]; subst.
  - destruct r; [inversion S0|discriminate].
  - apply lxSingle; backO.
  - apply lxBlank; auto; [backO|]. rewrite starts_sealed in Hr; auto.
  - apply lxComment; auto. backO.
  - apply (lxString q); auto; [backO|back inString_less].
  - apply lxNumber; auto; [backO|back numeral_less|rewrite opensName_more in H1; auto|rewrite starts_sealed in H2; auto].
  - apply lxPercentage; auto; [backO|back numeral_less].
  - apply lxDimension; auto; [backO|back numeral_less| |back word_less]. rewrite app_assoc, opensName_more in H1; auto with seal.
  - apply lxCDO; backO.
  - apply lxCDC; backO.
  - apply lxAt; [backO|back word_less].
  - apply lxHash; [backO|back word_less].
  - apply lxIdent; [backO|back word_less|rewrite starts_sealed in H1; auto].
  - apply lxFunction; auto; [backO|back word_less].
  - apply lxUrlFunction; auto; [backO|back word_less|rewrite starts_sealed in H3; auto].
  - change (e :: r ++ z) with ((e :: r) ++ z) in H3, H4. rewrite app_assoc, starts_sealed in H3, H4 by auto with seal.
    apply lxUrl; auto; [backO|back word_less|back inUrl_less].
  - apply lxDelim; backO.
Qed.
Lemma comment_less t r p : lexed t (r ++ z) Comment p -> lexed t r Comment p.
Proof.
  intros H. inversion H; subst.
  - exfalso. assert (X : ~ exists b, In (b, Comment) singles) by (intros [b X]; cbn in X; intuition congruence).
    match goal with K : opens _ (FSingle Comment) |- _ => inversion K; subst end. destruct X. eauto.
  - apply lxComment; auto. match goal with K : opens _ FComment |- _ => inversion K; subst end.
    apply opComment; auto. rewrite starts_head in *. assumption.
Qed.
Lemma skips_less ws com g y o : skips ws com g y o -> forall r, y = r ++ z -> skips ws com g r o.
Proof.
  induction 1 as [y|c t y o H1 H2 H IH|c b t y o H1 H2 H IH]; intros r ->; [constructor|apply spBlank; auto|].
  apply spComment; auto. rewrite app_assoc in H2. apply comment_less in H2. exact H2.
Qed.
End WithUnicode.
