(** Tokens before white space, a slash or a punctuation mark are the same before
    other white space or a slash. *)
From Verif Require Import Bytes Utf8 Source Lexer BytesFacts LexSpec LexFacts LexNext ReadSpec LexStreamSpec LexGrammar LexCut JoinLex.

Section WithUnicode.
Context {U : UnicodeDigits}.
Definition gentle (c : char) : Prop := blank c \/ is "/" c.
Definition quiet (c : char) : Prop := gentle c \/ stop c.
Lemma quiet_val c : quiet c -> In (fst c) [32; 9; 10; 47; 59; 58; 44; 40; 41; 91; 93; 123; 125].
Proof.
  intros [[[Q|[Q|Q]]|Q]|Q]; try (unfold is in Q; rewrite Q; cbn; tauto).
  apply stop_single in Q as (d & k & I & Q). unfold is in Q. rewrite Q. cbn in I.
  repeat (destruct I as [I|I]; [injection I as <- <-; cbn; tauto|]). destruct I.
Qed.
Ltac noquiet := intros c Q; apply quiet_val in Q; unfold rawDigit, nameChar, nameStart, hex, digit, sign, sees, within, is, quote;
  let H := fresh in intros H; cbn [In] in Q; repeat (destruct Q as [Q|Q]; [rewrite <- Q in H; vm_compute in H; intuition congruence|]); destruct Q.
Lemma q_name : forall c, quiet c -> ~ nameChar c. Proof. noquiet. Qed.
Lemma q_digit : forall c, quiet c -> ~ digit c. Proof. noquiet. Qed.
Lemma q_hex : forall c, quiet c -> ~ hex c. Proof. noquiet. Qed.
Lemma q_sign : forall c, quiet c -> ~ sign c. Proof. noquiet. Qed.
Lemma q_back : forall c, quiet c -> ~ is "\" c. Proof. noquiet. Qed.
Lemma q_dot : forall c, quiet c -> ~ is "." c. Proof. noquiet. Qed.
Lemma q_star : forall c, quiet c -> ~ is "*" c. Proof. noquiet. Qed.
Lemma q_percent : forall c, quiet c -> ~ is "%" c. Proof. noquiet. Qed.
Lemma q_plus : forall c, quiet c -> ~ is "+" c. Proof. noquiet. Qed.
Lemma q_minus : forall c, quiet c -> ~ is "-" c. Proof. noquiet. Qed.
Lemma q_e : forall c, quiet c -> ~ is "e" c. Proof. noquiet. Qed.
Lemma q_E : forall c, quiet c -> ~ is "E" c. Proof. noquiet. Qed.
Lemma q_bang : forall c, quiet c -> ~ is "!" c. Proof. noquiet. Qed.
Lemma q_gt : forall c, quiet c -> ~ is ">" c. Proof. noquiet. Qed.
Lemma q_lt : forall c, quiet c -> ~ is "<" c. Proof. noquiet. Qed.
Lemma g_paren : forall c, gentle c -> ~ is "(" c.
Proof. intros c [[Q|[Q|Q]]|Q] H; unfold is in *; rewrite Q in H; vm_compute in H; discriminate. Qed.
Hint Resolve q_name q_digit q_hex q_sign q_back q_dot q_star q_percent q_plus q_minus q_e q_E q_bang q_gt q_lt : quiet.
Lemma q_sees b : (forall c, quiet c -> ~ is b c) -> forall c, quiet c -> ~ sees b c.
Proof. intros H c Q [K _]. exact (H c Q K). Qed.
Lemma q_and (P : char -> Prop) : (forall c, quiet c -> ~ P c) -> forall c, quiet c -> ~ (P c /\ raw c).
Proof. intros H c Q [K _]. exact (H c Q K). Qed.
Lemma q_or (P Q : char -> Prop) : (forall c, quiet c -> ~ P c) -> (forall c, quiet c -> ~ Q c) -> forall c, quiet c -> ~ (P c \/ Q c).
Proof. intros H K c X [Y|Y]; [exact (H c X Y)|exact (K c X Y)]. Qed.
Lemma q_raw : forall c, quiet c -> ~ rawDigit c. Proof. apply q_and. auto with quiet. Qed.
Hint Resolve q_sees q_and q_or q_raw : quiet.

Variables z z' : list char.
Hypothesis z_quiet : exists c t, z = c :: t /\ quiet c.
Hypothesis z_gentle : exists c t, z' = c :: t /\ gentle c.
Lemma z'_quiet : exists c t, z' = c :: t /\ quiet c.
Proof. destruct z_gentle as (c & t & E & G). exists c, t. split; [exact E|left; exact G]. Qed.
Lemma none_z (P : char -> Prop) : (forall c, quiet c -> ~ P c) -> ~ starts P z /\ ~ starts P z'.
Proof.
  intros H. split; [destruct z_quiet as (c & t & -> & Q)|destruct z'_quiet as (c & t & -> & Q)]; rewrite starts_head; auto.
Qed.

(** * What is seen ahead *)
Lemma starts_any P r : r <> [] -> (starts P (r ++ z) <-> starts P (r ++ z')).
Proof. destruct r as [|c r]; [contradiction|]. intros _. cbn [app]. rewrite !starts_head. reflexivity. Qed.
Lemma starts_swap (P : char -> Prop) r : (forall c, quiet c -> ~ P c) -> (starts P (r ++ z) <-> starts P (r ++ z')).
Proof.
  intros H. destruct r as [|c r]; [|apply starts_any; discriminate]. cbn [app]. destruct (none_z P H). tauto.
Qed.
Lemma ahead_swap (P : char -> Prop) F r : (forall c, quiet c -> ~ P c) -> (forall c t, r = c :: t -> (F (t ++ z) <-> F (t ++ z'))) ->
  (ahead P F (r ++ z) <-> ahead P F (r ++ z')).
Proof.
  intros HP HF. destruct r as [|c r].
  - cbn [app]. split; intros (c & t & E & Hc & _); exfalso; destruct (none_z P HP) as [N1 N2]; [apply N1|apply N2]; exists c, t; auto.
  - cbn [app]. split; intros (c' & t & E & Hc & Ht); injection E as <- <-; eexists _, _; (split; [reflexivity|]); split; auto; eapply HF; eauto.
Qed.
Lemma two_swap (P Q : char -> Prop) r : (forall c, quiet c -> ~ P c) -> (forall c, quiet c -> ~ Q c) ->
  ((exists p d t, r ++ z = p :: d :: t /\ P p /\ Q d) <-> (exists p d t, r ++ z' = p :: d :: t /\ P p /\ Q d)).
Proof. intros HP HQ. rewrite !ahead2. apply ahead_swap; auto. intros. apply starts_swap; auto. Qed.

(** The last character is no backslash. *)
Definition solid (r : list char) : Prop := forall r1 c, r = r1 ++ [c] -> ~ is "\" c.
Lemma solid_nil : solid []. Proof. intros r1 c E. destruct r1; discriminate. Qed.
Lemma solid_tail c r : solid (c :: r) -> solid r.
Proof. intros H r1 d ->. apply (H (c :: r1)). reflexivity. Qed.
Lemma solid_app a r : r <> [] -> solid r -> solid (a ++ r).
Proof.
  intros N H r1 c E. destruct (exists_last N) as (r0 & d & ->). rewrite app_assoc in E. apply app_inj_tail in E as [_ <-]. apply (H r0). reflexivity.
Qed.
Lemma solid_all a : Forall (fun c => ~ is "\" c) a -> solid a.
Proof. intros H r1 c ->. apply Forall_app in H as [_ H]. inversion H; auto. Qed.
Lemma opensEscape_swap r : solid r -> (opensEscape (r ++ z) <-> opensEscape (r ++ z')).
Proof.
  intros H. destruct r as [|c [|d r]].
  - apply (ahead_swap (is "\") (fun t => ~ starts (sees LF) t) []); auto with quiet. discriminate.
  - assert (N : ~ is "\" c) by (apply (H []); reflexivity). cbn [app]. split; intros (c' & t & E & Hc & _); injection E as <- _; contradiction.
  - cbn [app]. unfold opensEscape. split; intros (c' & t & E & Hc & K); injection E as <- <-; eexists _, _; (split; [reflexivity|]); (split; [exact Hc|]);
    rewrite starts_head in *; exact K.
Qed.
Lemma raw_swap (F : list char -> Prop) r : (forall t, F t -> starts (fun c => is "\" c \/ nameChar c) t) -> (F (r ++ z) <-> F (r ++ z')) ->
  (F (r ++ z) /\ starts raw (r ++ z) <-> F (r ++ z') /\ starts raw (r ++ z')).
Proof.
  intros A E. destruct r as [|c r].
  - cbn [app] in *. assert (Q : forall c, quiet c -> ~ (is "\" c \/ nameChar c)) by auto with quiet. destruct (none_z _ Q) as [N1 N2].
    split; intros [K _]; apply A in K; contradiction.
  - rewrite E, (starts_any raw (c :: r)) by discriminate. reflexivity.
Qed.
Lemma seesEscape_swap r : solid r -> (seesEscape (r ++ z) <-> seesEscape (r ++ z')).
Proof.
  intros H. apply (raw_swap opensEscape); [|apply opensEscape_swap; auto]. intros t (c & t' & -> & Hc & _). exists c, t'. auto.
Qed.
Lemma opensName_starts t : opensName t -> starts (fun c => is "\" c \/ nameChar c) t.
Proof. intros (c & t' & -> & [[H _]|[H _]]); exists c, t'; split; auto. right. right. right. exact H. Qed.
Lemma opensName_swap r : solid r -> (opensName (r ++ z) <-> opensName (r ++ z')).
Proof.
  intros H. destruct r as [|c r].
  - cbn [app]. assert (Q : forall c, quiet c -> ~ (is "\" c \/ nameChar c)) by auto with quiet. destruct (none_z _ Q) as [N1 N2].
    split; intros K; apply opensName_starts in K; contradiction.
  - apply solid_tail in H. cbn [app]. unfold opensName.
    split; intros (c' & t & E & D); injection E as <- <-; eexists _, _; (split; [reflexivity|]);
    (destruct D as [(D1 & D2)|D]; [left; split; [exact D1|]|right; exact D]).
    + rewrite <- starts_swap, <- seesEscape_swap by auto with quiet. exact D2.
    + rewrite starts_swap, seesEscape_swap by auto with quiet. exact D2.
Qed.
Lemma seesName_swap r : solid r -> (seesName (r ++ z) <-> seesName (r ++ z')).
Proof. intros H. apply (raw_swap opensName); [apply opensName_starts|apply opensName_swap; auto]. Qed.
Lemma seesUnsigned_swap r : seesUnsigned (r ++ z) <-> seesUnsigned (r ++ z').
Proof. unfold seesUnsigned. rewrite starts_swap by auto with quiet. rewrite (two_swap (sees ".") rawDigit) by auto with quiet. reflexivity. Qed.
Lemma seesNumber_swap r : seesNumber (r ++ z) <-> seesNumber (r ++ z').
Proof.
  unfold seesNumber. rewrite seesUnsigned_swap.
  assert (K := ahead_swap (fun s => sees "+" s \/ sees "-" s) seesUnsigned r). unfold ahead in K.
  rewrite K; [reflexivity|auto with quiet|intros; apply seesUnsigned_swap].
Qed.
Lemma opensFraction_swap r : opensFraction (r ++ z) <-> opensFraction (r ++ z').
Proof. apply (two_swap (is ".") rawDigit); auto with quiet. Qed.
Lemma opensExponent_swap r : opensExponent (r ++ z) <-> opensExponent (r ++ z').
Proof.
  apply (ahead_swap (fun m => is "e" m \/ is "E" m) (fun t => starts rawDigit t \/
    exists s d t', t = s :: d :: t' /\ (sees "+" s \/ sees "-" s) /\ rawDigit d) r); [auto with quiet|].
  intros c t _. rewrite starts_swap by auto with quiet. rewrite (two_swap (fun s => sees "+" s \/ sees "-" s) rawDigit) by auto with quiet. reflexivity.
Qed.
Lemma closesCDC_swap r : closesCDC (r ++ z) <-> closesCDC (r ++ z').
Proof. apply (two_swap (sees "-") (sees ">")); auto with quiet. Qed.
Lemma opensCDO_swap r : opensCDO (r ++ z) <-> opensCDO (r ++ z').
Proof.
  rewrite !opensCDO_ahead. apply ahead_swap; auto with quiet. intros c t _. apply ahead_swap; auto with quiet. intros. apply starts_swap; auto with quiet.
Qed.
Lemma seesHash_swap r : solid r -> (seesHash (r ++ z) <-> seesHash (r ++ z')).
Proof. intros H. unfold seesHash. rewrite seesEscape_swap, starts_swap by auto with quiet. reflexivity. Qed.

(** * Tokens *)
Lemma app_ne {A} (a b : list A) : b <> [] -> a ++ b <> [].
Proof. intros N E. apply app_eq_nil in E as [_ E]. auto. Qed.
Lemma hexRun_swap' k h y : hexRun k h y -> forall r, y = r ++ z -> r <> [] -> hexRun k h (r ++ z').
Proof.
  induction 1 as [y|k y H|k h t y Hh Hb H IH|k h b t y Hh Hb H IH]; intros r -> N.
  - constructor.
  - apply hrStop. rewrite <- starts_any; auto.
  - apply hrHex; auto. rewrite app_assoc in *. rewrite <- starts_any; auto using app_ne.
  - apply hrBlank; auto.
Qed.
Lemma escape_swap e r : escape e (r ++ z) -> r <> [] -> escape e (r ++ z').
Proof.
  intros (c & h & -> & Hc & Hn & Hh) N. exists c, h. repeat split; auto.
  - rewrite app_assoc in *. rewrite <- starts_any; auto using app_ne.
  - eapply hexRun_swap'; eauto.
Qed.
(** The rest is not empty and does not end in a backslash, or there is no
    backslash. *)
Definition ready (t r : list char) : Prop := (r <> [] /\ solid r) \/ (r = [] /\ Forall (fun c => ~ is "\" c) t).
Lemma ready_solid t r : ready t r -> solid r.
Proof. intros [[_ H]|[-> _]]; [exact H|apply solid_nil]. Qed.
Lemma ready_all t r : ready t r -> solid (t ++ r).
Proof. intros [[N H]|[-> H]]; [apply solid_app; auto|rewrite app_nil_r; apply solid_all, H]. Qed.
Lemma ready_app a t r : ready (a ++ t) r -> ready t r.
Proof. intros [H|[E H]]; [left; exact H|right]. apply Forall_app in H. tauto. Qed.
Lemma ready_front a t r : ready (a ++ t) r -> t <> [] -> ready a (t ++ r).
Proof. intros H N. left. split; [destruct t; [contradiction|discriminate]|]. apply ready_app in H. apply ready_all, H. Qed.
Lemma word_swap' n y : word n y -> forall r, y = r ++ z -> ready n r -> word n (r ++ z').
Proof.
  induction 1 as [y H1 H2|c n y Hc H IH|e n y He H IH]; intros r -> R.
  - pose proof (ready_solid _ _ R). apply wdStop; [rewrite <- starts_swap|rewrite <- opensEscape_swap]; auto with quiet.
  - apply wdChar; auto. apply IH; auto. apply (ready_app [c]), R.
  - pose proof (ready_app _ _ _ R) as R2. apply wdEscape; auto. rewrite app_assoc in *. apply escape_swap; auto.
    intros E. apply app_eq_nil in E as [-> ->]. destruct R as [[N _]|[_ F]]; [contradiction|].
    destruct He as (c & h & -> & Hc & _). inversion F; contradiction.
Qed.
Lemma word_swap n r : word n (r ++ z) -> ready n r -> word n (r ++ z').
Proof. intros H. eapply word_swap'; eauto. Qed.
Lemma digits_swap ds r : digits ds (r ++ z) -> digits ds (r ++ z').
Proof. intros [H1 H2]. split; auto. rewrite <- starts_swap; auto with quiet. Qed.
Lemma optSign_swap s r : optSign s (r ++ z) -> optSign s (r ++ z').
Proof. intros [H|[H1 H2]]; [left; exact H|right]. split; auto. rewrite <- starts_swap; auto with quiet. Qed.
Lemma optFraction_swap f r : optFraction f (r ++ z) -> optFraction f (r ++ z').
Proof.
  intros [(p & d & ds & -> & Hp & Hd & H)|[H1 H2]]; [left|right].
  - exists p, d, ds. do 3 (split; [assumption || reflexivity|]). apply digits_swap; auto.
  - split; auto. rewrite <- opensFraction_swap; auto.
Qed.
Lemma optExponent_swap e r : optExponent e (r ++ z) -> optExponent e (r ++ z').
Proof.
  intros [(m & s & ds & E & Ho & Hs & H)|[H1 H2]]; [left|right].
  - exists m, s, ds. split; [auto|]. split; [|split].
    + rewrite app_assoc in *. rewrite <- opensExponent_swap; auto.
    + rewrite app_assoc in *. apply optSign_swap; auto.
    + apply digits_swap; auto.
  - split; auto. rewrite <- opensExponent_swap; auto.
Qed.
Lemma numeral_swap n r : numeral n (r ++ z) -> numeral n (r ++ z').
Proof.
  intros (s & i & f & e & -> & Hs & Hi & Hf & He). exists s, i, f, e. split; auto. split; [|split; [|split]].
  - pose proof (optSign_swap s (i ++ f ++ e ++ r)) as K. rewrite <- !app_assoc in K. auto.
  - pose proof (digits_swap i (f ++ e ++ r)) as K. rewrite <- !app_assoc in K. auto.
  - pose proof (optFraction_swap f (e ++ r)) as K. rewrite <- !app_assoc in K. auto.
  - apply optExponent_swap; auto.
Qed.
Lemma inString_swap' q b y : inString q b y -> forall r, y = r ++ z -> r <> [] -> solid r -> inString q b (r ++ z').
Proof.
  induction 1 as [y|c b y H1 H2 H3 H IH|c d b y H1 H2 H IH|c e b y H1 He H IH|c b y H1 H2 H3 H4 H IH]; intros r -> N S0.
  - constructor.
  - apply isChar; auto.
  - apply isBreak; auto.
  - apply isEscape; auto. rewrite app_assoc in *. apply escape_swap; auto using app_ne.
  - apply isSkip; auto; rewrite app_assoc in *.
    + intros E. apply app_eq_nil in E as [E _]. apply (app_ne b r) in E; auto.
    + rewrite <- starts_any; auto using app_ne.
    + rewrite <- opensEscape_swap; auto using solid_app.
Qed.
Lemma inUrl_swap' b y : inUrl b y -> forall r, y = r ++ z -> r <> [] -> inUrl b (r ++ z').
Proof.
  induction 1 as [y|c b y H1 H2 H3 H4 H5 H IH|e b y He H IH]; intros r -> N.
  - constructor.
  - apply iuChar; auto.
  - apply iuEscape; auto. rewrite app_assoc in *. apply escape_swap; auto using app_ne.
Qed.
Lemma delimiter_swap c t : delimiter c (t ++ z) -> solid t -> delimiter c (t ++ z').
Proof.
  intros D S0. unfold delimiter in *.
  rewrite starts_swap, seesUnsigned_swap, seesNumber_swap, seesName_swap, closesCDC_swap, opensCDO_swap, seesHash_swap in D by auto with quiet. exact D.
Qed.
Lemma opens_swap y F : opens y F -> forall l, y = l ++ z -> l <> [] -> solid l -> opens (l ++ z') F.
Proof.
  intros H. destruct H as [|c y b k H1 H2|c y H|c y H1 H2|q c y H1 H2|c y H|c y H1 H2|c y H1 H2|c y H1 H2|c y H1 H2|c y H1 H2|c y H1 H2
    |c y H1 H2|c y H1 H2 H3|c y H1 H2|c y H1 H2|c y H]; intros l El N S0; (destruct l as [|c' t]; [contradiction|]); try discriminate El;
    cbn [app] in *; injection El as <- ->; pose proof (solid_tail _ _ S0) as T.
  - eapply opSingle; eauto.
  - apply opBlank; auto.
  - apply opComment; auto. rewrite <- starts_swap; auto with quiet.
  - eapply opString; eauto.
  - apply opDigit; auto.
  - apply opSigned; auto. rewrite <- seesUnsigned_swap; auto.
  - apply opDot; auto. rewrite <- seesNumber_swap; auto.
  - apply opCDC; auto. rewrite <- closesCDC_swap; auto.
  - apply opCDO; auto. rewrite <- opensCDO_swap; auto.
  - apply opAt; auto. rewrite <- seesName_swap; auto.
  - apply opHash; auto. rewrite <- seesHash_swap; auto.
  - apply opName; auto.
  - apply opDash; auto; [rewrite <- seesName_swap|rewrite <- seesUnsigned_swap]; auto.
  - apply opEscape; auto. rewrite <- starts_any; auto. intros ->. apply (S0 [] c); auto.
  - apply opBad; auto. rewrite <- starts_any; auto. intros ->. apply (S0 [] c); auto.
  - apply opDelim. apply delimiter_swap; auto.
Qed.
Ltac norm H := repeat (rewrite <- app_assoc in H || cbn [app] in H).
Ltac via L := let K := fresh in pose proof L as K; norm K; solve [eauto].
Lemma ready_last a b e r : ready (a ++ b ++ [e]) r -> solid (e :: r).
Proof. intros R. apply ready_app, ready_app, ready_all in R. exact R. Qed.
Ltac opn := match goal with Ho : opens _ _, A : solid ?l, N : ?l <> [] |- _ =>
  let K := fresh in pose proof (fun E => opens_swap _ _ Ho l E N A) as K; norm K; specialize (K eq_refl); clear Ho; rename K into Ho end.
Lemma lexed_swap t r k p : lexed t (r ++ z) k p -> t ++ r <> [] -> ready t r -> r <> [] \/ k <> Whitespace -> lexed t (r ++ z') k p.
Proof.
  intros H N R W. remember (r ++ z) as y eqn:Ey. pose proof (ready_all _ _ R) as A.
  destruct H as [|c y k Ho|c t y Ho Ht Hr|c d b x x' y Ho Hx Hy Hb|q c b e y Ho Hb He|n y Ho Hn H1 H2|n x y Ho Hn Hx
    |n u y Ho Hn H1 Hu|y Ho|y Ho|c n y Ho Hn|c n y Ho Hn|n y Ho Hn H1|n x y Ho Hn Hx H1|n x s y Ho Hn Hx H1 H2 H3
    |n x s b e y Ho Hn Hx H1 H2 H3 H4 H5 H6|c y Ho]; subst.
  - destruct r; destruct z_quiet as (c0 & t0 & E & _); rewrite E in Ey; discriminate.
  - opn. apply lxSingle; auto.
  - opn. apply lxBlank; auto. destruct W as [W|W]; [|contradiction]. rewrite <- starts_any; auto.
  - opn. apply lxComment; auto.
  - opn. apply (lxString q); auto. apply (inString_swap' q b _ Hb (e :: r)); [reflexivity|discriminate|]. apply (ready_last [c] b). exact R.
  - opn. apply lxNumber; auto; [apply numeral_swap|rewrite <- opensName_swap|rewrite <- starts_swap]; eauto using ready_solid with quiet.
  - opn. apply lxPercentage; auto. apply (numeral_swap n (x :: r)); auto.
  - opn. apply lxDimension; auto; [via (numeral_swap n (u ++ r))| |apply word_swap; eauto using ready_app].
    rewrite app_assoc in *. rewrite <- opensName_swap; auto. eapply ready_all, ready_app. exact R.
  - opn. apply lxCDO; auto.
  - opn. apply lxCDC; auto.
  - opn. apply lxAt; auto. apply word_swap; auto. apply (ready_app [c]), R.
  - opn. apply lxHash; auto. apply word_swap; auto. apply (ready_app [c]), R.
  - opn. apply lxIdent; auto; [apply word_swap; auto|]. destruct r as [|c r].
    + destruct z_gentle as (c & t & -> & G). cbn [app]. rewrite starts_head. apply g_paren, G.
    + rewrite <- starts_any; auto. discriminate.
  - opn. apply lxFunction; auto. apply (word_swap n (x :: r)); auto. apply (ready_front n [x]); [exact R|discriminate].
  - opn. assert (Nr : r <> []).
    { intros ->. cbn [app] in H3. destruct z_quiet as (c & t & E & Q). rewrite E, starts_head in H3. revert H3. apply quiet_val in Q. unfold quote, is.
      cbn [In] in Q. repeat (destruct Q as [Q|Q]; [rewrite <- Q; vm_compute; intuition discriminate|]). destruct Q. }
    apply lxUrlFunction; auto; [|rewrite <- starts_any; auto].
    pose proof (word_swap n (x :: s ++ r)) as K. norm K. apply K; auto. apply (ready_front n (x :: s)); [exact R|discriminate].
  - opn. assert (Nb : b ++ e :: r <> []) by (destruct b; discriminate).
    change (e :: r ++ z) with ((e :: r) ++ z) in H3, H4. rewrite app_assoc, starts_any in H3, H4 by auto. norm H3. norm H4.
    apply lxUrl; auto.
    + pose proof (word_swap n (x :: s ++ b ++ e :: r)) as K. norm K. apply K; auto.
      pose proof (ready_front n (x :: s ++ b ++ [e]) r) as F. norm F. apply F; [exact R|discriminate].
    + apply (inUrl_swap' b _ H5 (e :: r)); [reflexivity|discriminate].
  - opn. apply lxDelim; auto.
Qed.
End WithUnicode.
