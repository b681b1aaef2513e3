(** Every tree the parser returns is a reading of the file. *)
From Verif Require Import Bytes Utf8 Source Lexer BytesFacts LexSpec LexFacts LexNext LexProps Ast Parser ParserSpec ParseMono ParseInv ParseSound ReadSpec.

Section WithUnicode.
Context {U : UnicodeDigits}.
Local Instance allLiberties : Liberties := true.

(** * Moving through the tokens *)
Lemma path_app k l a k1 l1 b k2 l2 : path k l a k1 l1 -> path k1 l1 b k2 l2 -> path k l (a ++ b) k2 l2.
Proof.
  intros H. revert b k2 l2. induction H; intros b' k2' l2' H2; cbn [app]; auto.
  - eapply pathFlag; eauto.
  - eapply pathLines; eauto.
  - eapply pathTok; eauto.
Qed.
(** A state of the file whose white space flag is [b]. *)
Definition here (content : bytes) (b : bool) (l : lexer) : Prop := pstate content l /\ l_rws l = b.
Lemma here_next content b l l1 : here content b l -> next l = Ok l1 -> here content b l1.
Proof.
  intros [H1 H2] E. pose proof (pstate_call _ _ H1) as G. rewrite E in G. destruct G as (_ & _ & G & _).
  split; [eapply pNext; eauto|congruence].
Qed.
Lemma here_rws content b c l : here content b l -> here content c (setRws l c).
Proof. intros [H1 H2]. split; [|reflexivity]. exact (pFlags content l c (l_rcom l) H1). Qed.
Lemma here_lines content b ls l : here content b l -> here content b (setLines l ls).
Proof. intros [H1 H2]. split; [|exact H2]. apply pLines. auto. Qed.
Lemma path_one content b k l l1 : here content b l -> next l = Ok l1 -> path k l [tkOf k l] b l1.
Proof. intros [H1 H2] E. eapply pathTok; eauto. rewrite H2. apply pathNil. Qed.
Lemma path_cons content b k l l1 ts k1 l2 : here content b l -> next l = Ok l1 -> path b l1 ts k1 l2 ->
  path k l (tkOf k l :: ts) k1 l2.
Proof. intros H E P. exact (path_app _ _ _ _ _ _ _ _ (path_one _ _ _ _ _ H E) P). Qed.
Lemma path_end k l ts k1 l1 b : path k l ts k1 l1 -> path k l ts k1 (setRws l1 b).
Proof. intros H. rewrite <- (app_nil_r ts). eapply path_app; eauto. eapply pathFlag. apply pathNil. Qed.
Lemma path_snoc content b k l ts k1 l1 l2 : path k l ts k1 l1 -> here content b l1 -> next l1 = Ok l2 ->
  path k l (ts ++ [tkOf k1 l1]) b l2.
Proof. intros P H E. eapply path_app; eauto. eapply path_one; eauto. Qed.
Lemma expect_ok t l l1 : expect t l = Ok l1 -> l_cur l = t /\ next l = Ok l1.
Proof.
  unfold expect. destruct (teq (l_cur l) t) eqn:E; cbn [negb]; [|discriminate]. apply teq_eq in E. auto.
Qed.
Lemma isK_of b t l : l_cur l = t -> isK b t (tkOf b l).
Proof. intros H. split; [exact H|reflexivity]. Qed.
Lemma is_of t l : l_cur l = t -> is t (tkOf false l).
Proof. apply isK_of. Qed.
Hint Resolve is_of isK_of : rd.

(** * Values *)
Lemma mathFunction_iff n : mathFunction n <-> isMathName n = true.
Proof. unfold mathFunction, isMathName. symmetry. apply bmem_In. Qed.

Section Content.
Variable content : bytes.
Notation at_ := (here content false).
Definition okTo (l : lexer) (ts : list tk) (l1 : lexer) : Prop := path false l ts false l1 /\ at_ l1.
Lemma okTo_one l l1 : at_ l -> next l = Ok l1 -> okTo l [tkOf false l] l1.
Proof. intros H E. split; [eapply path_one; eauto|eapply here_next; eauto]. Qed.
Lemma okTo_cons l l1 ts l2 : at_ l -> next l = Ok l1 -> okTo l1 ts l2 -> okTo l (tkOf false l :: ts) l2.
Proof. intros H E [P A]. split; auto. eapply path_cons; eauto. Qed.
Lemma okTo_app l ts l1 ts2 l2 : okTo l ts l1 -> okTo l1 ts2 l2 -> okTo l (ts ++ ts2) l2.
Proof. intros [P A] [P2 A2]. split; auto. eapply path_app; eauto. Qed.
Lemma okTo_nil l : at_ l -> okTo l [] l.
Proof. intros H. split; auto. apply pathNil. Qed.
Lemma okTo_at l ts l1 : okTo l ts l1 -> at_ l1.
Proof. intros [_ H]. exact H. Qed.
Ltac atg := match goal with
  | H : ?g |- ?g => exact H
  | E : next _ = Ok ?l |- here _ _ ?l => refine (here_next _ _ _ _ _ E); atg
  | O : okTo _ _ ?l |- here _ _ ?l => exact (okTo_at _ _ _ O)
  | |- here _ _ (setRws _ _) => eapply here_rws; atg
  | |- here _ _ (setLines _ _) => eapply here_lines; atg
  end.
Ltac okg := match goal with
  | H : ?g |- ?g => exact H
  | |- okTo ?l [] ?l => apply okTo_nil; atg
  | E : next ?l = Ok ?m |- okTo ?l (_ :: _) _ => apply (okTo_cons l m); [atg|exact E|okg]
  | O : okTo ?l ?a ?m |- okTo ?l (?a ++ _) _ => apply (okTo_app l a m); [exact O|okg]
  | |- okTo _ ((_ ++ _) ++ _) _ => rewrite <- app_assoc; okg
  | |- okTo _ ((_ :: _) ++ _) _ => cbn [app]; okg
  end.
Ltac rd := first [atg | okg | auto with rd].
Ltac rds := repeat match goal with |- _ /\ _ => split end; rd.

Definition RV n := forall l v l1, at_ l -> parseValue n l = Ok (v, l1) ->
  v = VNil /\ l1 = l \/ exists ts, okTo l ts l1 /\ gValue ts v.
Definition RB n := forall l vs e l1, at_ l -> bracketLoop n l = Ok (vs, e, l1) ->
  exists ts y, okTo l (ts ++ [y]) l1 /\ gValues ts vs /\ is RBracket y /\ e = upto y.
Definition RA n := forall name l vs e l1, at_ l -> argsLoop n name l = Ok (vs, e, l1) ->
  if isMathName name then exists ts y, okTo l (ts ++ [y]) l1 /\ gMathArgs ts vs /\ is RParen y /\ e = Some (upto y)
  else (exists ts y, okTo l (ts ++ [y]) l1 /\ gArgs ts vs /\ is RParen y /\ e = Some (upto y)) \/
       (exists ts, okTo l ts l1 /\ gArgs ts vs /\ e = None).
Definition RM (f : nat -> lexer -> res (value * lexer)) (g : list tk -> value -> Prop) n := forall l v l1, at_ l -> f n l = Ok (v, l1) ->
  v = VNil /\ l1 = l \/ exists ts, okTo l ts l1 /\ g ts v.
Definition RL (f : nat -> value -> lexer -> res (value * lexer)) (g : list tk -> value -> Prop) n := forall lhs l v l1, at_ l -> f n lhs l = Ok (v, l1) ->
  (lhs = VNil -> v = VNil /\ l1 = l) /\
  forall ts, g ts lhs -> exists ts2, okTo l ts2 l1 /\ g (ts ++ ts2) v.

Ltac okinj H := apply ok_inj in H; inversion H; subst; clear H.
Ltac ob H x E := let y := fresh in apply bind_ok in H as (y & E & H); match type of E with _ = Ok ?z => rename z into x end.
Ltac step_ H l := apply bind_ok in H as (l & ? & H).

Lemma RV_step n : RB n -> RA n -> RV (S n).
Proof.
  intros IB IA l v l1 A H. cbn [parseValue] in H. destruct (l_cur l) eqn:Ec; cbv zeta in H;
    try (left; okinj H; split; reflexivity);
    try (right; apply bind_ok in H as (l2 & E & H); okinj H; exists [tkOf false l]; split; [apply okTo_one; auto|]; constructor; rd; fail).
  - right. apply bind_ok in H as (l2 & E & H). apply bind_ok in H as ([[vs e] l3] & E2 & H). okinj H.
    apply IB in E2; rd. destruct E2 as (ts & y & O & G & Y & ->).
    exists (tkOf false l :: ts ++ [y]). split; rd.
    apply (gBrackets (tkOf false l) ts vs y); rd.
  - right. apply bind_ok in H as (l2 & E & H). apply bind_ok in H as ([[vs e] l3] & E2 & H). okinj H.
    apply IA in E2; rd. destruct (isMathName (l_str l)) eqn:Em.
    + destruct E2 as (ts & y & O & G & Y & ->). exists (tkOf false l :: ts ++ [y]). split; rd.
      apply (gMath (tkOf false l) ts vs y); rd. apply mathFunction_iff. auto.
    + assert (Hm : ~ mathFunction (k_str (tkOf false l))) by (rewrite mathFunction_iff; change (isMathName (l_str l) <> true); congruence).
      destruct E2 as [(ts & y & O & G & Y & ->)|(ts & O & G & ->)].
      * exists (tkOf false l :: ts ++ [y]). split; rd. apply (gFunc (tkOf false l) ts vs y); rd.
      * exists (tkOf false l :: ts). split; rd. apply (gFuncOpen (tkOf false l) ts vs); rd.
Qed.
Lemma RB_step n : RV n -> RB n -> RB (S n).
Proof.
  intros IV IB l vs e l1 A H. cbn [bracketLoop] in H. destruct (teq (l_cur l) RBracket) eqn:Er.
  - apply teq_eq in Er. apply bind_ok in H as (l2 & E & H). okinj H. exists [], (tkOf false l). cbn [app].
    split; [rd|]. split; [constructor|]. split; [rd|reflexivity].
  - apply bind_ok in H as ([v l2] & E & H). destruct (isNil v) eqn:En; [discriminate|].
    apply bind_ok in H as ([[vs2 e2] l3] & E2 & H). okinj H.
    apply IV in E as [[-> _]|(ts & O & G)]; [discriminate| |auto].
    apply IB in E2 as (ts2 & y & O2 & G2 & Y & ->); rd.
    exists (ts ++ ts2), y. rewrite <- app_assoc. split; rd. split; [constructor; auto|auto].
Qed.
Lemma RA_step n : RV n -> RA n -> RM mathSum gSum n -> RA (S n).
Proof.
  intros IV IA IM name l vs e l1 A H. cbn [argsLoop] in H. destruct (teq (l_cur l) RParen) eqn:Er.
  { apply teq_eq in Er. apply bind_ok in H as (l2 & E & H). okinj H. destruct (isMathName name); [|left];
      exists [], (tkOf false l); cbn [app]; (split; [rd|split; [constructor|split; [rd|reflexivity]]]). }
  destruct (teq (l_cur l) Comma) eqn:Ec.
  { apply teq_eq in Ec. apply bind_ok in H as (l2 & E & H). apply bind_ok in H as ([[vs2 e2] l3] & E2 & H). okinj H.
    apply IA in E2; rd. change (VComma (tokenSpan l)) with (VComma (k_sp (tkOf false l))). destruct (isMathName name).
    - destruct E2 as (ts & y & O & G & Y & ->). exists (tkOf false l :: ts), y. cbn [app].
      split; [rd|]. split; [constructor; rd|auto].
    - destruct E2 as [(ts & y & O & G & Y & ->)|(ts & O & G & ->)].
      + left. exists (tkOf false l :: ts), y. cbn [app]. split; [rd|]. split; [constructor; rd|auto].
      + right. exists (tkOf false l :: ts). split; [rd|]. split; [constructor; rd|auto]. }
  destruct (isMathName name) eqn:En.
  - apply bind_ok in H as ([v l2] & E & H). apply bind_ok in H as ([[vs2 e2] l3] & E2 & H). okinj H.
    pose proof E as Hs. apply IM in E as [[-> ->]|(ts & O & G)]; auto.
    + destruct (args_stuck n name l En (teq_ne _ _ Er) (teq_ne _ _ Ec) Hs _ _ _ _ E2).
    + apply IA in E2; rd. rewrite En in E2. destruct E2 as (ts2 & y & O2 & G2 & Y & ->).
      exists (ts ++ ts2), y. rewrite <- app_assoc. split; [rd|]. split; [constructor; auto|auto].
  - apply bind_ok in H as ([v l2] & E & H). destruct (isNil v) eqn:Ev.
    + okinj H. right. apply IV in E as [[-> ->]|(ts & O & G)]; auto.
      * exists []. split; [rd|]. split; [constructor|auto].
      * destruct v; try discriminate. inversion G.
    + apply bind_ok in H as ([[vs2 e2] l3] & E2 & H). okinj H.
      apply IV in E as [[-> ->]|(ts & O & G)]; auto; [discriminate|].
      apply IA in E2; rd. rewrite En in E2. destruct E2 as [(ts2 & y & O2 & G2 & Y & ->)|(ts2 & O2 & G2 & ->)].
      * left. exists (ts ++ ts2), y. rewrite <- app_assoc. split; [rd|]. split; [constructor; auto|auto].
      * right. exists (ts ++ ts2). split; [rd|]. split; [constructor; auto|auto].
Qed.
Lemma RP_step n : RV n -> RM mathSum gSum n -> RM mathParen gOperand (S n).
Proof.
  intros IV IM l v l1 A H. cbn [mathParen] in H. destruct (teq (l_cur l) LParen) eqn:El; cbn [negb] in H.
  - apply teq_eq in El. apply bind_ok in H as (l2 & E & H). apply expect_ok in E as [_ E].
    apply bind_ok in H as ([v2 l3] & E2 & H). apply bind_ok in H as (l4 & E3 & H). apply expect_ok in E3 as [C3 E3]. okinj H.
    right. apply IM in E2 as [[-> ->]|(ts & O & G)]; rd.
    + exists [tkOf false l; tkOf false l2]. split; [rd|]. apply (goEmpty (tkOf false l) (tkOf false l2)); rd.
    + exists (tkOf false l :: ts ++ [tkOf false l3]). split; [rd|]. apply (goParen (tkOf false l) ts v2 (tkOf false l3)); rd.
  - apply IV in H as [H|(ts & O & G)]; auto. right. exists ts. split; auto. constructor. auto.
Qed.
Lemma joinSpan_spans l a b sp : joinSpan l a b = Ok sp ->
  exists spa spb, valueSpan a = Some spa /\ valueSpan b = Some spb /\ sp = mkSpan (sp_start spa) (sp_end spb).
Proof.
  unfold joinSpan. destruct (valueSpan a); [|discriminate]. destruct (valueSpan b); [|discriminate]. intros H. okinj H. eauto.
Qed.
Lemma RL_prod n : RM mathParen gOperand n -> RL mathProductLoop gProduct n -> RL mathProductLoop gProduct (S n).
Proof.
  intros IP IL lhs l v l1 A H. cbn [mathProductLoop] in H. destruct (curDelim l _) eqn:Ec.
  - pose proof (curDelim_In _ _ Ec) as Hi. apply Bool.andb_true_iff in Ec as [Ec _]. apply teq_eq in Ec.
    apply bind_ok in H as (l2 & E & H). apply expect_ok in E as [_ E].
    apply bind_ok in H as ([rhs l3] & E2 & H). apply bind_ok in H as (sp & E3 & H).
    apply joinSpan_spans in E3 as (spa & spb & Sa & Sb & ->). split; [intros ->; discriminate|].
    intros ts G. apply IP in E2 as [[-> _]|(ts2 & O2 & G2)]; rd; [discriminate|].
    apply IL in H as [_ H]; rd. destruct (H (ts ++ tkOf false l :: ts2)) as (ts3 & O3 & G3).
    { apply (gpOp ts lhs (tkOf false l) ts2 rhs spa spb); rd. }
    exists (tkOf false l :: ts2 ++ ts3). split; [rd|].
    rewrite <- app_assoc in G3. exact G3.
  - okinj H. split; [auto|]. intros ts G. exists []. rewrite app_nil_r. rds.
Qed.
Lemma RL_sum n : RM mathProduct gProduct n -> RL mathSumLoop gSum n -> RL mathSumLoop gSum (S n).
Proof.
  intros IP IL lhs l v l1 A H. cbn [mathSumLoop] in H. destruct (curDelim l _) eqn:Ec.
  - pose proof (curDelim_In _ _ Ec) as Hi. apply Bool.andb_true_iff in Ec as [Ec _]. apply teq_eq in Ec.
    apply bind_ok in H as (l2 & E & H). apply expect_ok in E as [_ E].
    apply bind_ok in H as ([rhs l3] & E2 & H). apply bind_ok in H as (sp & E3 & H).
    apply joinSpan_spans in E3 as (spa & spb & Sa & Sb & ->). split; [intros ->; discriminate|].
    intros ts G. apply IP in E2 as [[-> _]|(ts2 & O2 & G2)]; rd; [discriminate|].
    apply IL in H as [_ H]; rd. destruct (H (ts ++ tkOf false l :: ts2)) as (ts3 & O3 & G3).
    { apply (gsOp ts lhs (tkOf false l) ts2 rhs spa spb); rd. }
    exists (tkOf false l :: ts2 ++ ts3). split; [rd|].
    rewrite <- app_assoc in G3. exact G3.
  - okinj H. split; [auto|]. intros ts G. exists []. rewrite app_nil_r. rds.
Qed.
Lemma RM_prod n : RM mathParen gOperand n -> RL mathProductLoop gProduct n -> RM mathProduct gProduct (S n).
Proof.
  intros IP IL l v l1 A H. cbn [mathProduct] in H. apply bind_ok in H as ([lhs l2] & E & H).
  apply IP in E as [[-> ->]|(ts & O & G)]; auto.
  - apply IL in H as [H _]; auto.
  - right. apply IL in H as [_ H]; rd. destruct (H ts) as (ts2 & O2 & G2); [constructor; auto|].
    exists (ts ++ ts2). split; rd.
Qed.
Lemma RM_sum n : RM mathProduct gProduct n -> RL mathSumLoop gSum n -> RM mathSum gSum (S n).
Proof.
  intros IP IL l v l1 A H. cbn [mathSum] in H. apply bind_ok in H as ([lhs l2] & E & H).
  apply IP in E as [[-> ->]|(ts & O & G)]; auto.
  - apply IL in H as [H _]; auto.
  - right. apply IL in H as [_ H]; rd. destruct (H ts) as (ts2 & O2 & G2); [constructor; auto|].
    exists (ts ++ ts2). split; rd.
Qed.
Lemma read_all n : RV n /\ RB n /\ RA n /\ RM mathSum gSum n /\ RL mathSumLoop gSum n /\ RM mathProduct gProduct n /\
  RL mathProductLoop gProduct n /\ RM mathParen gOperand n.
Proof.
  induction n as [|n (I1 & I2 & I3 & I4 & I5 & I6 & I7 & I8)].
  - split; [|split; [|split; [|split; [|split; [|split; [|split]]]]]]; repeat intro; discriminate.
  - split; [apply RV_step|split; [apply RB_step|split; [apply RA_step|split; [apply RM_sum|split; [apply RL_sum|split; [apply RM_prod|split; [apply RL_prod|apply RP_step]]]]]]]; auto.
Qed.
Lemma value_read n : RV n.
Proof. apply (read_all n). Qed.
Lemma value_gopt n l v l1 : at_ l -> parseValue n l = Ok (v, l1) -> exists ts, okTo l ts l1 /\ gOpt ts v.
Proof.
  intros A H. apply value_read in H as [[-> ->]|(ts & O & G)]; auto.
  - exists []. split; [rd|]. left; auto.
  - exists ts. split; auto. right; auto.
Qed.

(** * Declarations *)
Lemma important_iff s : isImportantString s = true -> saysImportant s.
Proof.
  unfold isImportantString, saysImportant.
  destruct s as [|b0 [|b1 [|b2 [|b3 [|b4 [|b5 [|b6 [|b7 [|b8 [|]]]]]]]]]]; try discriminate.
  intros H. repeat (apply Bool.andb_true_iff in H as [H ?]).
  assert (L : forall b lo up, (65 <=? up) && (up <=? 90) = true -> lo = up + 32 -> lower_upper b lo up = true -> lowerByte b = lo).
  { intros b lo up Hu -> Hl. unfold lower_upper in Hl. unfold lowerByte. apply Bool.orb_true_iff in Hl.
    apply Bool.andb_true_iff in Hu as [U1 U2]. apply Z.leb_le in U1. apply Z.leb_le in U2.
    destruct Hl as [Hl|Hl]; apply Z.eqb_eq in Hl; rewrite Hl.
    - replace (up + 32 <=? 90) with false by (symmetry; apply Z.leb_gt; lia). rewrite Bool.andb_false_r. reflexivity.
    - replace (65 <=? up) with true by (symmetry; apply Z.leb_le; lia).
      replace (up <=? 90) with true by (symmetry; apply Z.leb_le; lia). reflexivity. }
  cbn [map]. cbn. repeat (f_equal; [eapply L; [|  |eassumption]; reflexivity|]). f_equal. eapply L; [| |eassumption]; reflexivity.
Qed.

Definition endAfter (le : option nat) (vs : list value) : option nat :=
  match vs with [] => le | _ => Some (valuesEnd vs) end.
Lemma valuesEnd_cons v vs : vs <> [] -> valuesEnd (v :: vs) = valuesEnd vs.
Proof. destruct vs; [congruence|reflexivity]. Qed.
Lemma gvalue_span ts v : gValue ts v -> valueSpan v <> None.
Proof. intros H. inversion H; discriminate. Qed.
Lemma items_spans ts vs i : gItems ts vs i -> Forall (fun v => valueSpan v <> None) vs.
Proof. intros H. induction H; auto; constructor; auto; try discriminate. eapply gvalue_span; eauto. Qed.
Lemma declLoop_read n : forall le de imp l vs e im l1, at_ l -> declLoop n le de imp l = Ok (vs, e, im, l1) ->
  exists ts i le1, okTo l ts l1 /\ gItems ts vs i /\ endAfter le vs = Some le1 /\
    e = Nat.max le1 (match i with Some x => x | None => de end) /\ im = (isSome i || imp).
Proof.
  induction n as [|n IH]; intros le de imp l vs e im l1 A H; cbn [declLoop] in H; [discriminate|].
  assert (Hend : forall v sp (vs0 : list value), valueSpan v = Some sp -> forall le1, endAfter (Some (sp_end sp)) vs0 = Some le1 -> endAfter le (v :: vs0) = Some le1).
  { intros v sp vs0 Hv le1 X. destruct vs0 as [|v2 vs2].
    - cbn in X. injection X as <-. cbn. unfold valuesEnd. cbn [last]. rewrite Hv. reflexivity.
    - cbn [endAfter] in *. rewrite valuesEnd_cons by discriminate. exact X. }
  assert (Hval : ('(v, l1) <- parseValue n l ;;
      match valueSpan v with
      | None =>
        match le with
        | None => errorf l1 (B "declaration must have a value")
        | Some e => Ok ([], (if (de <? e)%nat then e else de), imp, l1)
        end
      | Some sp =>
        '(vs, e, im, l2) <- declLoop n (Some (sp_end sp)) de imp l1 ;;
        Ok (v :: vs, e, im, l2)
      end) = Ok (vs, e, im, l1) -> exists ts i le1, okTo l ts l1 /\ gItems ts vs i /\ endAfter le vs = Some le1 /\
    e = Nat.max le1 (match i with Some x => x | None => de end) /\ im = (isSome i || imp)).
  { clear H. intros H. apply bind_ok in H as ([v l2] & E & H). destruct (valueSpan v) as [sp|] eqn:Ev.
    - apply bind_ok in H as ([[[vs2 e2] im2] l3] & E2 & H). okinj H.
      apply value_read in E as [[-> _]|(ts & O & G)]; auto; [discriminate|].
      apply IH in E2 as (ts2 & i & le1 & O2 & G2 & L & -> & ->); [|rd].
      exists (ts ++ ts2), i, le1. split; [rd|]. split; [constructor; auto|]. eauto.
    - destruct le as [e0|]; [|discriminate]. okinj H.
      apply value_read in E as [[-> ->]|(ts & O & G)]; auto; [|apply gvalue_span in G; congruence].
      exists [], None, e0. split; [rd|]. split; [constructor|]. split; [reflexivity|]. split; [|reflexivity].
      destruct (Nat.ltb_spec de e0); lia. }
  destruct (l_cur l) eqn:Ec; auto; try discriminate H.
  - apply bind_ok in H as (l2 & E & H). apply bind_ok in H as ([[[vs2 e2] im2] l3] & E2 & H). okinj H.
    apply IH in E2 as (ts2 & i & le1 & O2 & G2 & L & -> & ->); [|rd].
    exists (tkOf false l :: ts2), i, le1. split; [rd|]. split; [apply (giComma (tkOf false l)); rd|]. split; [eapply Hend; eauto; reflexivity|auto].
  - destruct (beq (l_str l) (B "!")) eqn:Eb; cbn [negb] in H.
    + apply beq_eq in Eb. apply bind_ok in H as (l2 & E & H). destruct (isImportantString (l_str l2)) eqn:Ei; cbn [negb] in H; [|discriminate].
      apply bind_ok in H as (l3 & E2 & H). apply important_iff in Ei.
      apply IH in H as (ts2 & i & le1 & O2 & G2 & L & -> & ->); [|rd].
      exists (tkOf false l :: tkOf false l2 :: ts2), (Some (match i with Some e => e | None => upto (tkOf false l2) end)), le1.
      split; [rd|]. split; [apply (giImportant (tkOf false l) (tkOf false l2)); rd|]. split; [exact L|].
      split; [destruct i; reflexivity|]. rewrite Bool.orb_true_r. reflexivity.
    + apply beq_neq in Eb. apply bind_ok in H as (l2 & E & H). apply bind_ok in H as ([[[vs2 e2] im2] l3] & E2 & H). okinj H.
      apply IH in E2 as (ts2 & i & le1 & O2 & G2 & L & -> & ->); [|rd].
      exists (tkOf false l :: ts2), i, le1. split; [rd|]. split; [apply (giDelim (tkOf false l)); rd|].
      split; [eapply Hend; eauto; reflexivity|auto].
Qed.
Lemma decl_read n l d l1 : at_ l -> parseDeclaration n l = Ok (d, l1) -> exists ts, okTo l ts l1 /\ gDecl content ts d.
Proof.
  unfold parseDeclaration. intros A H. apply bind_ok in H as ([pre l0] & Hp & H). cbv zeta in H.
  assert (X : exists star, okTo l star l0 /\ pre = concat (map k_str star) /\
    (star = [] \/ (exists s, star = [s] /\ is Delim s /\ k_str s = B "*"))).
  { clear H. revert Hp. destruct (teq (l_cur l) Delim && beq (l_str l) (B "*")) eqn:Eb; intros Hp.
    - apply Bool.andb_true_iff in Eb as [E1 E2]. apply teq_eq in E1. apply beq_eq in E2. apply bind_ok in Hp as (l2 & E & Hp). okinj Hp.
      exists [tkOf false l]. split; [rd|]. split; [cbn; rewrite app_nil_r; reflexivity|].
      right. exists (tkOf false l). rds.
    - okinj Hp. exists []. rds. }
  destruct X as (star & Os & -> & Hs). clear Hp.
  apply bind_ok in H as (l2 & E2 & H). apply expect_ok in E2 as [C2 E2].
  apply bind_ok in H as (l3 & E3 & H). apply expect_ok in E3 as [C3 E3].
  apply bind_ok in H as ([[[vs e] imp] l4] & E4 & H). okinj H.
  apply declLoop_read in E4 as (ts & i & le1 & O & G & L & -> & ->); [|rd].
  destruct vs as [|v0 vs0]; [discriminate|]. cbn [endAfter] in L. injection L as <-.
  exists (star ++ tkOf false l0 :: tkOf false l2 :: ts). split; [rd|].
  rewrite Bool.orb_false_r. apply (gdDecl content star (tkOf false l0) (tkOf false l2)); rd. discriminate.
Qed.
Lemma okTo_lines l ls ts l1 : okTo (setLines l ls) ts l1 -> okTo l ts l1.
Proof. intros [P A]. split; auto. eapply pathLines; eauto. Qed.
Lemma pstate_content l : pstate content l -> l_content l = content.
Proof. intros H. apply pstate_wfl in H. apply H. Qed.
Lemma rawLoop_read n : forall l l1, at_ l -> rawLoop n l = Ok l1 ->
  exists ts, okTo l ts l1 /\ Forall (fun x => k_kept x = false /\ k_tok x <> Semicolon) ts /\ l_cur l1 = Semicolon.
Proof.
  induction n as [|n IH]; intros l l1 A H; cbn [rawLoop] in H; [discriminate|].
  destruct (teq (l_cur l) Semicolon) eqn:Es.
  - okinj H. apply teq_eq in Es. exists []. rds.
  - apply teq_ne in Es. apply bind_ok in H as (l2 & E & H). apply IH in H as (ts & O & F & C); [|rd].
    exists (tkOf false l :: ts). split; [rd|]. split; auto.
Qed.
Lemma okTo_first l ts l1 : okTo l ts l1 -> ts <> [] -> firstFrom ts = l_start l.
Proof.
  intros [P _]. remember false as k eqn:Ek in P at 1. remember false as k1 in P. clear Ek Heqk1. revert k k1 P.
  intros k k1 P. induction P; intros Hn; try congruence.
  - rewrite IHP by auto. reflexivity.
  - rewrite IHP by auto. reflexivity.
  - reflexivity.
Qed.
Lemma raw_read n l d l1 : at_ l -> parseRaw n l = Ok (d, l1) -> exists ts, okTo l ts l1 /\ gDecl content ts d.
Proof.
  unfold parseRaw. intros A H. cbv zeta in H. apply bind_ok in H as (l2 & E & H). apply bind_ok in H as (l3 & E2 & H).
  apply bind_ok in H as (s & E3 & H). okinj H. apply rawLoop_read in E as (ts & O & F & C); auto.
  assert (A3 : at_ l1) by rd. assert (O2 : okTo l (ts ++ [tkOf false l2]) l1) by rd.
  exists (ts ++ [tkOf false l2]). split; auto.
  assert (Hf : firstFrom (ts ++ [tkOf false l2]) = l_start l) by (eapply okTo_first; eauto; destruct ts; discriminate).
  assert (Hs : s = sub content (l_start l) (tokenEnd l2)).
  { unfold contentSlice in E3. rewrite (pstate_content l1) in E3 by apply A3. unfold slice in E3. match type of E3 with context [if ?b then _ else _] => destruct b end; [|discriminate]. okinj E3. reflexivity. }
  subst s. pose proof (gdRaw content ts (tkOf false l2) eq_refl F (is_of _ _ C)) as G. rewrite Hf in G. exact G.
Qed.
Lemma fallback_read n l d l1 : at_ l -> parseDeclarationOrFallback n l = Ok (d, l1) -> exists ts, okTo l ts l1 /\ gDecl content ts d.
Proof.
  unfold parseDeclarationOrFallback. intros A H. destruct (parseDeclaration n l) as [[d0 l2]|p lines|] eqn:E.
  - okinj H. eapply decl_read; eauto.
  - apply raw_read in H as (ts & O & G); [|rd]. exists ts. split; auto. eapply okTo_lines; eauto.
  - discriminate.
Qed.
Lemma declBlock_read n : forall l ds e l1, at_ l -> declBlockLoop n l = Ok (ds, e, l1) ->
  exists ts y, okTo l (ts ++ [y]) l1 /\ gDecls content ts ds /\ is RCurly y /\ e = upto y.
Proof.
  induction n as [|n IH]; intros l ds e l1 A H; cbn [declBlockLoop] in H; [discriminate|].
  destruct (teq (l_cur l) RCurly) eqn:Er.
  - apply teq_eq in Er. apply bind_ok in H as (l2 & E & H). okinj H. exists [], (tkOf false l). cbn [app].
    split; [rd|]. split; [constructor|]. rd.
  - apply bind_ok in H as ([d l2] & E & H). apply bind_ok in H as (l3 & E2 & H). apply bind_ok in H as ([[ds2 e2] l4] & E3 & H). okinj H.
    apply fallback_read in E as (ts & O & G); auto. destruct (teq (l_cur l2) Semicolon) eqn:Es.
    + apply teq_eq in Es. apply IH in E3 as (ts2 & y & O2 & G2 & Y & ->); [|rd].
      exists (ts ++ tkOf false l2 :: ts2), y. rewrite <- app_assoc. cbn [app]. split; [rd|].
      split; [apply gdSemi; rd|auto].
    + okinj E2. apply IH in E3 as (ts2 & y & O2 & G2 & Y & ->); [|rd].
      exists (ts ++ ts2), y. rewrite <- app_assoc. split; [rd|]. split; [apply gdCons; auto; left; reflexivity|auto].
Qed.
(** The opening token may have been read with any flag. *)
Lemma block_read n k l sp ds l1 : at_ l -> parseDeclarationBlock n l = Ok (sp, ds, l1) ->
  exists ts, path k l (tkOf k l :: ts) false l1 /\ at_ l1 /\ gBody content (tkOf k l) ts sp ds.
Proof.
  unfold parseDeclarationBlock. intros A H. cbv zeta in H. apply bind_ok in H as (l2 & E & H).
  apply bind_ok in H as ([[ds2 e] l3] & E2 & H). okinj H.
  apply declBlock_read in E2 as (ts & y & [O A1] & G & Y & ->); [|rd].
  exists (ts ++ [y]). split; [eapply path_cons; eauto|]. split; auto. exists ts, y. auto.
Qed.

(** * Selectors *)
Lemma path_first k l ts k1 l1 : path k l ts k1 l1 -> ts <> [] -> firstFrom ts = l_start l.
Proof.
  intros P. induction P; intros Hn; try congruence.
  - rewrite IHP by auto. reflexivity.
  - rewrite IHP by auto. reflexivity.
  - reflexivity.
Qed.
Lemma path_flag_cons b k l m ts k1 l1 : here content b (setRws l b) -> next (setRws l b) = Ok m -> path b m ts k1 l1 ->
  path k l (tkOf k l :: ts) k1 l1.
Proof.
  intros A E P. apply pathFlag with (b := b). change (tkOf k l) with (tkOf k (setRws l b)). eapply path_cons; eauto.
Qed.
Ltac eat := first [eassumption | match goal with
  | E : next _ = Ok ?l |- here _ _ ?l => refine (here_next _ _ _ _ _ E); eat
  | O : okTo _ _ ?l |- here _ _ ?l => exact (okTo_at _ _ _ O)
  | |- here _ _ (setRws _ _) => eapply here_rws; eat
  | |- here _ _ (setLines _ _) => eapply here_lines; eat
  end].
Ltac pg := first [eassumption | match goal with
  | |- path _ _ _ _ (setRws _ _) => apply path_end; pg
  | |- path _ ?l [] _ ?l => apply pathNil
  | E : next ?l = Ok ?m |- path _ ?l (_ :: _) _ _ => eapply (path_cons _ _ _ l m); [eat|exact E|pg]
  | E : next (setRws ?l ?b) = Ok ?m |- path _ ?l (_ :: _) _ _ => eapply (path_flag_cons b _ l m); [eat|exact E|pg]
  | P : path _ ?l ?a _ ?m |- path _ ?l (?a ++ _) _ _ => eapply path_app; [exact P|pg]
  | O : okTo ?l ?a ?m |- path _ ?l (?a ++ _) _ _ => eapply path_app; [exact (proj1 O)|pg]
  | |- path _ _ ((_ ++ _) ++ _) _ _ => rewrite <- app_assoc; pg
  | |- path _ _ ((_ :: _) ++ _) _ _ => cbn [app]; pg
  | O : okTo ?l ?a ?m |- path _ ?l ?a _ ?m => exact (proj1 O)
  end].

Lemma prefix1 p s : hasPrefix [p] s = true -> exists r, s = p :: r.
Proof. intros H. apply hasPrefix_spec in H. exact H. Qed.
Lemma no_prefix1 p s : hasPrefix [p] s = false -> forall r, s <> p :: r.
Proof.
  intros H r ->. assert (X : hasPrefix [p] (p :: r) = true) by (apply hasPrefix_spec; eexists; reflexivity). congruence.
Qed.

Lemma anb_read l a l1 : here content true l -> l_cur l = Number \/ l_cur l = Dimension \/ l_cur l = Ident -> parseANPlusB l = Ok (a, l1) ->
  l_cur l1 = RParen -> exists ts, path true l ts false l1 /\ here content true l1 /\ gNth ts a false.
Proof.
  unfold parseANPlusB. intros A Hne H Hr. cbv zeta in H. apply bind_ok in H as ([[[[a1 op] b] e] l2] & E1 & H).
  apply bind_ok in H as ([[[op2 b2] e2] l3] & E2 & H). okinj H. rename l3 into l1. change (l_cur (setRws l1 (l_rws l))) with (l_cur l1) in Hr.
  change (l_cur (setRws l false)) with (l_cur l) in E1. change (l_str (setRws l false)) with (l_str l) in E1.
  change (l_num (setRws l false)) with (l_num l) in E1. change (tokenEnd (setRws l false)) with (upto (tkOf true l)) in E1.
  change (tokenSpan (setRws l false)) with (k_sp (tkOf true l)) in *.
  assert (X : (l2 = setRws l false /\ l_cur l <> Number /\ curDelim l [B "+"; B "-"] = false) \/ (next (setRws l false) = Ok l2 /\ gAnb1 (tkOf true l) a1 op b /\ e = upto (tkOf true l))).
  { destruct (teq (l_cur l) Dimension && beq (l_str l) (B "n")) eqn:D1.
    { apply Bool.andb_true_iff in D1 as [D1 D2]. apply teq_eq in D1. apply beq_eq in D2. apply bind_ok in E1 as (m & E & E1). okinj E1.
      right. split; auto. split; auto. apply anbDim; auto. }
    destruct (teq (l_cur l) Dimension && hasPrefix (B "n") (l_str l)) eqn:D2.
    { apply Bool.andb_true_iff in D2 as [D2 D3]. apply teq_eq in D2. apply hasPrefix_spec in D3 as [num Dn]. rewrite Dn in E1. change (skipn 1 (B "n" ++ num)) with num in E1.
      apply bind_ok in E1 as (op1 & Eo & E1). destruct (isEmpty (skipn 1 num)) eqn:Ee; [discriminate|].
      apply bind_ok in E1 as (m & E & E1). okinj E1. right. split; auto. split; auto.
      assert (Y : num = op ++ skipn 1 num /\ sign op).
      { destruct (hasPrefix (B "-") num) eqn:P1.
        - apply prefix1 in P1 as [r ->]. okinj Eo. split; [reflexivity|right; reflexivity].
        - destruct (hasPrefix (B "+") num) eqn:P2; [|discriminate]. apply prefix1 in P2 as [r ->]. okinj Eo. split; [reflexivity|left; reflexivity]. }
      destruct Y as [Y1 Y2]. apply anbDimB; auto.
      - cbn [k_str tkOf]. rewrite Dn. rewrite Y1 at 1. reflexivity.
      - intros X. change (skipn 1 num = []) in X. rewrite X in Ee. discriminate. }
    destruct (teq (l_cur l) Ident && beq (l_str l) (B "n")) eqn:D3.
    { apply Bool.andb_true_iff in D3 as [D3 D4]. apply teq_eq in D3. apply beq_eq in D4. apply bind_ok in E1 as (m & E & E1).
      apply expect_ok in E as [_ E]. okinj E1. right. split; auto. split; auto. apply anbN; auto. }
    destruct (teq (l_cur l) Ident && beq (l_str l) (B "-n")) eqn:D4.
    { apply Bool.andb_true_iff in D4 as [D4 D5]. apply teq_eq in D4. apply beq_eq in D5. apply bind_ok in E1 as (m & E & E1).
      apply expect_ok in E as [_ E]. okinj E1. right. split; auto. split; auto. apply anbMinusN; auto. }
    destruct (teq (l_cur l) Number) eqn:D5.
    { apply teq_eq in D5. right. destruct (hasPrefix (B "-") (l_num l)) eqn:P1; [|destruct (hasPrefix (B "+") (l_num l)) eqn:P2];
        apply bind_ok in E1 as (m & E & E1); apply expect_ok in E as [_ E]; okinj E1; (split; [auto|]; split; [|auto]).
      - apply prefix1 in P1 as [r P1]. rewrite P1. cbn [skipn]. apply anbB; auto. right; reflexivity.
      - apply prefix1 in P2 as [r P2]. rewrite P2. cbn [skipn]. apply anbB; auto. left; reflexivity.
      - apply (anbB0 (tkOf true l)); auto. intros s r [->| ->]; [apply no_prefix1; exact P2|apply no_prefix1; exact P1]. }
    okinj E1. left. split; auto. apply teq_ne in D5. split; auto.
    unfold curDelim. destruct Hne as [Hn|[Hn|Hn]]; rewrite Hn; reflexivity. }
  destruct X as [(-> & N1 & N2)|(En & G & ->)].
  { exfalso. change (l_cur (setRws l false)) with (l_cur l) in E2. destruct (teq (l_cur l) Number) eqn:N3; [apply teq_eq in N3; contradiction|].
    change (curDelim (setRws l false)) with (curDelim l) in E2. rewrite N2 in E2. okinj E2. change (l_cur l = RParen) in Hr. rewrite Hr in Hne. intuition discriminate. }
  assert (A2 : at_ l2) by eat. replace (l_rws l) with true by (symmetry; apply A).
  destruct (teq (l_cur l2) Number) eqn:D1.
  { apply teq_eq in D1. apply bind_ok in E2 as (op1 & Eo & E2). apply bind_ok in E2 as (m & E & E2). apply expect_ok in E as [_ E]. okinj E2.
    exists [tkOf true l; tkOf false l2]. split; [pg|]. split; [eat|].
    apply (gnAnb2 (tkOf true l) a1 op b [tkOf false l2] op2 (skipn 1 (l_num l2)) (upto (tkOf false l2))); auto.
    assert (Y : l_num l2 = op2 ++ skipn 1 (l_num l2) /\ sign op2).
    { destruct (hasPrefix (B "-") (l_num l2)) eqn:P1.
      - apply prefix1 in P1 as [r ->]. okinj Eo. split; [reflexivity|right; reflexivity].
      - destruct (hasPrefix (B "+") (l_num l2)) eqn:P2; [|discriminate]. apply prefix1 in P2 as [r ->]. okinj Eo. split; [reflexivity|left; reflexivity]. }
    destruct Y. apply anbSigned; auto with rd. }
  destruct (curDelim l2 [B "+"; B "-"]) eqn:D2.
  { pose proof (curDelim_In _ _ D2) as Hi. apply Bool.andb_true_iff in D2 as [D2 _]. apply teq_eq in D2.
    apply bind_ok in E2 as (m & E & E2). apply bind_ok in E2 as (m2 & E3 & E2). apply expect_ok in E3 as [C3 E3]. okinj E2.
    exists [tkOf true l; tkOf false l2; tkOf false m]. split; [pg|]. split; [eat|].
    apply (gnAnb2 (tkOf true l) a1 op b [tkOf false l2; tkOf false m] (l_str l2) (l_num m) (upto (tkOf false m))); auto.
    apply (anbApart (tkOf false l2) (tkOf false m)); auto with rd. destruct Hi as [Hi|[Hi|[]]]; [left|right]; auto. }
  okinj E2. exists [tkOf true l]. split; [pg|]. split; [eat|]. apply (gnAnb1 (tkOf true l)); auto.
Qed.

Lemma attr_read n k l p l1 : here content true l -> l_cur l = LBracket -> parseAttributeSelector n l = Ok (p, l1) ->
  exists ts, path k l ts false l1 /\ here content true l1 /\ gPart k ts p false /\ sp_start (partSpan p) = l_start l.
Proof.
  unfold parseAttributeSelector. intros A C H. cbv zeta in H. replace (l_rws l) with true in H by (symmetry; apply A).
  apply bind_ok in H as (l2 & E & H). apply bind_ok in H as (l3 & E2 & H). apply expect_ok in E2 as [C2 E2].
  assert (A2 : at_ l2) by eat. assert (A3 : at_ l3) by eat.
  destruct (teq (l_cur l3) RBracket) eqn:Er.
  { apply teq_eq in Er. apply bind_ok in H as (l4 & E3 & H). okinj H. exists [tkOf k l; tkOf false l2; tkOf false l3].
    split; [pg|]. split; [eat|]. split; [|reflexivity]. apply (gpAttr k (tkOf k l) (tkOf false l2) (tkOf false l3)); auto with rd. }
  apply teq_ne in Er. apply bind_ok in H as ([pre l4] & Hp & H).
  assert (X : exists op, okTo l3 op l4 /\ gAttrOp op pre).
  { clear H. destruct (bmem (l_str l3) _) eqn:Em.
    - apply bind_ok in Hp as (l5 & E3 & Hp). destruct (beq (l_str l5) (B "=")) eqn:Eb; cbn [negb] in Hp; [|discriminate].
      apply beq_eq in Eb. apply bind_ok in Hp as (l6 & E4 & Hp). apply expect_ok in E4 as [C4 E4]. okinj Hp.
      exists [tkOf false l3; tkOf false l5]. split; [rd|]. apply (gaPre (tkOf false l3) (tkOf false l5)); auto with rd. apply bmem_In. exact Em.
    - apply bind_ok in Hp as (l5 & E3 & Hp). apply expect_ok in E3 as [C3 E3]. okinj Hp.
      exists [tkOf false l3]. split; [rd|]. apply gaPlain; auto with rd. intros Hi. apply bmem_In in Hi. cbn [k_str tkOf] in Hi. congruence. }
  destruct X as (op & O & Go). clear Hp. apply bind_ok in H as ([v l5] & Ev & H). assert (A4 : at_ l4) by eat.
  apply value_read in Ev as [[-> ->]|(ts & Ov & Gv)]; auto; [discriminate|].
  destruct (isNil v); [discriminate|]. destruct (_ && _) eqn:Em.
  - apply Bool.andb_true_iff in Em as [C5 Em]. apply teq_eq in C5. apply bind_ok in H as (l6 & E3 & H). apply bind_ok in H as (l7 & E4 & H).
    apply expect_ok in E4 as [C6 E4]. okinj H. exists (tkOf k l :: tkOf false l2 :: op ++ ts ++ [tkOf false l5; tkOf false l6]).
    split; [pg|]. split; [eat|]. split; [|reflexivity].
    apply (gpAttrMod k (tkOf k l) (tkOf false l2) op pre ts v (tkOf false l5) (tkOf false l6)); auto with rd.
    apply Bool.orb_true_iff in Em as [Em|Em]; apply beq_eq in Em; auto.
  - apply bind_ok in H as (l6 & E4 & H). apply expect_ok in E4 as [C6 E4]. okinj H.
    exists (tkOf k l :: tkOf false l2 :: op ++ ts ++ [tkOf false l5]). split; [pg|]. split; [eat|]. split; [|reflexivity].
    apply (gpAttrOp k (tkOf k l) (tkOf false l2) op pre ts v (tkOf false l5)); auto with rd.
Qed.

(** The token after a selector. *)
Definition stops (t : token) : Prop := ~ In t [EOF; Whitespace; Ident; Hash; Delim; Colon; LBracket].
Definition startIs (sps : list span) (a : nat) : Prop := match sps with sp :: _ => sp_start sp = a | [] => False end.
Lemma spanning_of sps a d : startIs sps a -> mkSpan a (sp_end (last sps d)) = spanning sps.
Proof.
  destruct sps as [|sp sps]; [intros []|]. cbn [startIs]. intros <-. unfold spanning. cbn [hd]. f_equal. f_equal.
  clear. revert sp. induction sps as [|s2 sps IH]; intros sp; [reflexivity|]. exact (IH s2).
Qed.
Lemma nthFunction_iff n : nthFunction n <-> isNthName n = true.
Proof. unfold nthFunction, isNthName. symmetry. apply bmem_In. Qed.

Definition RSS n := forall b l s l1, here content b l -> parseSelectorList n l = Ok (s, l1) ->
  exists ts k1, path b l ts k1 l1 /\ here content b l1 /\ gSelectors b ts (snd s) k1 /\ fst s = spanning (map fst (snd s)) /\
    ts <> [] /\ stops (l_cur l1) /\ sp_start (fst s) = l_start l.
Definition RSL n := forall b l ss l1, here content b l -> selListLoop n l = Ok (ss, l1) ->
  exists ts k1, path b l ts k1 l1 /\ here content b l1 /\ gSelectors b ts ss k1 /\ ts <> [] /\ stops (l_cur l1) /\ startIs (map fst ss) (l_start l).
Definition RS1 n := forall k b l s l1, here content b l -> parseSelector n l = Ok (s, l1) ->
  exists ts k1 ps, path k l ts k1 l1 /\ here content b l1 /\ gParts k ts ps k1 /\ ps <> [] /\ ts <> [] /\
    s = (spanning (map partSpan ps), ps) /\ stops (l_cur l1) /\ sp_start (fst s) = l_start l.
Definition RPt n := forall le k l ps e l1, here content true l -> partsLoop n le l = Ok (ps, e, l1) ->
  exists ts k1, path k l ts k1 l1 /\ here content true l1 /\ gParts k ts ps k1 /\ stops (l_cur l1) /\
    match ps with [] => le = Some e | _ => e = sp_end (last (map partSpan ps) (mkSpan 0 0)) /\ startIs (map partSpan ps) (l_start l) /\ ts <> [] end.
Lemma gPart_nonempty k ts p k1 : gPart k ts p k1 -> ts <> [].
Proof. destruct 1; discriminate. Qed.
Lemma path_empty k l k1 l1 : path k l [] k1 l1 -> k = k1.
Proof. intros H. remember [] as ts. induction H; auto. discriminate. Qed.
Lemma selectors_read n : RSS n /\ RSL n /\ RS1 n /\ RPt n.
Proof.
  induction n as [|n (I1 & I2 & I3 & I4)]; [repeat split; repeat intro; discriminate|].
  split; [|split; [|split]].
  - intros b l s l1 A H. cbn [parseSelectorList] in H. cbv zeta in H. apply bind_ok in H as ([sels l2] & E & H). okinj H.
    apply (I2 b) in E as (ts & k1 & P & A1 & G & N & St & Hs); auto. exists ts, k1. cbn [fst snd].
    split; auto. split; auto. split; auto. split; [unfold lastEndOf; apply spanning_of; exact Hs|auto].
  - intros b l ss l1 A H. cbn [selListLoop] in H. destruct (teq (l_cur l) EOF); [discriminate|].
    apply bind_ok in H as ([s l2] & E & H). apply (I3 b b) in E as (ts & k1 & ps & P & A1 & G & N & Nt & -> & St & Hs); auto.
    destruct (teq (l_cur l2) Comma) eqn:Ec.
    + apply teq_eq in Ec. apply bind_ok in H as (l3 & E2 & H). apply bind_ok in H as ([ss2 l4] & E3 & H). okinj H.
      assert (A3 : here content b l3) by eat.
      apply (I2 b) in E3 as (ts2 & k2 & P2 & A2 & G2 & N2 & St2 & Hs2); auto.
      exists (ts ++ tkOf k1 l2 :: ts2), k2. split; [pg|]. split; auto.
      split; [apply (gsMore b ts ps k1 (tkOf k1 l2)); auto with rd|]. split; [destruct ts; discriminate|]. auto.
    + okinj H. exists ts, k1. split; auto. split; auto. split; [constructor; auto|]. auto.
  - intros k b l s l1 A H. cbn [parseSelector] in H. cbv zeta in H. apply bind_ok in H as ([[ps e] l2] & E & H). okinj H.
    apply (I4 _ k) in E as (ts & k1 & P & A1 & G & St & Hp); [|eat]. exists ts, k1, ps.
    split; [apply path_end; eapply pathFlag; eauto|]. split; [replace b with (l_rws l) by apply A; eat|]. split; auto.
    destruct ps as [|p ps]; [discriminate|]. destruct Hp as (-> & Hs & Nt). split; [discriminate|]. split; auto.
    split; [f_equal; apply spanning_of; exact Hs|]. split; auto.
  - intros le k l ps e l1 A H. cbn [partsLoop] in H. cbv zeta in H.
    assert (Hcont : forall p ts k1 l2, gPart k ts p k1 -> path k l ts k1 l2 -> here content true l2 -> sp_start (partSpan p) = l_start l ->
      ('(ps, e, l2) <- partsLoop n (Some (sp_end (partSpan p))) l2 ;; Ok (p :: ps, e, l2)) = Ok (ps, e, l1) ->
      exists ts k1, path k l ts k1 l1 /\ here content true l1 /\ gParts k ts ps k1 /\ stops (l_cur l1) /\
        match ps with [] => le = Some e | _ => e = sp_end (last (map partSpan ps) (mkSpan 0 0)) /\ startIs (map partSpan ps) (l_start l) /\ ts <> [] end).
    { clear H. intros p ts k1 l2 G P A2 Hs H. apply bind_ok in H as ([[ps2 e2] l3] & E & H). okinj H.
      apply (I4 _ k1) in E as (ts2 & k2 & P2 & A3 & G2 & St & Hp); auto. exists (ts ++ ts2), k2.
      split; [pg|]. split; auto. split; [econstructor; eauto|]. split; auto.
      split; [|split; [exact Hs|apply gPart_nonempty in G; destruct ts; [congruence|discriminate]]].
      destruct ps2 as [|p2 ps2]; [injection Hp as <-; reflexivity|]. destruct Hp as [-> _]. reflexivity. }
    assert (Hdef : stops (l_cur l) -> match le with None => errorf l (B "expected selector") | Some e => Ok (@nil selpart, e, l) end = Ok (ps, e, l1) ->
      exists ts k1, path k l ts k1 l1 /\ here content true l1 /\ gParts k ts ps k1 /\ stops (l_cur l1) /\
        match ps with [] => le = Some e | _ => e = sp_end (last (map partSpan ps) (mkSpan 0 0)) /\ startIs (map partSpan ps) (l_start l) /\ ts <> [] end).
    { clear H. intros Hst H. destruct le as [e0|]; [|discriminate]. okinj H. exists [], k. split; [apply pathNil|]. split; auto.
      split; [constructor|]. split; auto. }
    destruct (l_cur l) eqn:Ec; try (apply Hdef; [cbv; intuition discriminate|exact H]); try discriminate H; clear Hdef.
    + (* Whitespace *)
      apply bind_ok in H as (l2 & E & H). eapply (Hcont _ [tkOf k l]) in H; eauto; [apply (gpSpace k (tkOf k l)); auto with rd|pg|eat].
    + (* Colon *)
      apply bind_ok in H as (l2 & E & H). apply bind_ok in H as (l3 & E2 & H). apply bind_ok in H as ([[args e2] l4] & Ha & H).
      assert (A2 : here content true l2) by eat.
      assert (A3 : here content true l3) by (destruct (teq (l_cur l2) Colon); [eat|okinj E2; auto]).
      assert (X : exists ts, path true l3 ts true l4 /\ here content true l4 /\ gPseudo ts (l_str l3) args e2).
      { clear H Hcont E2 E. destruct (l_cur l3) eqn:Ec3; try discriminate Ha.
        2:{ apply bind_ok in Ha as (l5 & E5 & Ha). okinj Ha. exists [tkOf true l3]. split; [pg|]. split; [eat|]. apply (gpsName (tkOf true l3)); auto with rd. }
        apply bind_ok in Ha as (l5 & E5 & Ha). apply bind_ok in Ha as ([args2 l6] & Hb & Ha).
        apply bind_ok in Ha as (l7 & E7 & Ha). apply expect_ok in E7 as [C6 E7]. okinj Ha. assert (A5 : here content true l5) by eat.
        destruct (isNthName (l_str l3)) eqn:En.
        - assert (Y : exists ts k, path true l5 ts k l6 /\ here content true l6 /\ gNth ts args k).
          { assert (Hanb : l_cur l5 = Number \/ l_cur l5 = Dimension \/ l_cur l5 = Ident -> parseANPlusB l5 = Ok (args, l6) ->
              exists ts k, path true l5 ts k l6 /\ here content true l6 /\ gNth ts args k).
            { intros Hc Hx. apply anb_read in Hx as (ts & X); auto. exists ts, false. exact X. }
            assert (Hnone : Ok (PANone, l5) = Ok (args, l6) -> exists ts k, path true l5 ts k l6 /\ here content true l6 /\ gNth ts args k).
            { intros Hx. okinj Hx. exists [], true. split; [apply pathNil|]. split; [auto|constructor]. }
            destruct (l_cur l5) eqn:Ec5; try exact (Hnone Hb); try (apply Hanb; [auto|exact Hb]).
            destruct (_ || _); [apply Hanb; auto|]. destruct (beq (l_str l5) (B "even")) eqn:Ee; cbn [negb andb] in Hb.
            - apply bind_ok in Hb as (l8 & E8 & Hb). okinj Hb. exists [tkOf true l5], true. split; [pg|]. split; [eat|].
              apply (gnWord (tkOf true l5)); auto with rd. left. apply beq_eq. exact Ee.
            - destruct (beq (l_str l5) (B "odd")) eqn:Eo; cbn [negb] in Hb; [|discriminate].
              apply bind_ok in Hb as (l8 & E8 & Hb). okinj Hb. exists [tkOf true l5], true. split; [pg|]. split; [eat|].
              apply (gnWord (tkOf true l5)); auto with rd. right. apply beq_eq. exact Eo. }
          destruct Y as (ts & k2 & P & A6 & G). exists (tkOf true l3 :: ts ++ [tkOf k2 l6]). split; [pg|]. split; [eat|].
          apply (gpsNth (tkOf true l3) ts args k2 (tkOf k2 l6)); auto with rd. apply nthFunction_iff. exact En.
        - apply bind_ok in Hb as ([[slsp sels] l8] & Hb & Hc). okinj Hc. apply (I1 true) in Hb as (ts & k2 & P & A6 & G & Hf & N & St & Hs); auto.
          cbn [fst snd] in *. subst slsp. exists (tkOf true l3 :: ts ++ [tkOf k2 l6]). split; [pg|]. split; [eat|].
          apply (gpsSel (tkOf true l3) ts sels k2 (tkOf k2 l6)); auto with rd. rewrite nthFunction_iff. change (isNthName (l_str l3) <> true). congruence. }
      destruct X as (ts & P & A4 & G). destruct (teq (l_cur l2) Colon) eqn:Ew.
      * apply teq_eq in Ew. eapply (Hcont _ (tkOf k l :: tkOf true l2 :: ts)) in H; eauto.
        { apply (gpPseudoEl k (tkOf k l) (tkOf true l2)); auto with rd. }
        { pg. }
      * okinj E2. eapply (Hcont _ (tkOf k l :: ts)) in H; eauto.
        { apply (gpPseudo k (tkOf k l)); auto with rd. }
        { pg. }
    + (* LBracket *)
      apply bind_ok in H as ([p l2] & E & H). apply (attr_read n k) in E as (ts & P & A2 & G & Hs); auto. eapply Hcont in H; eauto.
    + apply bind_ok in H as (l2 & E & H). eapply (Hcont _ [tkOf k l]) in H; eauto; [apply (gpId k (tkOf k l)); auto with rd|pg|eat].
    + apply bind_ok in H as (l2 & E & H). eapply (Hcont _ [tkOf k l]) in H; eauto; [apply (gpType k (tkOf k l)); auto with rd|pg|eat].
    + (* Delim *)
      destruct (beq (l_str l) (B ".")) eqn:Ed.
      { apply beq_eq in Ed. apply bind_ok in H as (l2 & E & H). apply bind_ok in H as (l3 & E2 & H). apply expect_ok in E2 as [C2 E2].
        assert (A2 : here content true l2) by eat.
        eapply (Hcont _ [tkOf k l; tkOf true l2]) in H; eauto; [apply (gpClass k (tkOf k l) (tkOf true l2)); auto with rd|pg|eat]. }
      destruct (bmem (l_str l) _) eqn:Em.
      { apply bmem_In in Em. apply bind_ok in H as (l2 & E & H).
        eapply (Hcont _ [tkOf k l]) in H; eauto; [apply (gpComb k (tkOf k l)); auto with rd|pg|eat]. }
      destruct (beq (l_str l) (B "*")) eqn:Es; [|discriminate]. apply beq_eq in Es. apply bind_ok in H as (l2 & E & H).
      eapply (Hcont _ [tkOf k l]) in H; eauto; [apply (gpAny k (tkOf k l)); auto with rd|pg|eat].
Qed.

(** * Rules *)
Lemma keyLoop_read n : forall l ks l1, at_ l -> keyLoop n l = Ok (ks, l1) ->
  exists ts, okTo l ts l1 /\ gKeys ts ks /\ ts <> [] /\ startIs (map keySpan ks) (l_start l).
Proof.
  induction n as [|n IH]; intros l ks l1 A H; cbn [keyLoop] in H; [discriminate|].
  destruct (teq (l_cur l) EOF); [discriminate|]. apply bind_ok in H as (k & Hk & H).
  assert (Hs : gKey (tkOf false l) k /\ sp_start (keySpan k) = l_start l).
  { clear H. destruct (l_cur l) eqn:Ec; try discriminate Hk.
    - okinj Hk. split; [|reflexivity]. apply (gkPercent (tkOf false l)). auto with rd.
    - destruct (_ && _) eqn:Eb; [discriminate|]. okinj Hk. split; [|reflexivity]. apply (gkIdent (tkOf false l)); auto with rd.
      apply Bool.andb_false_iff in Eb as [X|X]; apply Bool.negb_false_iff, beq_eq in X; auto. }
  destruct Hs as [Hg Hs]. clear Hk. apply bind_ok in H as (l2 & E & H). destruct (teq (l_cur l2) Comma) eqn:Ec.
  - apply teq_eq in Ec. apply bind_ok in H as (l3 & E2 & H). apply bind_ok in H as ([ks2 l4] & E3 & H). okinj H.
    apply IH in E3 as (ts & O & G & N & S1); [|rd]. exists (tkOf false l :: tkOf false l2 :: ts). split; [rd|].
    split; [apply gksMore; auto with rd|]. split; [discriminate|auto].
  - okinj H. exists [tkOf false l]. split; [rd|]. split; [apply gksOne; auto|]. split; [discriminate|auto].
Qed.
Lemma selectors_stop n l : stops (l_cur l) -> forall s l1, parseSelectorList n l <> Ok (s, l1).
Proof.
  intros Hs s l1 H. destruct n as [|n]; [discriminate H|]. cbn [parseSelectorList] in H. apply bind_ok in H as ([ss l2] & H & _).
  destruct n as [|n]; [discriminate H|]. cbn [selListLoop] in H. destruct (teq (l_cur l) EOF); [discriminate H|].
  apply bind_ok in H as ([s2 l3] & H & _). destruct n as [|n]; [discriminate H|]. cbn [parseSelector] in H.
  apply bind_ok in H as ([[ps e] l4] & H & _). destruct n as [|n]; [discriminate H|]. cbn [partsLoop] in H. cbv zeta in H.
  change (l_cur (setRws l true)) with (l_cur l) in H.
  destruct (l_cur l); try discriminate H; apply Hs; cbn; tauto.
Qed.

Variable run : nat.
Lemma keyrule_read n : forall st pr l r l1, at_ l -> qruleLoop run n true st pr l = Ok (r, l1) ->
  (exists ts sp ds, is LCurly (tkOf false l) /\ okTo l (tkOf false l :: ts) l1 /\ gBody content (tkOf false l) ts sp ds /\
     r = mkRule run (mkSpan st (sp_end sp)) pr sp ds) \/
  (exists ts ks o ts2 sp ds, okTo l (ts ++ o :: ts2) l1 /\ gKeyLists ts ks /\ ts <> [] /\ is LCurly o /\ gBody content o ts2 sp ds /\
     r = mkRule run (mkSpan st (sp_end sp)) (PrKey (spanning (map keySpan ks)) ks) sp ds).
Proof.
  induction n as [|n IH]; intros st pr l r l1 A H; cbn [qruleLoop] in H; [discriminate|].
  assert (Hdef : ('(pr1, l1) <- parseKeyframeSelectorList n l ;; qruleLoop run n true st pr1 l1) = Ok (r, l1) ->
    exists ts ks o ts2 sp ds, okTo l (ts ++ o :: ts2) l1 /\ gKeyLists ts ks /\ ts <> [] /\ is LCurly o /\ gBody content o ts2 sp ds /\
     r = mkRule run (mkSpan st (sp_end sp)) (PrKey (spanning (map keySpan ks)) ks) sp ds).
  { clear H. intros H. apply bind_ok in H as ([pr1 l2] & E & H). unfold parseKeyframeSelectorList in E. cbv zeta in E.
    apply bind_ok in E as ([ks l3] & E & E2). okinj E2. apply keyLoop_read in E as (ts & O & G & N & Hs); auto.
    unfold lastEndOf in H. rewrite spanning_of in H by exact Hs.
    apply IH in H as [(ts2 & sp & ds & Hl & O2 & G2 & ->)|(ts2 & ks2 & o & ts3 & sp & ds & O2 & G2 & N2 & Hl & G3 & ->)]; [| |rd].
    - exists ts, ks, (tkOf false l2), ts2, sp, ds. split; [rd|]. split; [constructor; auto|]. auto.
    - exists (ts ++ ts2), ks2, o, ts3, sp, ds. split; [rd|]. split; [eapply gklSkip; eauto; reflexivity|].
      split; [destruct ts; [congruence|discriminate]|]. auto. }
  destruct (l_cur l) eqn:Ec; try (right; apply Hdef; exact H); try discriminate H.
  left. apply bind_ok in H as ([[bsp ds] l2] & E & H). okinj H. apply (block_read n false) in E as (ts & P & A1 & G); auto.
  exists ts, bsp, ds. split; [auto with rd|]. split; [split; auto|]. auto.
Qed.
Lemma bare_span o ts sp ds : gBody content o ts sp ds -> mkSpan (from o) (sp_end sp) = sp.
Proof. intros (ts1 & y & _ & _ & _ & ->). reflexivity. Qed.
Lemma okTo_path l ts l1 : okTo l ts l1 -> path false l ts false l1.
Proof. intros [P _]. exact P. Qed.
Lemma rule_read n kf l r l1 : at_ l -> parseQualifiedRule run n kf l = Ok (r, l1) ->
  exists ts, okTo l ts l1 /\ gRule content run kf ts r.
Proof.
  unfold parseQualifiedRule. intros A H. destruct kf.
  { apply keyrule_read in H as [(ts & sp & ds & Hl & O & G & ->)|(ts & ks & o & ts2 & sp & ds & O & G & N & Hl & G3 & ->)]; auto.
    - exists (tkOf false l :: ts). split; auto. change (sp_start (tokenSpan l)) with (from (tkOf false l)).
      rewrite (bare_span _ _ _ _ G). apply grBare; auto.
    - exists (ts ++ o :: ts2). split; auto. pose proof (path_first _ _ _ _ _ (okTo_path _ _ _ O)) as Hf.
      replace (sp_start (tokenSpan l)) with (firstFrom ts); [apply grKey; auto|].
      destruct ts; [congruence|]. apply Hf. discriminate. }
  destruct n as [|n]; [discriminate|]. cbn [qruleLoop] in H.
  assert (Hdef : ('(sl, l1) <- parseSelectorList n l ;; qruleLoop run n false (sp_start (tokenSpan l)) (PrSel sl) l1) = Ok (r, l1) ->
    exists ts, okTo l ts l1 /\ gRule content run false ts r).
  { clear H. intros H. apply bind_ok in H as ([[ssp sels] l2] & E & H). destruct (selectors_read n) as (Rs & _).
    apply (Rs false) in E as (ts & k1 & P & A1 & G & Hf & N & St & Hs); auto. cbn [fst snd] in *. subst ssp.
    destruct n as [|n]; [discriminate|]. cbn [qruleLoop] in H.
    destruct (l_cur l2) eqn:Ec; try discriminate H;
      try (apply bind_ok in H as ([sl3 l3] & E3 & H); exfalso; eapply selectors_stop; [|exact E3]; rewrite Ec; exact St).
    apply bind_ok in H as ([[bsp ds] l3] & E & H). okinj H. apply (block_read n k1) in E as (ts2 & P2 & A2 & G2); auto.
    exists (ts ++ tkOf k1 l2 :: ts2). split; [split; auto; eapply path_app; eauto|].
    pose proof (path_first _ _ _ _ _ P N) as Hf. try change (sp_start (tokenSpan l)) with (l_start l). rewrite <- Hf.
    eapply grSel; eauto with rd. }
  destruct (l_cur l) eqn:Ec; try (apply Hdef; exact H); try discriminate H.
  apply bind_ok in H as ([[bsp ds] l2] & E & H). okinj H. apply (block_read n false) in E as (ts & P & A1 & G); auto.
  exists (tkOf false l :: ts). split; [split; auto|]. change (l_start l) with (from (tkOf false l)).
  rewrite (bare_span _ _ _ _ G). apply grBare; auto with rd.
Qed.
Lemma rules_read n : forall kf l rs e l1, at_ l -> rulesLoop run n kf l = Ok (rs, e, l1) ->
  exists ts y, okTo l (ts ++ [y]) l1 /\ gRules content run kf ts rs /\ is RCurly y /\ e = upto y.
Proof.
  induction n as [|n IH]; intros kf l rs e l1 A H; cbn [rulesLoop] in H; [discriminate|].
  assert (Hdef : ('(r, l1) <- parseQualifiedRule run n kf l ;;
      '(rs, e, l2) <- rulesLoop run n kf l1 ;; Ok (r :: rs, e, l2)) = Ok (rs, e, l1) ->
    exists ts y, okTo l (ts ++ [y]) l1 /\ gRules content run kf ts rs /\ is RCurly y /\ e = upto y).
  { clear H. intros H. apply bind_ok in H as ([r l2] & H1 & H). apply bind_ok in H as ([[rs2 e2] l3] & H2 & H). okinj H.
    apply rule_read in H1 as (ts & O & G); auto. apply IH in H2 as (ts2 & y & O2 & G2 & Y & ->); [|rd].
    exists (ts ++ ts2), y. split; [rd|]. split; [constructor; auto|auto]. }
  destruct (l_cur l) eqn:Ec; try exact (Hdef H); try discriminate H.
  apply bind_ok in H as (l2 & E & H). okinj H. exists [], (tkOf false l). cbn [app]. split; [rd|]. split; [constructor|]. auto with rd.
Qed.

(** * Media queries *)
Lemma rangeOp_read l op l1 : at_ l -> l_cur l = Delim -> parseMediaRangeOperator l = Ok (op, l1) -> exists ts, okTo l ts l1 /\ gRangeOp ts op.
Proof.
  unfold parseMediaRangeOperator. intros A C H. cbv zeta in H. apply bind_ok in H as (l2 & E & H).
  destruct (teq (l_cur l2) Delim) eqn:Ed.
  - apply teq_eq in Ed. destruct (beq (l_str l2) (B "=")) eqn:Eq; cbn [negb orb] in H; [|discriminate]. apply beq_eq in Eq.
    destruct (beq (l_str l) (B "<")) eqn:El; cbn [negb orb] in H.
    + apply beq_eq in El. apply bind_ok in H as (l3 & E2 & H). okinj H. exists [tkOf false l; tkOf false l2]. split; [rd|].
      pose proof (groLe (tkOf false l) (tkOf false l2)) as G. cbn [k_str tkOf] in G. rewrite El, Eq in G. apply G; auto with rd.
    + destruct (beq (l_str l) (B ">")) eqn:Eg; cbn [negb] in H; [|discriminate].
      apply beq_eq in Eg. apply bind_ok in H as (l3 & E2 & H). okinj H. exists [tkOf false l; tkOf false l2]. split; [rd|].
      pose proof (groLe (tkOf false l) (tkOf false l2)) as G. cbn [k_str tkOf] in G. rewrite Eg, Eq in G. apply G; auto with rd.
  - destruct (beq (l_str l) (B "<")) eqn:El; [|destruct (beq (l_str l) (B ">")) eqn:Eg; [|discriminate]]; okinj H;
      exists [tkOf false l]; (split; [rd|]); pose proof (groLt (tkOf false l)) as G; cbn [k_str tkOf] in G.
    + apply beq_eq in El. rewrite El in G. auto with rd.
    + apply beq_eq in Eg. rewrite Eg in G. auto with rd.
Qed.
Lemma gOpt_ident ts sp s : gOpt ts (VIdent sp s) -> exists p, ts = [p] /\ is Ident p /\ sp = k_sp p /\ s = k_str p.
Proof. intros [[_ X]|X]; [discriminate|]. inversion X; subst. eauto. Qed.
Lemma feature_read n l p l1 : at_ l -> parseMediaFeature n l = Ok (p, l1) ->
  exists ts, okTo l ts l1 /\ gQueryPart ts p /\ sp_start (mqpartSpan p) = l_start l.
Proof.
  unfold parseMediaFeature. intros A H. cbv zeta in H. apply bind_ok in H as (l2 & E & H). apply expect_ok in E as [C E].
  apply bind_ok in H as ([first l3] & E2 & H). apply value_gopt in E2 as (ts & O & G); [|rd].
  destruct (l_cur l3) eqn:Ec; try discriminate H.
  - apply bind_ok in H as (l4 & E3 & H). destruct first; try discriminate H.
    apply bind_ok in H as ([second l5] & E4 & H). apply value_gopt in E4 as (ts2 & O2 & G2); [|rd].
    apply bind_ok in H as (l6 & E5 & H). apply expect_ok in E5 as [C5 E5]. okinj H.
    apply gOpt_ident in G as (q & -> & Q & -> & ->). exists (tkOf false l :: [q] ++ tkOf false l3 :: ts2 ++ [tkOf false l5]).
    split; [rd|]. split; [|reflexivity]. apply (gqPlain (tkOf false l) q (tkOf false l3) ts2 second (tkOf false l5)); auto with rd.
  - apply bind_ok in H as (l4 & E3 & H). destruct first; try discriminate H. okinj H.
    apply gOpt_ident in G as (q & -> & Q & -> & ->). exists (tkOf false l :: [q] ++ [tkOf false l3]).
    split; [rd|]. split; [|reflexivity]. apply (gqName (tkOf false l) q (tkOf false l3)); auto with rd.
  - apply bind_ok in H as ([op l4] & E3 & H). apply rangeOp_read in E3 as (o & Oo & Go); auto; [|rd].
    apply bind_ok in H as ([second l5] & E4 & H). apply value_gopt in E4 as (ts2 & O2 & G2); [|rd].
    assert (Hrest : (forall sp s, second <> VIdent sp s) -> match first with
      | VIdent isp prop =>
        l5' <- expect RParen l5 ;;
        Ok (MRange (mkSpan (sp_start (tokenSpan l)) (tokenEnd l5)) isp prop VNil op second, l5')
      | _ => errorf l5 (B "expected identifier")
      end = Ok (p, l1) -> exists ts, okTo l ts l1 /\ gQueryPart ts p /\ sp_start (mqpartSpan p) = l_start l).
    { clear H. intros Hn H. destruct first; try discriminate H. apply bind_ok in H as (l6 & E5 & H). apply expect_ok in E5 as [C5 E5]. okinj H.
      apply gOpt_ident in G as (q & -> & Q & -> & ->). exists (tkOf false l :: [q] ++ o ++ ts2 ++ [tkOf false l5]).
      split; [rd|]. split; [|reflexivity]. apply (gqRange3 (tkOf false l) q o op ts2 second (tkOf false l5)); auto with rd. }
    destruct second; try (apply Hrest; [discriminate|exact H]). clear Hrest.
    apply gOpt_ident in G2 as (q & -> & Q & -> & ->). apply bind_ok in H as ([rhs l6] & E5 & H).
    apply bind_ok in H as (l7 & E6 & H). apply expect_ok in E6 as [C6 E6]. okinj H. destruct (teq (l_cur l5) Delim) eqn:Ed.
    + apply teq_eq in Ed. apply bind_ok in E5 as ([op2 l8] & E7 & E5). apply rangeOp_read in E7 as (o2 & Oo2 & Go2); auto; [|rd].
      destruct (beq op2 op) eqn:Eb; cbn [negb] in E5; [|discriminate]. apply beq_eq in Eb. subst op2.
      apply value_gopt in E5 as (ts3 & O3 & G3); [|rd]. exists (tkOf false l :: ts ++ o ++ [q] ++ o2 ++ ts3 ++ [tkOf false l6]).
      split; [rd|]. split; [|reflexivity]. apply (gqRange2 (tkOf false l) ts first o op q o2 ts3 rhs (tkOf false l6)); auto with rd.
    + okinj E5. exists (tkOf false l :: ts ++ o ++ [q] ++ [tkOf false l6]).
      split; [rd|]. split; [|reflexivity]. apply (gqRange1 (tkOf false l) ts first o op q (tkOf false l6)); auto with rd.
Qed.
Lemma gQueryPart_nonempty ts p : gQueryPart ts p -> ts <> [].
Proof. destruct 1; discriminate. Qed.
Lemma mqParts_read n : forall l ps l1, at_ l -> mqPartsLoop n l = Ok (ps, l1) ->
  exists ts, okTo l ts l1 /\ gQuery ts ps /\ (ps = [] /\ ts = [] \/ startIs (map mqpartSpan ps) (l_start l)).
Proof.
  induction n as [|n IH]; intros l ps l1 A H; cbn [mqPartsLoop] in H; [discriminate|].
  destruct (l_cur l) eqn:Ec; try discriminate H;
    try (okinj H; exists []; split; [rd|]; split; [constructor|left; auto]; fail).
  - apply bind_ok in H as ([p l2] & E & H). apply bind_ok in H as ([ps2 l3] & E2 & H). okinj H.
    apply feature_read in E as (ts & O & G & Hs); auto. apply IH in E2 as (ts2 & O2 & G2 & _); [|rd].
    exists (ts ++ ts2). split; [rd|]. split; [constructor; auto|]. right. exact Hs.
  - apply bind_ok in H as (l2 & E & H). apply bind_ok in H as ([ps2 l3] & E2 & H). okinj H.
    apply IH in E2 as (ts2 & O2 & G2 & _); [|rd].
    exists ([tkOf false l] ++ ts2). split; [rd|]. split; [constructor; auto; apply (gqIdent (tkOf false l)); auto with rd|]. right. reflexivity.
Qed.
Lemma asQuery_of ps a : ps = [] \/ startIs (map mqpartSpan ps) a ->
  match ps with [] => [] | _ => [(mkSpan a (lastEndOf a (map mqpartSpan ps)), ps)] end = asQuery ps.
Proof.
  intros H. destruct ps as [|p ps]; [reflexivity|]. destruct H as [H|H]; [discriminate|]. unfold asQuery, lastEndOf. rewrite spanning_of by exact H. reflexivity.
Qed.
Lemma mqList_read n : forall l qs l1, at_ l -> mqListLoop n l = Ok (qs, l1) ->
  exists ts, okTo l ts l1 /\ gQueries ts qs /\ (qs <> [] -> ts <> []).
Proof.
  induction n as [|n IH]; intros l qs l1 A H; cbn [mqListLoop] in H; [discriminate|].
  destruct (teq (l_cur l) EOF); [discriminate|]. apply bind_ok in H as ([parts l2] & H1 & H). cbv zeta in H.
  apply mqParts_read in H1 as (ts & O & G & Hs); auto. change (sp_start (tokenSpan l)) with (l_start l) in H.
  rewrite asQuery_of in H by tauto.
  destruct (teq (l_cur l2) Comma) eqn:Ec.
  - apply teq_eq in Ec. apply bind_ok in H as (l3 & E2 & H). apply bind_ok in H as ([qs2 l4] & E3 & H). okinj H.
    apply IH in E3 as (ts2 & O2 & G2 & _); [|rd]. exists (ts ++ tkOf false l2 :: ts2). split; [rd|].
    split; [apply gqsMore; auto with rd|]. intros _. destruct ts; discriminate.
  - okinj H. exists ts. split; [rd|]. split; [constructor; auto|]. intros Hn. inversion G; subst; [exfalso; apply Hn; reflexivity|].
    match goal with X : gQueryPart _ _ |- _ => apply gQueryPart_nonempty in X; destruct ts0; [congruence|discriminate] end.
Qed.
Lemma last_default {A} (a b : A) l : l <> [] -> last l a = last l b.
Proof. induction l as [|x l IH]; [congruence|]. intros _. destruct l; [reflexivity|]. apply IH. discriminate. Qed.
Lemma mql_read n l mq l1 : at_ l -> parseMediaQueryList n l = Ok (mq, l1) ->
  exists ts qs, okTo l ts l1 /\ gQueries ts qs /\ mq = match qs with [] => None | _ => Some (queriesSpan ts qs, qs) end.
Proof.
  unfold parseMediaQueryList. intros A H. cbv zeta in H. apply bind_ok in H as ([qs l2] & E & H).
  apply mqList_read in E as (ts & O & G & N); auto. exists ts, qs. destruct qs as [|q qs]; okinj H; [auto|].
  split; auto. split; auto. unfold queriesSpan, lastEndOf. rewrite (path_first _ _ _ _ _ (okTo_path _ _ _ O)) by (apply N; discriminate).
  do 4 f_equal. apply last_default. discriminate.
Qed.

(** * At-rules and the whole file *)
Lemma at_read n l nd is_ l1 : at_ l -> l_cur l = At -> parseAtRule run n l = Ok (nd, is_, l1) ->
  exists ts a, okTo l ts l1 /\ nd = NAt a /\ gAt content run ts a.
Proof.
  unfold parseAtRule. intros A C H.
  destruct (beq (l_str l) (B "import")) eqn:E1.
  { apply beq_eq in E1. apply bind_ok in H as ([[a i] l2] & H1 & H). okinj H. unfold parseImportAtRule in H1. cbv zeta in H1.
    apply bind_ok in H1 as (l3 & E & H1). apply bind_ok in H1 as ([[psp target] l4] & Et & H1).
    assert (X : exists ts, okTo l3 ts l4 /\ gTarget ts psp target).
    { clear H1. destruct (l_cur l3) eqn:Ec; try discriminate Et.
      - apply bind_ok in Et as (l5 & E5 & Et). okinj Et. exists [tkOf false l3]. split; [rd|]. apply (gtUrl (tkOf false l3)); auto with rd.
      - destruct (beq (l_str l3) (B "url")) eqn:Eu; cbn [negb] in Et; [|discriminate]. apply beq_eq in Eu.
        apply bind_ok in Et as (l5 & E5 & Et). apply bind_ok in Et as (l6 & E6 & Et). apply expect_ok in E6 as [C6 E6].
        apply bind_ok in Et as (l7 & E7 & Et). apply expect_ok in E7 as [C7 E7]. okinj Et.
        exists [tkOf false l3; tkOf false l5; tkOf false l6]. split; [rd|]. apply (gtUrlString (tkOf false l3) (tkOf false l5) (tkOf false l6)); auto with rd.
      - apply bind_ok in Et as (l5 & E5 & Et). apply expect_ok in E5 as [_ E5]. okinj Et. exists [tkOf false l3]. split; [rd|]. apply (gtString (tkOf false l3)); auto with rd. }
    destruct X as (ts & O & G). clear Et. apply bind_ok in H1 as ([mq l5] & Em & H1). apply mql_read in Em as (ts2 & qs & O2 & G2 & ->); [|rd].
    destruct qs as [|q qs]; okinj H1; exists (tkOf false l :: ts ++ ts2); eexists; (split; [rd|]; split; [reflexivity|]).
    - apply (gaImport content run (tkOf false l) ts psp target); auto with rd.
    - apply (gaImportMedia content run (tkOf false l) ts psp target ts2 (q :: qs)); auto with rd. discriminate. }
  destruct (beq (l_str l) (B "media")) eqn:E2.
  { apply beq_eq in E2. apply bind_ok in H as ([a l2] & H1 & H). okinj H. unfold parseMediaAtRule in H1. cbv zeta in H1.
    apply bind_ok in H1 as (l3 & E & H1). apply bind_ok in H1 as ([mq l4] & Em & H1). apply mql_read in Em as (ts & qs & O & G & ->); [|rd].
    apply bind_ok in H1 as (l5 & E5 & H1). apply expect_ok in E5 as [C5 E5].
    apply bind_ok in H1 as ([[rs e] l6] & Er & H1). apply rules_read in Er as (ts2 & y & O2 & G2 & Y & ->); [|rd]. okinj H1.
    exists (tkOf false l :: ts ++ tkOf false l4 :: ts2 ++ [y]). eexists. split; [rd|]. split; [reflexivity|].
    destruct qs as [|q qs];
      [apply (gaMedia content run (tkOf false l) ts [] (tkOf false l4) (ts2 ++ [y]) (across (tkOf false l4) y) rs)
      |apply (gaMedia content run (tkOf false l) ts (q :: qs) (tkOf false l4) (ts2 ++ [y]) (across (tkOf false l4) y) rs)]; auto with rd;
      exists ts2, y; auto. }
  destruct (bmem (l_str l) [B "keyframes"; B "-webkit-keyframes"; B "-o-keyframes"]) eqn:E3.
  { apply bmem_In in E3. apply bind_ok in H as ([a l2] & H1 & H). okinj H. unfold parseKeyframes in H1. cbv zeta in H1.
    apply bind_ok in H1 as (l3 & E & H1). apply bind_ok in H1 as (pre & Ep & H1). apply bind_ok in H1 as (l4 & E4 & H1).
    apply bind_ok in H1 as (l5 & E5 & H1). apply expect_ok in E5 as [C5 E5].
    apply bind_ok in H1 as ([[rs e] l6] & Er & H1). apply rules_read in Er as (ts2 & y & O2 & G2 & Y & ->); [|rd]. okinj H1.
    exists (tkOf false l :: tkOf false l3 :: tkOf false l4 :: ts2 ++ [y]). eexists. split; [rd|]. split; [reflexivity|].
    apply (gaKeyframes content run (tkOf false l) (tkOf false l3) pre (tkOf false l4) (ts2 ++ [y]) (across (tkOf false l4) y) rs); auto with rd.
    - destruct (l_cur l3) eqn:Ec; try discriminate Ep; okinj Ep; [left|right]; auto with rd.
    - exists ts2, y. auto. }
  destruct (beq (l_str l) (B "custom-media")) eqn:E4.
  { apply beq_eq in E4. apply bind_ok in H as ([a l2] & H1 & H). okinj H. unfold parseCustomMediaAtRule in H1. cbv zeta in H1.
    apply bind_ok in H1 as (l3 & E & H1). apply bind_ok in H1 as ([nm l4] & En & H1). apply value_gopt in En as (ts & O & G); [|rd].
    destruct nm; try discriminate H1. apply gOpt_ident in G as (p & -> & Hp & -> & ->).
    apply bind_ok in H1 as ([mq l5] & Em & H1). apply mql_read in Em as (ts2 & qs & O2 & G2 & ->); [|rd].
    destruct qs as [|q [|q2 qs]]; try discriminate H1. okinj H1.
    exists (tkOf false l :: [p] ++ ts2). eexists. split; [rd|]. split; [reflexivity|].
    apply (gaCustomMedia content run (tkOf false l) p ts2 q); auto with rd. }
  apply bind_ok in H as ([a l2] & H1 & H). okinj H. unfold parseGenericAtRule in H1. cbv zeta in H1.
  apply bind_ok in H1 as (l3 & E & H1). apply bind_ok in H1 as ([[bsp ds] l4] & Eb & H1). okinj H1.
  apply (block_read n false) in Eb as (ts & P & A1 & G); [|rd].
  exists (tkOf false l :: tkOf false l3 :: ts). eexists. split; [split; [|exact A1]; eapply path_cons; eauto|]. split; [reflexivity|].
  apply (gaOther content run (tkOf false l) (tkOf false l3) ts bsp ds); auto with rd.
  - cbn [k_str tkOf]. apply beq_neq in E1. apply beq_neq in E2. apply beq_neq in E4.
    intros [X|[X|[X|[]]]]; [apply E1|apply E2|apply E4]; symmetry; exact X.
  - unfold keyframesRule. intros X. apply bmem_In in X. cbn [k_str tkOf] in X. congruence.
Qed.
Lemma parseLoop_read n : forall l nds is_ l1, at_ l -> parseLoop run n l = Ok (nds, is_, l1) ->
  exists ts, okTo l ts l1 /\ gNodes content run ts nds /\ l_cur l1 = EOF.
Proof.
  induction n as [|n IH]; intros l nds is_ l1 A H; cbn [parseLoop] in H; [discriminate|].
  assert (Hdef : ('(r, l1) <- parseQualifiedRule run n false l ;;
      '(nds, iss, l2) <- parseLoop run n l1 ;; Ok (NRule r :: nds, iss, l2)) = Ok (nds, is_, l1) ->
      exists ts, okTo l ts l1 /\ gNodes content run ts nds /\ l_cur l1 = EOF).
  { clear H. intros H. apply bind_ok in H as ([r l2] & H1 & H). apply bind_ok in H as ([[rs2 e2] l3] & H2 & H). okinj H.
    apply rule_read in H1 as (ts & O & G); auto. apply IH in H2 as (ts2 & O2 & G2 & C2); [|rd].
    exists (ts ++ ts2). split; [rd|]. split; [apply gnRule; auto|auto]. }
  assert (Hskip : l_cur l = Semicolon \/ l_cur l = CDO \/ l_cur l = CDC -> (l2 <- next l ;; parseLoop run n l2) = Ok (nds, is_, l1) ->
      exists ts, okTo l ts l1 /\ gNodes content run ts nds /\ l_cur l1 = EOF).
  { clear H. intros Hc H. apply bind_ok in H as (l2 & E & H). apply IH in H as (ts2 & O2 & G2 & C2); [|rd].
    exists (tkOf false l :: ts2). split; [rd|]. split; [apply gnSkip; auto|auto]. destruct Hc as [Hc|[Hc|Hc]]; auto with rd. }
  destruct (l_cur l) eqn:Ec; try exact (Hdef H); try (apply Hskip; [auto|exact H]).
  - okinj H. exists []. split; [rd|]. split; [constructor|auto].
  - apply bind_ok in H as ([[nd i2] l2] & H1 & H). apply bind_ok in H as ([[nds2 is2] l3] & H2 & H). okinj H.
    apply at_read in H1 as (ts & a & O & -> & G); auto. apply IH in H2 as (ts2 & O2 & G2 & C2); [|rd].
    exists (ts ++ ts2). split; [rd|]. split; [apply gnAt; auto; left; reflexivity|auto].
Qed.
End Content.

Lemma new_here content l : newLexer content [] = Ok l -> here content false l /\ l_rcom l = false.
Proof.
  intros E. pose proof (pNew content l E) as Hp. destruct (first_step content) as (F1 & F2 & _).
  pose proof (call_go content _ F1 F2) as G. unfold newLexer in E. rewrite E in G. destruct G as (_ & _ & G1 & G2).
  assert (X : forall l0, l_rws (step l0) = l_rws l0 /\ l_rcom (step l0) = l_rcom l0).
  { intros l0. unfold step. repeat match goal with |- context [if ?b then _ else _] => destruct b | |- context [let '(_, _) := ?x in _] => destruct x end; split; reflexivity. }
  destruct (X (zeroLexer content [])) as [X1 X2]. split; [split; [exact Hp|]|]; [rewrite G1, X1|rewrite G2, X2]; reflexivity.
Qed.
Lemma C47_lemma run n content ss lines : parse run n content = ParseOk ss lines -> reads run content (ss_nodes ss).
Proof.
  unfold parse. intros H. destruct (newLexer content []) as [l|p ls|] eqn:E; try discriminate H.
  destruct (parseLoop run n l) as [[[nds imps] l1]|[sp m|] ls|] eqn:E2; try discriminate H. injection H as <- <-.
  destruct (new_here _ _ E) as [Hh _]. apply (parseLoop_read content) in E2 as (ts & [P A] & G & C); auto.
  exists ts. split; [|exact G]. exists l, l1. auto.
Qed.

Lemma path_layout content k l ts k1 l1 : path k l ts k1 l1 -> pstate content l -> l_rcom l = false ->
  forall a, (a <= l_start l)%nat -> skipped k false (sub content a (l_start l)) ->
  exists b, laidOut content a ts b /\ (b <= l_start l1)%nat /\ skipped k1 false (sub content b (l_start l1)) /\ pstate content l1.
Proof.
  intros P. induction P as [k l|k l b ts k1 l1 P IH|k l ls ts k1 l1 P IH|k l l1 ts k1 l2 E P IH]; intros Hp Hc a Ha Hs.
  - exists a. split; [constructor|auto].
  - apply IH; auto. exact (pFlags content l b (l_rcom l) Hp).
  - apply IH; auto. apply pLines; auto.
  - pose proof (pstate_call _ _ Hp) as G. rewrite E in G. destruct G as (_ & G1 & _ & G2).
    destruct (pstate_wfl _ _ Hp) as (W1 & W2 & W3 & W4 & _).
    destruct (IH (pNext _ _ _ Hp E)) with (a := l_lastPos l) as (b & L & B1 & B2 & B3); [congruence|exact G1| |].
    { rewrite <- Hc. apply call_skipped; auto. }
    exists b. split; [|auto]. apply loCons; auto; cbn [k_sp tkOf tokenSpan sp_start sp_end]; lia.
Qed.
Lemma C47_layout_lemma content ts : tokensOf content ts ->
  exists b, laidOut content 0 ts b /\ skipped false false (sub content b (length content)).
Proof.
  intros (l & l1 & E & P & C). destruct (new_here _ _ E) as [[Hp _] Hc].
  destruct (path_layout content _ _ _ _ _ P Hp Hc 0%nat) as (b & L & B1 & B2 & B3); [lia| |].
  { destruct (first_step content) as (F1 & F2 & F3 & _). unfold newLexer in E.
    pose proof (call_skipped content _ _ F1 F2 E) as X. rewrite F3 in X.
    replace (l_rws (step (zeroLexer content []))) with false in X; [replace (l_rcom (step (zeroLexer content []))) with false in X; [exact X|]|];
      unfold step; repeat match goal with |- context [if ?b then _ else _] => destruct b | |- context [let '(_, _) := ?x in _] => destruct x end; reflexivity. }
  apply pstate_wfl in B3. destruct (wfl_eof _ _ B3 C) as [X _]. exists b. rewrite <- X. auto.
Qed.
End WithUnicode.
