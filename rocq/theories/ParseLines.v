(** The line table after a parse. *)
From Verif Require Import Bytes Utf8 Source Lexer BytesFacts LexSpec LexFacts LexNext LexProps Ast Parser ParserSpec ParseSound.

Section WithUnicode.
Context {U : UnicodeDigits}.
Section Inv.
Variable I : lexer -> Prop.
Hypothesis I_next : forall l l1, I l -> next l = Ok l1 -> I l1.
Hypothesis I_rws : forall l b, I l -> I (setRws l b).

Definition prL (m : res lexer) : Prop := forall l, m = Ok l -> I l.
Definition prA {A} (m : res (A * lexer)) : Prop := forall a l, m = Ok (a, l) -> I l.

Lemma prA_pair {A C} (m : res (A * lexer)) (k : A * lexer -> res (C * lexer)) :
  prA m -> (forall a l, I l -> prA (k (a, l))) -> prA (bind m k).
Proof. intros H Hk c l E. apply bind_ok in E as ([a l1] & E1 & E). exact (Hk a l1 (H _ _ E1) _ _ E). Qed.
Lemma prA_lex {C} (m : res lexer) (k : lexer -> res (C * lexer)) :
  prL m -> (forall l, I l -> prA (k l)) -> prA (bind m k).
Proof. intros H Hk c l E. apply bind_ok in E as (l1 & E1 & E). exact (Hk l1 (H _ E1) _ _ E). Qed.
Lemma prA_any {A C} (m : res A) (k : A -> res (C * lexer)) : (forall a, prA (k a)) -> prA (bind m k).
Proof. intros Hk c l E. apply bind_ok in E as (a & E1 & E). exact (Hk a _ _ E). Qed.
Lemma prA_ok {A} (a : A) l : I l -> prA (Ok (a, l)).
Proof. intros H a1 l1 E. apply ok_inj in E. inversion E; subst; auto. Qed.
Lemma prA_err {A} l s : prA (@errorf (A * lexer) l s). Proof. intros a l1 E; discriminate. Qed.
Lemma prA_crash {A} l : prA (@crash (A * lexer) l). Proof. intros a l1 E; discriminate. Qed.
Lemma prA_timeout {A} : prA (@Timeout (A * lexer)). Proof. intros a l1 E; discriminate. Qed.
Lemma prL_next l : I l -> prL (next l). Proof. intros H l1 E. eauto. Qed.
Lemma prL_expect t l : I l -> prL (expect t l).
Proof. intros H l1 E. unfold expect in E. destruct (negb _); [discriminate|eauto]. Qed.
Lemma prL_ok l : I l -> prL (Ok l). Proof. intros H l1 E. apply ok_inj in E. subst; auto. Qed.

Ltac pr :=
  repeat (cbv zeta; first
    [ assumption
    | apply I_rws
    | apply prA_ok | apply prA_err | apply prA_crash | apply prA_timeout
    | apply prL_next | apply prL_expect | apply prL_ok
    | match goal with
      | H : _ |- prA _ => apply H; solve [auto]
      | |- prA (bind _ _) => first [ apply prA_lex; [|intros] | apply prA_pair; [|intros] | apply prA_any; intros ]
      | p : (_ * _)%type |- _ => destruct p
      | |- prA (match ?x with _ => _ end) => destruct x
      | |- prL (match ?x with _ => _ end) => destruct x
      end ]).

Lemma value_pr n :
  (forall l, I l -> prA (parseValue n l)) /\
  (forall l, I l -> prA (bracketLoop n l)) /\
  (forall f l, I l -> prA (argsLoop n f l)) /\
  (forall l, I l -> prA (mathSum n l)) /\
  (forall v l, I l -> prA (mathSumLoop n v l)) /\
  (forall l, I l -> prA (mathProduct n l)) /\
  (forall v l, I l -> prA (mathProductLoop n v l)) /\
  (forall l, I l -> prA (mathParen n l)).
Proof.
  induction n as [|n (I1 & I2 & I3 & I4 & I5 & I6 & I7 & I8)]; [repeat split; intros; apply prA_timeout|].
  repeat split; intros;
    cbn [parseValue bracketLoop argsLoop mathSum mathSumLoop mathProduct mathProductLoop mathParen]; pr.
Qed.
Lemma parseValue_pr n l : I l -> prA (parseValue n l). Proof. apply (value_pr n). Qed.
Lemma declLoop_pr n : forall le de imp l, I l -> prA (declLoop n le de imp l).
Proof. pose proof parseValue_pr as V. induction n as [|n IH]; intros le de imp l Hl; cbn [declLoop]; pr. Qed.
Lemma parseDeclaration_pr n l : I l -> prA (parseDeclaration n l).
Proof. intros H. pose proof declLoop_pr as D. unfold parseDeclaration. pr. Qed.
Lemma keyLoop_pr n : forall l, I l -> prA (keyLoop n l).
Proof. induction n as [|n IH]; intros l Hl; cbn [keyLoop]; pr. Qed.
Lemma parseKey_pr n l : I l -> prA (parseKeyframeSelectorList n l).
Proof. intros H. pose proof keyLoop_pr as K. unfold parseKeyframeSelectorList. pr. Qed.
Lemma parseANPlusB_pr l : I l -> prA (parseANPlusB l).
Proof. intros H. unfold parseANPlusB. pr. Qed.
Lemma parseAttr_pr n l : I l -> prA (parseAttributeSelector n l).
Proof. intros H. pose proof parseValue_pr as V. unfold parseAttributeSelector. pr. Qed.
Lemma sel_pr n :
  (forall l, I l -> prA (parseSelectorList n l)) /\
  (forall l, I l -> prA (selListLoop n l)) /\
  (forall l, I l -> prA (parseSelector n l)) /\
  (forall le l, I l -> prA (partsLoop n le l)).
Proof.
  pose proof parseAttr_pr as A. pose proof parseANPlusB_pr as B.
  induction n as [|n (I1 & I2 & I3 & I4)]; [repeat split; intros; apply prA_timeout|].
  repeat split; intros; cbn [parseSelectorList selListLoop parseSelector partsLoop]; pr.
Qed.
Lemma rangeOp_pr l : I l -> prA (parseMediaRangeOperator l).
Proof. intros H. unfold parseMediaRangeOperator. pr. Qed.
Lemma feature_pr n l : I l -> prA (parseMediaFeature n l).
Proof. intros H. pose proof parseValue_pr as V. pose proof rangeOp_pr as R. unfold parseMediaFeature. pr. Qed.
Lemma mqParts_pr n : forall l, I l -> prA (mqPartsLoop n l).
Proof. pose proof feature_pr as F. induction n as [|n IH]; intros l Hl; cbn [mqPartsLoop]; pr. Qed.
Lemma mqList_pr n : forall l, I l -> prA (mqListLoop n l).
Proof. pose proof mqParts_pr as F. induction n as [|n IH]; intros l Hl; cbn [mqListLoop]; pr. Qed.
Lemma mql_pr n l : I l -> prA (parseMediaQueryList n l).
Proof. intros H. pose proof mqList_pr as F. unfold parseMediaQueryList. pr. Qed.

(** With declarations: the invariant survives if none of them was kept raw. *)
Lemma fallback_pr n l d l1 : I l -> parseDeclarationOrFallback n l = Ok (d, l1) -> noRawDecl d -> I l1.
Proof.
  intros Hl. unfold parseDeclarationOrFallback. destruct (parseDeclaration n l) as [[d0 l2]|p ls|] eqn:E; intros H Hd.
  - apply ok_inj in H. inversion H; subst. eapply parseDeclaration_pr; eauto.
  - unfold parseRaw in H. apply bind_ok in H as (l3 & _ & H). apply bind_ok in H as (l4 & _ & H). apply bind_ok in H as (s & _ & H).
    apply ok_inj in H. inversion H; subst. destruct Hd.
  - discriminate.
Qed.
Lemma declBlock_pr n : forall l ds e l1, I l -> declBlockLoop n l = Ok (ds, e, l1) -> Forall noRawDecl ds -> I l1.
Proof.
  induction n as [|n IH]; intros l ds e l1 Hl H Hd; cbn [declBlockLoop] in H; [discriminate|].
  destruct (teq (l_cur l) RCurly).
  - apply bind_ok in H as (l2 & E & H). apply ok_inj in H. inversion H; subst. eauto.
  - apply bind_ok in H as ([d l2] & E & H). apply bind_ok in H as (l3 & E3 & H). apply bind_ok in H as ([[ds2 e2] l4] & E4 & H).
    apply ok_inj in H. inversion H; subst. inversion Hd; subst.
    assert (I2 : I l2) by (eapply fallback_pr; eauto).
    assert (I3 : I l3) by (destruct (teq _ _) in E3; [eauto|apply ok_inj in E3; subst; auto]). eauto.
Qed.
Lemma block_pr n l sp ds l1 : I l -> parseDeclarationBlock n l = Ok (sp, ds, l1) -> Forall noRawDecl ds -> I l1.
Proof.
  intros Hl H Hd. unfold parseDeclarationBlock in H. apply bind_ok in H as (l2 & E & H). apply bind_ok in H as ([[ds2 e2] l3] & E2 & H).
  apply ok_inj in H. inversion H; subst. eapply declBlock_pr; [|exact E2|exact Hd]. eauto.
Qed.
Section Run.
Variable run : nat.
Lemma qrule_pr n : forall k st pr l r l1, I l -> qruleLoop run n k st pr l = Ok (r, l1) -> noRawRule r -> I l1.
Proof.
  induction n as [|n IH]; intros k st pr l r l1 Hl H Hr; cbn [qruleLoop] in H; [discriminate|].
  assert (Hdef : (if k then '(pr1, l1) <- parseKeyframeSelectorList n l ;; qruleLoop run n k st pr1 l1
     else '(sl, l1) <- parseSelectorList n l ;; qruleLoop run n k st (PrSel sl) l1) = Ok (r, l1) -> I l1).
  { clear H. intros H. destruct k; apply bind_ok in H as ([x l2] & E & H).
    - apply parseKey_pr in E; eauto.
    - destruct (sel_pr n) as (S1 & _). apply S1 in E; eauto. }
  destruct (l_cur l); try exact (Hdef H); try discriminate H.
  apply bind_ok in H as ([[bsp ds] l2] & E & H). apply ok_inj in H. inversion H; subst. eapply block_pr; [exact Hl|exact E|exact Hr].
Qed.
Lemma rules_pr n : forall k l rs e l1, I l -> rulesLoop run n k l = Ok (rs, e, l1) -> Forall noRawRule rs -> I l1.
Proof.
  induction n as [|n IH]; intros k l rs e l1 Hl H Hr; cbn [rulesLoop] in H; [discriminate|].
  assert (Hdef : ('(r, l1) <- parseQualifiedRule run n k l ;;
      '(rs, e, l2) <- rulesLoop run n k l1 ;; Ok (r :: rs, e, l2)) = Ok (rs, e, l1) -> I l1).
  { clear H. intros H. apply bind_ok in H as ([r l2] & E & H). apply bind_ok in H as ([[rs2 e2] l3] & E2 & H).
    apply ok_inj in H. inversion H; subst. inversion Hr; subst. eapply IH; [|exact E2|auto].
    unfold parseQualifiedRule in E. eapply qrule_pr; eauto. }
  destruct (l_cur l); try exact (Hdef H); try discriminate H.
  apply bind_ok in H as (l2 & E & H). apply ok_inj in H. inversion H; subst. eauto.
Qed.
Lemma at_pr n l nd is l1 : I l -> parseAtRule run n l = Ok (nd, is, l1) -> noRawNode nd -> I l1.
Proof.
  intros Hl H Hn. unfold parseAtRule in H.
  destruct (beq (l_str l) (B "import")).
  { apply bind_ok in H as ([[a i] l2] & E & H). apply ok_inj in H. inversion H; subst. clear H.
    revert E. change (Ok (a, i, l1)) with (Ok ((a, i), l1)). pose proof mql_pr as Q. cut (prA (parseImportAtRule run n l)); [intros P E; eapply P; eauto|].
    unfold parseImportAtRule. pr. }
  destruct (beq (l_str l) (B "media")).
  { apply bind_ok in H as ([a l2] & E & H). apply ok_inj in H. inversion H; subst. clear H. unfold parseMediaAtRule in E. cbv zeta in E.
    apply bind_ok in E as (l3 & E1 & E). apply bind_ok in E as ([mq l4] & E2 & E). apply bind_ok in E as (l5 & E3 & E).
    apply bind_ok in E as ([[rs e] l6] & E4 & E). apply ok_inj in E. inversion E; subst. clear E.
    apply mql_pr in E2; [|exact (I_next _ _ Hl E1)]. apply prL_expect in E3; auto. eapply rules_pr; [exact E3|exact E4|apply Hn]. }
  destruct (bmem (l_str l) _).
  { apply bind_ok in H as ([a l2] & E & H). apply ok_inj in H. inversion H; subst. clear H. unfold parseKeyframes in E. cbv zeta in E.
    apply bind_ok in E as (l3 & E1 & E). apply bind_ok in E as (pre & E2 & E). apply bind_ok in E as (l4 & E3 & E).
    apply bind_ok in E as (l5 & E4 & E).
    apply bind_ok in E as ([[rs e] l6] & E5 & E). apply ok_inj in E. inversion E; subst. clear E.
    apply prL_expect in E4; [|exact (I_next _ _ (I_next _ _ Hl E1) E3)]. eapply rules_pr; [exact E4|exact E5|apply Hn]. }
  destruct (beq (l_str l) (B "custom-media")).
  { apply bind_ok in H as ([a l2] & E & H). apply ok_inj in H. inversion H; subst. clear H.
    revert E. pose proof mql_pr as Q. pose proof parseValue_pr as V. cut (prA (parseCustomMediaAtRule run n l)); [intros P E; eapply P; eauto|].
    unfold parseCustomMediaAtRule. pr. }
  apply bind_ok in H as ([a l2] & E & H). apply ok_inj in H. inversion H; subst. clear H. unfold parseGenericAtRule in E. cbv zeta in E.
  apply bind_ok in E as (l3 & E1 & E). apply bind_ok in E as ([[bsp ds] l4] & E2 & E). apply ok_inj in E. inversion E; subst. clear E.
  eapply block_pr; [|exact E2|apply Hn]. exact (I_next _ _ Hl E1).
Qed.
Lemma parseLoop_pr n : forall l nds is l1, I l -> parseLoop run n l = Ok (nds, is, l1) -> Forall noRawNode nds -> I l1 /\ l_cur l1 = EOF.
Proof.
  induction n as [|n IH]; intros l nds is l1 Hl H Hn; cbn [parseLoop] in H; [discriminate|].
  assert (Hdef : ('(r, l1) <- parseQualifiedRule run n false l ;;
      '(nds, iss, l2) <- parseLoop run n l1 ;; Ok (NRule r :: nds, iss, l2)) = Ok (nds, is, l1) -> I l1 /\ l_cur l1 = EOF).
  { clear H. intros H. apply bind_ok in H as ([r l2] & E & H). apply bind_ok in H as ([[nds2 is2] l3] & E2 & H).
    apply ok_inj in H. inversion H; subst. inversion Hn; subst. eapply IH; [|exact E2|auto].
    unfold parseQualifiedRule in E. eapply qrule_pr; eauto. destruct H2 as [H2 _]. inversion H2; auto. }
  assert (Hskip : (l2 <- next l ;; parseLoop run n l2) = Ok (nds, is, l1) -> I l1 /\ l_cur l1 = EOF).
  { clear H. intros H. apply bind_ok in H as (l2 & E & H). eapply IH; [|exact H|exact Hn]. exact (I_next _ _ Hl E). }
  destruct (l_cur l) eqn:Ec; try exact (Hdef H); try exact (Hskip H).
  - apply ok_inj in H. inversion H; subst. auto.
  - apply bind_ok in H as ([[nd i2] l2] & E & H). apply bind_ok in H as ([[nds2 is2] l3] & E2 & H).
    apply ok_inj in H. inversion H; subst. inversion Hn; subst. eapply IH; [|exact E2|auto]. eapply at_pr; eauto.
Qed.
End Run.
End Inv.

Lemma C08_parse_lemma run n content ss lines : parse run n content = ParseOk ss lines ->
  Forall noRawNode (ss_nodes ss) -> lines = lineStarts content.
Proof.
  unfold parse. destruct (newLexer content []) as [l|p ls|] eqn:El; try discriminate.
  destruct (parseLoop run n l) as [[[nds is] l1]|[sp m|] ls|] eqn:E; try discriminate.
  intros H Hn. inversion H; subst. clear H. cbn [ss_nodes] in Hn.
  pose (I := fun l => exists l0 ws com, session content l0 /\ l = withFlags l0 ws com).
  assert (X : I l1 /\ l_cur l1 = EOF).
  { eapply (parseLoop_pr I); [| |  |exact E|exact Hn].
    - intros a b (l0 & ws & com & Hs & ->) E1. exists b, (l_rws b), (l_rcom b). split; [eapply sNext; eauto|]. destruct b; reflexivity.
    - intros a b (l0 & ws & com & Hs & ->). exists l0, b, com. split; auto.
    - exists l, (l_rws l), (l_rcom l). split; [apply sNew; auto|]. destruct l; reflexivity. }
  destruct X as ((l0 & ws & com & Hs & ->) & Hc). apply (session_eof _ _ Hs Hc).
Qed.
End WithUnicode.
