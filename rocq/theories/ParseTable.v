(** The line table after any parse: which offsets it lists. *)
From Verif Require Import Bytes Utf8 Source Lexer BytesFacts LexSpec LexFacts LexNext LexProps Ast Parser ParserSpec ParseSound ParseInv.


Section Gen.
Context {U : UnicodeDigits}.
Variable I : lexer -> Prop.
Variable X : list nat -> Prop.
Definition prL (m : res lexer) : Prop := (forall l, m = Ok l -> I l) /\ (forall p ls, m = Panic p ls -> X ls).
Definition prA {A} (m : res (A * lexer)) : Prop := (forall a l, m = Ok (a, l) -> I l) /\ (forall p ls, m = Panic p ls -> X ls).
Definition prR {A} (m : res A) : Prop := forall p ls, m = Panic p ls -> X ls.
Hypothesis prL_next : forall l, I l -> prL (next l).
Hypothesis I_rws : forall l b, I l -> I (setRws l b).
Hypothesis I_X : forall l, I l -> X (l_lines l).

Lemma prA_pair {A C} (m : res (A * lexer)) (k : A * lexer -> res (C * lexer)) :
  prA m -> (forall a l, I l -> prA (k (a, l))) -> prA (bind m k).
Proof. intros [H1 H2] Hk. destruct m as [[a l]|p ls|]; cbn [bind]; [apply Hk; eauto|split; [discriminate|]|split; discriminate]. intros p0 ls0 E. inversion E; subst. eauto. Qed.
Lemma prA_lex {C} (m : res lexer) (k : lexer -> res (C * lexer)) :
  prL m -> (forall l, I l -> prA (k l)) -> prA (bind m k).
Proof. intros [H1 H2] Hk. destruct m as [l|p ls|]; cbn [bind]; [apply Hk; eauto|split; [discriminate|]|split; discriminate]. intros p0 ls0 E. inversion E; subst. eauto. Qed.
Lemma prA_any {A C} (m : res A) (k : A -> res (C * lexer)) : prR m -> (forall a, prA (k a)) -> prA (bind m k).
Proof. intros H2 Hk. destruct m as [l|p ls|]; cbn [bind]; [apply Hk; eauto|split; [discriminate|]|split; discriminate]. intros p0 ls0 E. inversion E; subst. eapply H2. reflexivity. Qed.
Lemma prR_any {A C} (m : res A) (k : A -> res C) : prR m -> (forall a, prR (k a)) -> prR (bind m k).
Proof. intros H2 Hk. destruct m as [l|p ls|]; cbn [bind]; [apply Hk; eauto| |intros ? ?; discriminate]. intros p0 ls0 E. inversion E; subst. eapply H2. reflexivity. Qed.
Lemma prA_ok {A} (a : A) l : I l -> prA (Ok (a, l)). Proof. intros H. split; [|discriminate]. intros a0 l0 E. inversion E; subst; auto. Qed.
Lemma prA_err {A} l s : I l -> prA (@errorf (A * lexer) l s).
Proof. intros H. split; [discriminate|]. intros p ls E. inversion E; subst. auto. Qed.
Lemma prA_crash {A} l : I l -> prA (@crash (A * lexer) l).
Proof. intros H. split; [discriminate|]. intros p ls E. inversion E; subst. auto. Qed.
Lemma prL_err l s : I l -> prL (@errorf lexer l s).
Proof. intros H. split; [discriminate|]. intros p ls E. inversion E; subst. auto. Qed.
Lemma prL_crash l : I l -> prL (@crash lexer l).
Proof. intros H. split; [discriminate|]. intros p ls E. inversion E; subst. auto. Qed.
Lemma prR_err {A} l s : I l -> prR (@errorf A l s). Proof. intros H p ls E. inversion E; subst. auto. Qed.
Lemma prR_crash {A} l : I l -> prR (@crash A l). Proof. intros H p ls E. inversion E; subst. auto. Qed.
Lemma prR_ok {A} (a : A) : prR (Ok a). Proof. intros p ls E. discriminate. Qed.
Lemma prA_timeout {A} : prA (@Timeout (A * lexer)). Proof. split; discriminate. Qed.
Lemma prL_expect t l : I l -> prL (expect t l).
Proof. intros H. unfold expect. destruct (negb _); [apply prL_err; auto|apply prL_next; auto]. Qed.
Lemma prL_ok l : I l -> prL (Ok l). Proof. intros H. split; [|discriminate]. intros l0 E. inversion E; subst; auto. Qed.
Lemma prR_slice l a b : I l -> prR (contentSlice l a b).
Proof. intros H. unfold contentSlice. destruct (slice _ _ _); [apply prR_ok|apply prR_crash; auto]. Qed.
Lemma prR_join l v w : I l -> prR (joinSpan l v w).
Proof. intros H. unfold joinSpan. repeat match goal with |- context [match ?x with _ => _ end] => destruct x end; try apply prR_ok; apply prR_crash; auto. Qed.

Ltac pr :=
  repeat (cbv zeta; first
    [ assumption
    | apply I_rws
    | apply prA_ok | apply prA_err | apply prA_crash | apply prA_timeout
    | apply prL_next | apply prL_expect | apply prL_ok | apply prL_err | apply prL_crash
    | apply prR_ok | apply prR_err | apply prR_crash | apply prR_slice | apply prR_join
    | match goal with
      | H : _ |- prA _ => apply H; solve [auto]
      | |- prA (bind _ _) => first [ apply prA_lex; [|intros] | apply prA_pair; [|intros] | apply prA_any; [|intros] ]
      | |- prR (bind _ _) => apply prR_any; [|intros]
      | p : (_ * _)%type |- _ => destruct p
      | |- prA (match ?x with _ => _ end) => destruct x
      | |- prL (match ?x with _ => _ end) => destruct x
      | |- prR (match ?x with _ => _ end) => destruct x
      end ]).

Lemma value_pr n :
  (forall l, I l -> prA (parseValue n l)) /\
  (forall l, I l -> prA (bracketLoop n l)) /\
  (forall f l, I l -> prA (argsLoop n f l)) /\
  (forall l, I l -> prA (mathSum n l)) /\
  (forall v l, I l -> prA (mathSumLoop n v l)) /\
  (forall l, I l -> prA (mathProduct n l)) /\
  (forall v l, I l -> prA (mathProductLoop n v l)) /\
  (forall l, I l -> prA (mathParen n l)).
Proof.
  induction n as [|n (I1 & I2 & I3 & I4 & I5 & I6 & I7 & I8)]; [repeat match goal with |- _ /\ _ => split end; intros; apply prA_timeout|].
  repeat match goal with |- _ /\ _ => split end; intros;
    cbn [parseValue bracketLoop argsLoop mathSum mathSumLoop mathProduct mathProductLoop mathParen]; pr.
Qed.
Lemma parseValue_pr n l : I l -> prA (parseValue n l). Proof. apply (value_pr n). Qed.
Lemma declLoop_pr n : forall le de imp l, I l -> prA (declLoop n le de imp l).
Proof. pose proof parseValue_pr as V. induction n as [|n IH]; intros le de imp l Hl; cbn [declLoop]; pr. Qed.
Lemma parseDeclaration_pr n l : I l -> prA (parseDeclaration n l).
Proof. intros H. pose proof declLoop_pr as D. unfold parseDeclaration. pr. Qed.
Lemma keyLoop_pr n : forall l, I l -> prA (keyLoop n l).
Proof. induction n as [|n IH]; intros l Hl; cbn [keyLoop]; pr. Qed.
Lemma parseKey_pr n l : I l -> prA (parseKeyframeSelectorList n l).
Proof. intros H. pose proof keyLoop_pr as K. unfold parseKeyframeSelectorList. pr. Qed.
Lemma parseANPlusB_pr l : I l -> prA (parseANPlusB l).
Proof. intros H. unfold parseANPlusB. pr. Qed.
Lemma parseAttr_pr n l : I l -> prA (parseAttributeSelector n l).
Proof. intros H. pose proof parseValue_pr as V. unfold parseAttributeSelector. pr. Qed.
Lemma sel_pr n :
  (forall l, I l -> prA (parseSelectorList n l)) /\
  (forall l, I l -> prA (selListLoop n l)) /\
  (forall l, I l -> prA (parseSelector n l)) /\
  (forall le l, I l -> prA (partsLoop n le l)).
Proof.
  pose proof parseAttr_pr as A. pose proof parseANPlusB_pr as B.
  induction n as [|n (I1 & I2 & I3 & I4)]; [repeat match goal with |- _ /\ _ => split end; intros; apply prA_timeout|].
  repeat match goal with |- _ /\ _ => split end; intros; cbn [parseSelectorList selListLoop parseSelector partsLoop]; pr.
Qed.
Lemma selList_pr n l : I l -> prA (parseSelectorList n l). Proof. apply (sel_pr n). Qed.
Lemma rangeOp_pr l : I l -> prA (parseMediaRangeOperator l).
Proof. intros H. unfold parseMediaRangeOperator. pr. Qed.
Lemma feature_pr n l : I l -> prA (parseMediaFeature n l).
Proof. intros H. pose proof parseValue_pr as V. pose proof rangeOp_pr as R. unfold parseMediaFeature. pr. Qed.
Lemma mqParts_pr n : forall l, I l -> prA (mqPartsLoop n l).
Proof. pose proof feature_pr as F. induction n as [|n IH]; intros l Hl; cbn [mqPartsLoop]; pr. Qed.
Lemma mqList_pr n : forall l, I l -> prA (mqListLoop n l).
Proof. pose proof mqParts_pr as F. induction n as [|n IH]; intros l Hl; cbn [mqListLoop]; pr. Qed.
Lemma mql_pr n l : I l -> prA (parseMediaQueryList n l).
Proof. intros H. pose proof mqList_pr as F. unfold parseMediaQueryList. pr. Qed.
Lemma rawLoop_pr n : forall l, I l -> prL (rawLoop n l).
Proof.
  induction n as [|n IH]; intros l Hl; cbn [rawLoop]; [split; discriminate|]. destruct (teq _ _); [apply prL_ok; auto|].
  destruct (prL_next l Hl) as [H1 H2]. destruct (next l); cbn [bind]; [apply IH; auto|split; [discriminate|]|split; discriminate].
  intros p0 ls0 E. inversion E; subst. eauto.
Qed.
Lemma parseRaw_pr n l : I l -> prA (parseRaw n l).
Proof. intros H. pose proof rawLoop_pr as R. unfold parseRaw. cbv zeta. apply prA_lex; [apply R; auto|]. intros. pr. Qed.
Section Run.
Variable run : nat.
Hypothesis fallback_pr : forall n l, I l -> prA (parseDeclarationOrFallback n l).
Lemma declBlock_pr n : forall l, I l -> prA (declBlockLoop n l).
Proof. pose proof fallback_pr as F. induction n as [|n IH]; intros l Hl; cbn [declBlockLoop]; pr. Qed.
Lemma block_pr n l : I l -> prA (parseDeclarationBlock n l).
Proof. intros H. pose proof declBlock_pr as D. unfold parseDeclarationBlock. pr. Qed.
Lemma qrule_pr n : forall k st p l, I l -> prA (qruleLoop run n k st p l).
Proof. pose proof block_pr as D. pose proof parseKey_pr as K. pose proof selList_pr as S. induction n as [|n IH]; intros k st p l Hl; cbn [qruleLoop]; pr. Qed.
Lemma rule_pr n k l : I l -> prA (parseQualifiedRule run n k l).
Proof. intros H. pose proof qrule_pr as D. unfold parseQualifiedRule. pr. Qed.
Lemma rules_pr n : forall k l, I l -> prA (rulesLoop run n k l).
Proof. pose proof rule_pr as D. induction n as [|n IH]; intros k l Hl; cbn [rulesLoop]; pr. Qed.
Lemma at_pr n l : I l -> prA (parseAtRule run n l).
Proof.
  intros H. pose proof mql_pr as Q. pose proof parseValue_pr as V. pose proof rules_pr as R. pose proof block_pr as D.
  unfold parseAtRule, parseImportAtRule, parseMediaAtRule, parseKeyframes, parseCustomMediaAtRule, parseGenericAtRule. pr.
Qed.
Lemma parseLoop_pr n : forall l, I l -> prA (parseLoop run n l).
Proof. pose proof rule_pr as D. pose proof at_pr as A. induction n as [|n IH]; intros l Hl; cbn [parseLoop]; pr. Qed.
End Run.
End Gen.

Section WithUnicode.
Context {U : UnicodeDigits}.
Variable content : bytes.
Section Inv.
Variable base : list nat.
(** [base] with line starts added. *)
Definition extends (ls : list nat) : Prop := exists ext, ls = base ++ ext /\ incl ext (linesIn 0 content).
(** Every line start up to where the lexer is has been entered. *)
Definition complete (l : lexer) : Prop := incl (linesIn 0 (firstn (l_pos l) content)) (l_lines l).
Definition I (l : lexer) : Prop := pstate content l /\ extends (l_lines l) /\ complete l.

Lemma moves_table l l' t : l_content l = content -> cwf l -> moves l l' t -> extends (l_lines l) -> complete l ->
  extends (l_lines l') /\ complete l'.
Proof.
  intros Hc Hw (A1 & A2 & A3 & A4 & A5 & A6) (ext & E1 & E2) C.
  assert (Split : linesIn 0 (firstn (l_pos l') content) = linesIn 0 (firstn (l_pos l) content) ++ linesIn (l_pos l) (between l l')).
  { unfold between. rewrite Hc. replace (l_pos l') with (l_pos l + (l_pos l' - l_pos l))%nat at 1 by lia.
    rewrite firstn_plus, linesIn_app. f_equal. cbn [Nat.add]. rewrite firstn_length_le; [reflexivity|]. rewrite <- Hc. apply cwf_pos_le; auto. }
  split.
  - exists (ext ++ linesIn (l_pos l) (between l l')). split; [rewrite A6, E1, app_assoc; auto|]. apply incl_app; auto.
    intros x Hx. rewrite <- (firstn_skipn (l_pos l') content), linesIn_app, Split. apply in_app_iff. left. apply in_app_iff. auto.
  - unfold complete. rewrite Split, A6. apply incl_app; [apply incl_appl; exact C|apply incl_appr, incl_refl].
Qed.
Lemma next_pr l : I l -> prL I extends (next l).
Proof.
  intros (Hp & He & Hc). destruct (pstate_wfl _ _ Hp) as (W1 & W2 & _). pose proof (next_spec l W2) as Hn. unfold nextOk in Hn.
  unfold prL. destruct (next l) as [l'|[sp m|] ln|] eqn:E; (split; [intros l0 E0; inversion E0; subst l0|intros p0 ls0 E0; inversion E0; subst p0 ls0]).
  - destruct Hn as (g & lm & text & _ & _ & Mg & _ & _ & _ & (Mt & _) & _).
    destruct (moves_table _ _ _ W1 W2 Mg He Hc) as (He1 & Hc1).
    assert (Hc2 : l_content lm = content) by (destruct Mg as [-> _]; auto).
    assert (Hw1 : cwf lm) by (eapply moves_cwf; eauto).
    destruct (moves_table _ _ _ Hc2 Hw1 Mt He1 Hc1) as (He2 & Hc3). split; [|auto]. eapply pNext; eauto.
  - destruct Hn as (g & lm & l'' & t & _ & Mg & _ & [M F] & _ & ->).
    destruct (moves_table _ _ _ W1 W2 Mg He Hc) as (He1 & Hc1).
    assert (Hc2 : l_content lm = content) by (destruct Mg as [-> _]; auto).
    assert (Hw1 : cwf lm) by (eapply moves_cwf; eauto).
    apply (moves_table _ _ _ Hc2 Hw1 M He1 Hc1).
  - destruct Hn.
Qed.
Lemma rws_pr l b : I l -> I (setRws l b).
Proof. intros (H1 & H2 & H3). split; [|auto]. change (setRws l b) with (withFlags l b (l_rcom l)). apply pFlags; auto. Qed.
Lemma extends_pr l : I l -> extends (l_lines l). Proof. intros (_ & H & _); auto. Qed.

End Inv.

(** Whatever a broken declaration entered is kept. *)
Lemma fallback base n l : I base l -> prA (I base) (extends base) (parseDeclarationOrFallback n l).
Proof.
  intros Hl. unfold parseDeclarationOrFallback.
  assert (H0 : I (l_lines l) l) by (destruct Hl as (H1 & _ & H2); split; [auto|split; [|auto]]; exists []; split; [rewrite app_nil_r; auto|intros x []]).
  pose proof (parseDeclaration_pr _ _ (next_pr base) (extends_pr base) n l Hl) as H.
  pose proof (parseDeclaration_pr _ _ (next_pr (l_lines l)) (extends_pr (l_lines l)) n l H0) as H'.
  destruct (parseDeclaration n l) as [[d0 l2]|p ls|] eqn:E; auto. apply (parseRaw_pr _ _ (next_pr base) (extends_pr base)).
  destruct H as [_ H]. destruct H' as [_ H']. specialize (H _ _ eq_refl). specialize (H' _ _ eq_refl). destruct Hl as (H1 & _ & H2). split; [apply pLines; auto|].
  split; [exact H|]. destruct H' as (ext & -> & _). unfold complete in *. cbn. apply incl_appl. exact H2.
Qed.
Section Eof.
Variable run : nat.
Lemma parseLoop_eof n : forall l nds is l1, parseLoop run n l = Ok (nds, is, l1) -> l_cur l1 = EOF.
Proof.
  induction n as [|n IH]; intros l nds is l1 H; cbn [parseLoop] in H; [discriminate|].
  assert (Hdef : ('(r, l1) <- parseQualifiedRule run n false l ;;
      '(nds, iss, l2) <- parseLoop run n l1 ;; Ok (NRule r :: nds, iss, l2)) = Ok (nds, is, l1) -> l_cur l1 = EOF).
  { clear H. intros H. apply bind_ok in H as ([r l2] & E & H). apply bind_ok in H as ([[nds2 is2] l3] & E2 & H).
    apply ok_inj in H. inversion H; subst. eauto. }
  assert (Hskip : (l2 <- next l ;; parseLoop run n l2) = Ok (nds, is, l1) -> l_cur l1 = EOF).
  { clear H. intros H. apply bind_ok in H as (l2 & E & H). eauto. }
  destruct (l_cur l) eqn:Ec; try exact (Hdef H); try exact (Hskip H).
  - apply ok_inj in H. inversion H; subst. auto.
  - apply bind_ok in H as ([[nd i2] l2] & E & H). apply bind_ok in H as ([[nds2 is2] l3] & E2 & H).
    apply ok_inj in H. inversion H; subst. eauto.
Qed.
End Eof.
Lemma new_table l : newLexer content [] = Ok l -> I [0%nat] l.
Proof.
  intros H. destruct (first_step content) as (F1 & F2 & F3 & F4).
  assert (E0 : extends [0%nat] (l_lines (step (zeroLexer content [])))).
  { rewrite F4. exists (linesIn 0 (firstn (l_pos (step (zeroLexer content []))) content)). split; auto. intros x Hx.
    rewrite <- (firstn_skipn (l_pos (step (zeroLexer content []))) content), linesIn_app. apply in_app_iff. auto. }
  assert (C0 : complete (step (zeroLexer content []))) by (unfold complete; rewrite F4; apply incl_tl, incl_refl).
  pose proof (next_spec _ F2) as Hn. pose proof H as H0. unfold newLexer in H0. rewrite H0 in Hn. cbn in Hn.
  destruct Hn as (g & lm & text & _ & _ & Mg & _ & _ & _ & (Mt & _) & _).
  destruct (moves_table _ _ _ _ F1 F2 Mg E0 C0) as (He1 & Hc1).
  assert (Hc2 : l_content lm = content) by (destruct Mg as [-> _]; auto).
  assert (Hw1 : cwf lm) by (eapply moves_cwf; eauto).
  destruct (moves_table _ _ _ _ Hc2 Hw1 Mt He1 Hc1) as (He2 & Hc3). split; [apply pNew; auto|auto].
Qed.
Lemma parse_table run n : match parse run n content with
  | ParseOk _ lines => hd_error lines = Some 0%nat /\ forall x, In x lines <-> In x (lineStarts content)
  | ParseErr _ _ lines => hd_error lines = Some 0%nat /\ incl lines (lineStarts content)
  | _ => True
  end.
Proof.
  unfold parse. destruct (newLexer content []) as [l|p ls|] eqn:El; auto. pose proof (new_table l El) as Hl.
  pose proof (parseLoop_pr _ _ (next_pr [0%nat]) (rws_pr [0%nat]) (extends_pr [0%nat]) run (fallback [0%nat]) n l Hl) as [H1 H2]. destruct (parseLoop run n l) as [[[nds is] l1]|[sp m|] ls|] eqn:E; auto.
  - destruct (H1 _ _ eq_refl) as (Hp & (ext & E1 & E2) & C). rewrite E1. split; [reflexivity|]. intros x. split.
    + intros [<-|Hx]; [left; auto|right; apply E2; auto].
    + intros [<-|Hx]; [left; auto|]. rewrite <- E1. apply C. destruct (pstate_wfl _ _ Hp) as (W1 & W2 & W3).
      destruct (wfl_eof content l1) as (_ & L); [apply pstate_wfl; auto|eapply parseLoop_eof; eauto|].
      rewrite firstn_all2; auto. destruct W2 as (_ & _ & W4). lia.
  - destruct (H2 _ _ eq_refl) as (ext & -> & E2). split; [reflexivity|]. intros x [<-|Hx]; [left; auto|right; apply E2; auto].
Qed.
End WithUnicode.
