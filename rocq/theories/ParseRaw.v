(** Text kept from broken declarations: it is text of the file, and it is
    printed. *)
From Verif Require Import Bytes Utf8 Source BytesFacts Ast Printer PrinterProofs Lexer LexSpec LexFacts LexNext LexProps Parser ParserSpec ParseMono ParseInv ParseSound ParserProofs ParseResults ParseLines.

Section WithUnicode.
Context {U : UnicodeDigits}.
Variable content : bytes.
Notation I := (pstate content).
Definition rawOk (d : decl) : Prop :=
  match d with
  | DRaw sp v => v = sub content (sp_start sp) (sp_end sp) /\ exists s, v = s ++ B ";"
  | _ => True
  end.
Lemma I_next l l1 : I l -> next l = Ok l1 -> I l1. Proof. apply pNext. Qed.
Lemma I_rws l b : I l -> I (setRws l b).
Proof. intros H. change (setRws l b) with (withFlags l b (l_rcom l)). apply pFlags; auto. Qed.

Lemma fallback_raw n l d l1 : I l -> parseDeclarationOrFallback n l = Ok (d, l1) -> I l1 /\ rawOk d.
Proof.
  intros Hl H. destruct (parseDeclaration n l) as [[d0 l2]|p ls|] eqn:E.
  - unfold parseDeclarationOrFallback in H. rewrite E in H. apply ok_inj in H. inversion H; subst.
    split; [eapply parseDeclaration_pr; eauto using I_next, I_rws|]. unfold parseDeclaration in E.
    apply bind_ok in E as ([pre l3] & _ & E). apply bind_ok in E as (l4 & _ & E). apply bind_ok in E as (l5 & _ & E).
    apply bind_ok in E as ([[[vs e] im] l6] & _ & E). apply ok_inj in E. inversion E; subst. exact Logic.I.
  - destruct (C13_lemma content l n p ls Hl E) as [X _]. destruct (X d l1 H) as (l2 & s & Ht & En & -> & Hs).
    destruct (to_semi _ _ _ Ht (pLines _ _ _ Hl)) as (P & _). split; [eapply pNext; eauto|]. cbn. eauto.
  - unfold parseDeclarationOrFallback in H. rewrite E in H. discriminate.
Qed.
Lemma declBlock_raw n : forall l ds e l1, I l -> declBlockLoop n l = Ok (ds, e, l1) -> I l1 /\ Forall rawOk ds.
Proof.
  induction n as [|n IH]; intros l ds e l1 Hl H; cbn [declBlockLoop] in H; [discriminate|].
  destruct (teq (l_cur l) RCurly).
  - apply bind_ok in H as (l2 & E & H). apply ok_inj in H. inversion H; subst. split; [eapply pNext; eauto|constructor].
  - apply bind_ok in H as ([d l2] & E & H). apply bind_ok in H as (l3 & E3 & H). apply bind_ok in H as ([[ds2 e2] l4] & E4 & H).
    apply ok_inj in H. inversion H; subst. destruct (fallback_raw _ _ _ _ Hl E) as [H2 Hd].
    assert (H3 : I l3) by (destruct (teq _ _) in E3; [eapply pNext; eauto|apply ok_inj in E3; subst; auto]).
    destruct (IH _ _ _ _ H3 E4). auto.
Qed.
Lemma block_raw n l sp ds l1 : I l -> parseDeclarationBlock n l = Ok (sp, ds, l1) -> I l1 /\ Forall rawOk ds.
Proof.
  intros Hl H. unfold parseDeclarationBlock in H. apply bind_ok in H as (l2 & E & H). apply bind_ok in H as ([[ds2 e2] l3] & E2 & H).
  apply ok_inj in H. inversion H; subst. eapply declBlock_raw; [|exact E2]. eapply pNext; eauto.
Qed.
Section Run.
Variable run : nat.
Lemma qrule_raw n : forall k st pr l r l1, I l -> qruleLoop run n k st pr l = Ok (r, l1) -> I l1 /\ Forall rawOk (r_decls r).
Proof.
  induction n as [|n IH]; intros k st pr l r l1 Hl H; cbn [qruleLoop] in H; [discriminate|].
  assert (Hdef : (if k then '(pr1, l1) <- parseKeyframeSelectorList n l ;; qruleLoop run n k st pr1 l1
     else '(sl, l1) <- parseSelectorList n l ;; qruleLoop run n k st (PrSel sl) l1) = Ok (r, l1) -> I l1 /\ Forall rawOk (r_decls r)).
  { clear H. intros H. destruct k; apply bind_ok in H as ([x l2] & E & H).
    - apply (parseKey_pr I I_next) in E; eauto.
    - destruct (sel_pr I I_next I_rws n) as (S1 & _). apply S1 in E; eauto. }
  destruct (l_cur l); try exact (Hdef H); try discriminate H.
  apply bind_ok in H as ([[bsp ds] l2] & E & H). apply ok_inj in H. inversion H; subst. eapply block_raw; eauto.
Qed.
Lemma rules_raw n : forall k l rs e l1, I l -> rulesLoop run n k l = Ok (rs, e, l1) -> I l1 /\ Forall (fun r => Forall rawOk (r_decls r)) rs.
Proof.
  induction n as [|n IH]; intros k l rs e l1 Hl H; cbn [rulesLoop] in H; [discriminate|].
  assert (Hdef : ('(r, l1) <- parseQualifiedRule run n k l ;;
      '(rs, e, l2) <- rulesLoop run n k l1 ;; Ok (r :: rs, e, l2)) = Ok (rs, e, l1) -> I l1 /\ Forall (fun r => Forall rawOk (r_decls r)) rs).
  { clear H. intros H. apply bind_ok in H as ([r l2] & E & H). apply bind_ok in H as ([[rs2 e2] l3] & E2 & H).
    apply ok_inj in H. inversion H; subst. unfold parseQualifiedRule in E. destruct (qrule_raw _ _ _ _ _ _ _ Hl E) as [H2 Hr].
    destruct (IH _ _ _ _ _ H2 E2). auto. }
  destruct (l_cur l); try exact (Hdef H); try discriminate H.
  apply bind_ok in H as (l2 & E & H). apply ok_inj in H. inversion H; subst. split; [eapply pNext; eauto|constructor].
Qed.
Lemma Forall_flat {A C} (f : A -> list C) P l : Forall (fun x => Forall P (f x)) l -> Forall P (flat_map f l).
Proof. induction 1; cbn; [constructor|]. apply Forall_app; auto. Qed.
Lemma at_raw n l nd is l1 : I l -> parseAtRule run n l = Ok (nd, is, l1) -> I l1 /\ Forall rawOk (nodeDecls nd).
Proof.
  intros Hl H. unfold parseAtRule in H.
  assert (HN : forall l2 l3, I l2 -> next l2 = Ok l3 -> I l3) by (intros; eapply pNext; eauto).
  assert (HE : forall t l2 l3, I l2 -> expect t l2 = Ok l3 -> I l3) by (intros; eapply (prL_expect I I_next); eauto).
  destruct (beq (l_str l) (B "import")).
  { apply bind_ok in H as ([[a i] l2] & E & H). apply ok_inj in H. inversion H; subst. clear H.
    unfold parseImportAtRule in E. cbv zeta in E. apply bind_ok in E as (l2 & E1 & E). apply bind_ok in E as ([[psp t] l3] & E2 & E).
    apply bind_ok in E as ([mq l4] & E3 & E).
    assert (H2 : I l2) by eauto. assert (H3 : I l3).
    { destruct (l_cur l2); try discriminate E2.
      - apply bind_ok in E2 as (l5 & E4 & E2). apply ok_inj in E2. inversion E2; subst. eauto.
      - destruct (negb _) in E2; [discriminate|]. apply bind_ok in E2 as (l5 & E4 & E2). apply bind_ok in E2 as (l6 & E5 & E2).
        apply bind_ok in E2 as (l7 & E6 & E2). apply ok_inj in E2. inversion E2; subst. eauto.
      - apply bind_ok in E2 as (l5 & E4 & E2). apply ok_inj in E2. inversion E2; subst. eauto. }
    assert (H4 : I l4) by (eapply (mql_pr I I_next); eauto).
    destruct mq as [q|]; apply ok_inj in E; inversion E; subst; (split; [auto|constructor]). }
  destruct (beq (l_str l) (B "media")).
  { apply bind_ok in H as ([a l2] & E & H). apply ok_inj in H. inversion H; subst. clear H. unfold parseMediaAtRule in E. cbv zeta in E.
    apply bind_ok in E as (l3 & E1 & E). apply bind_ok in E as ([mq l4] & E2 & E). apply bind_ok in E as (l5 & E3 & E).
    apply bind_ok in E as ([[rs e] l6] & E4 & E). apply ok_inj in E. inversion E; subst. clear E.
    apply (mql_pr I I_next) in E2; [|eauto]. apply HE in E3; auto. destruct (rules_raw _ _ _ _ _ _ E3 E4).
    split; auto. unfold nodeDecls. cbn. rewrite app_nil_r. apply Forall_flat. auto. }
  destruct (bmem (l_str l) _).
  { apply bind_ok in H as ([a l2] & E & H). apply ok_inj in H. inversion H; subst. clear H. unfold parseKeyframes in E. cbv zeta in E.
    apply bind_ok in E as (l3 & E1 & E). apply bind_ok in E as (pre & E2 & E). apply bind_ok in E as (l4 & E3 & E).
    apply bind_ok in E as (l5 & E4 & E).
    apply bind_ok in E as ([[rs e] l6] & E5 & E). apply ok_inj in E. inversion E; subst. clear E.
    apply HE in E4; [|eauto]. destruct (rules_raw _ _ _ _ _ _ E4 E5).
    split; auto. unfold nodeDecls. cbn. rewrite app_nil_r. apply Forall_flat. auto. }
  destruct (beq (l_str l) (B "custom-media")).
  { apply bind_ok in H as ([a l2] & E & H). apply ok_inj in H. inversion H; subst. clear H.
    unfold parseCustomMediaAtRule in E. cbv zeta in E. apply bind_ok in E as (l2 & E1 & E). apply bind_ok in E as ([v l3] & E2 & E).
    destruct v; try discriminate. apply bind_ok in E as ([mq l4] & E3 & E).
    assert (H3 : I l3) by (eapply (parseValue_pr I I_next n l2); [eapply HN; eauto|exact E2]). assert (H4 : I l4) by (eapply (mql_pr I I_next n l3 H3); exact E3).
    destruct mq as [[qsp [|q [|q2 qs]]]|]; try discriminate. apply ok_inj in E; inversion E; subst. split; [auto|constructor]. }
  apply bind_ok in H as ([a l2] & E & H). apply ok_inj in H. inversion H; subst. clear H. unfold parseGenericAtRule in E. cbv zeta in E.
  apply bind_ok in E as (l3 & E1 & E). apply bind_ok in E as ([[bsp ds] l4] & E2 & E). apply ok_inj in E. inversion E; subst. clear E.
  destruct (block_raw n l3 bsp ds l1) as [H1 H2]; eauto.
Qed.
Lemma parseLoop_raw n : forall l nds is l1, I l -> parseLoop run n l = Ok (nds, is, l1) -> Forall (fun nd => Forall rawOk (nodeDecls nd)) nds.
Proof.
  induction n as [|n IH]; intros l nds is l1 Hl H; cbn [parseLoop] in H; [discriminate|].
  assert (Hdef : ('(r, l1) <- parseQualifiedRule run n false l ;;
      '(nds, iss, l2) <- parseLoop run n l1 ;; Ok (NRule r :: nds, iss, l2)) = Ok (nds, is, l1) -> Forall (fun nd => Forall rawOk (nodeDecls nd)) nds).
  { clear H. intros H. apply bind_ok in H as ([r l2] & E & H). apply bind_ok in H as ([[nds2 is2] l3] & E2 & H).
    apply ok_inj in H. inversion H; subst. unfold parseQualifiedRule in E. destruct (qrule_raw _ _ _ _ _ _ _ Hl E) as [H2 Hr].
    constructor; [|eapply IH; eauto]. unfold nodeDecls. cbn. rewrite !app_nil_r. exact Hr. }
  assert (Hskip : (l2 <- next l ;; parseLoop run n l2) = Ok (nds, is, l1) -> Forall (fun nd => Forall rawOk (nodeDecls nd)) nds).
  { clear H. intros H. apply bind_ok in H as (l2 & E & H). eapply IH; [|exact H]. eapply pNext; eauto. }
  destruct (l_cur l) eqn:Ec; try exact (Hdef H); try exact (Hskip H).
  - apply ok_inj in H. inversion H; subst. constructor.
  - apply bind_ok in H as ([[nd i2] l2] & E & H). apply bind_ok in H as ([[nds2 is2] l3] & E2 & H).
    apply ok_inj in H. inversion H; subst. destruct (at_raw _ _ _ _ _ Hl E). constructor; [auto|eapply IH; eauto].
Qed.
End Run.
End WithUnicode.

(** * Printing *)
Definition within (v out : bytes) : Prop := exists a b, out = a ++ v ++ b.
Lemma within_app v x y z : within v y -> within v (x ++ y ++ z).
Proof. intros (a & b & ->). exists (x ++ a), (b ++ z). rewrite <- !app_assoc. reflexivity. Qed.
Lemma within_l v x y : within v x -> within v (x ++ y). Proof. apply (within_app v [] x y). Qed.
Lemma within_r v x y : within v y -> within v (x ++ y).
Proof. intros H. rewrite <- (app_nil_r y). apply within_app; auto. Qed.
Lemma within_refl v : within v v. Proof. exists [], []. rewrite app_nil_r. reflexivity. Qed.
Definition prints (v : bytes) (o : ops) : Prop := forall l, o = Some l -> within v (textOf l).
Lemma prints_l v a b : prints v a -> prints v (a +++ b).
Proof. intros H l E. apply cat_some in E as (x & y & E1 & _ & ->). rewrite textOf_app. apply within_l; auto. Qed.
Lemma prints_r v a b : prints v b -> prints v (a +++ b).
Proof. intros H l E. apply cat_some in E as (x & y & _ & E1 & ->). rewrite textOf_app. apply within_r; auto. Qed.
Lemma prints_all {A} v (f : A -> ops) l x : In x l -> prints v (f x) -> prints v (all f l).
Proof. intros Hi H. induction l as [|y l IH]; [destruct Hi|]. destruct Hi as [-> | Hi]; cbn [all]; [apply prints_l|apply prints_r]; auto. Qed.
Lemma prints_sep {A} v s (f : A -> ops) l x : In x l -> prints v (f x) -> prints v (sepBy s f l).
Proof.
  intros Hi H. induction l as [|y l IH]; [destruct Hi|]. cbn [sepBy]. destruct l as [|z l].
  - destruct Hi as [-> | []]. auto.
  - destruct Hi as [-> | Hi]; [apply prints_l; auto|]. apply prints_r, prints_r. apply IH. exact Hi.
Qed.
Lemma prints_decls sp v ds : In (DRaw sp v) ds -> prints v (printDecls ds).
Proof.
  intros H. eapply prints_sep; [exact H|]. intros l E. cbn in E. inversion E; subst. cbn. rewrite app_nil_r. apply within_refl.
Qed.
Lemma prints_rule sp v r : In (DRaw sp v) (r_decls r) -> prints v (printRule r).
Proof. intros H. unfold printRule. apply prints_r, prints_r, prints_r, prints_l. eapply prints_decls; eauto. Qed.
Lemma prints_node sp v nd : In (DRaw sp v) (nodeDecls nd) -> prints v (printNode nd).
Proof.
  unfold nodeDecls. intros H. apply in_app_iff in H as [H|H].
  - apply in_flat_map in H as (r & Hr & H). destruct nd as [r'|a]; cbn in *.
    + destruct Hr as [-> | []]. eapply prints_rule; eauto.
    + unfold printAt. apply prints_r, prints_r, prints_r, prints_r. destruct (ar_block a) as [[bsp ds|bsp rs]|]; cbn in Hr; try contradiction.
      apply prints_r, prints_l. cbn [printBlock]. eapply prints_all; [exact Hr|]. eapply prints_rule; eauto.
  - destruct nd as [r'|a]; [destruct H|]. cbn. unfold printAt. apply prints_r, prints_r, prints_r, prints_r.
    destruct (ar_block a) as [[bsp ds|bsp rs]|]; cbn in H; try contradiction.
    apply prints_r, prints_l. cbn [printBlock]. eapply prints_decls; eauto.
Qed.
Lemma C13_verbatim_lemma {U : UnicodeDigits} run n content ss lines out nd sp v : parse run n content = ParseOk ss lines ->
  print None (ss_nodes ss) = Some out -> In nd (ss_nodes ss) -> In (DRaw sp v) (nodeDecls nd) ->
  v = sub content (sp_start sp) (sp_end sp) /\ (exists s, v = s ++ B ";") /\ exists a b, out = a ++ v ++ b.
Proof.
  intros H Hp Hi Hd. apply parse_ok in H as (l & l1 & El & H & _).
  apply (parseLoop_raw content run) in H; [|apply pNew; auto]. rewrite Forall_forall in H. specialize (H nd Hi).
  rewrite Forall_forall in H. specialize (H _ Hd). cbn in H. destruct H as [H1 H2]. split; auto. split; auto.
  apply print_none_iff in Hp as (o & Ho & ->). revert Ho. change (prints v (printNodes (ss_nodes ss)) o -> within v (textOf o)) || idtac.
  intros Ho. eapply (prints_all v printNode); [exact Hi| |exact Ho]. eapply prints_node; eauto.
Qed.
