(** The source map of an output of Compile. *)
From Verif Require Import Bytes Utf8 Source LexSpec Lexer Ast BytesFacts Parser ParserSpec ParseMono ParseRerun ParseLines Printer PrinterSpec MapProofs
  Transformer TransSpec TransProofs TransOrder Walk WalkSpec WalkProofs SpanSpec SpanProofs Resolver Compile CompileSpec CompileEnd CompileOne CMapSpec.

Lemma ruleStarts_places rs : forall b, map snd (ruleStarts b rs) = map r_sp rs.
Proof. induction rs as [|r rs IH]; intros b; cbn; [reflexivity|]. rewrite IH. reflexivity. Qed.
Lemma starts_places ns : forall b, map snd (starts b ns) = flat_map places ns.
Proof.
  induction ns as [|[r|a] ns IH]; intros b; cbn [starts map flat_map places app]; [reflexivity| |].
  - cbn [snd]. rewrite IH. reflexivity.
  - cbn [snd]. rewrite map_app, IH. destruct (ar_block a) as [[]|]; cbn [app map]; try reflexivity. rewrite ruleStarts_places. reflexivity.
Qed.
Lemma sub_incl {A} (a b : list A) : sub a b -> incl a b.
Proof. induction 1 as [|x u v _ IH|x u v _ IH]; intros y Y; [exact Y|destruct Y as [->|Y]; cbn; auto|right; auto]. Qed.

Section O.
Context {FO : FloatOps}.
Variable o : topts.
Lemma nodes_places n ns t out t' : transformNodes o None n ns t = TOk out t' ->
  sub (flat_map places out) (flat_map places (twiceImports ns)).
Proof.
  destruct n as [|n]; [discriminate|]. revert t out t'. induction ns as [|nd r IH]; intros t out t' H.
  - rewrite nodes_nil in H. apply tret_ok in H as [<- _]. constructor.
  - rewrite nodes_cons in H. apply tbind_ok in H as (h & t1 & H1 & H). apply tbind_ok in H as (rs & t2 & H2 & H).
    apply tret_ok in H as [<- _]. unfold twiceImports. cbn [flat_map]. rewrite !flat_map_app. apply sub_app; [|eapply IH; eauto].
    destruct nd as [r0|a]; cbn [oneNode isImport] in *.
    + apply tbind_ok in H1 as (x & t3 & H1 & H3). apply tret_ok in H3 as [<- _]. destruct x as [r'|]; [|apply sub_nil_l].
      apply rule_origin in H1 as [E1 E2]. cbn [flat_map places]. rewrite E2. apply sub_refl.
    + destruct (beq (ar_name a) (B "import")); [apply tret_ok in H1 as [<- _]; apply sub_refl|].
      destruct (beq (ar_name a) (B "custom-media")).
      { apply tbind_ok in H1 as (? & ? & _ & H1). apply tret_ok in H1 as [<- _]. apply sub_nil_l. }
      destruct (beq (ar_name a) (B "media")); [|apply tret_ok in H1 as [<- _]; apply sub_refl].
      destruct (ar_preludes a) as [|[| |[lsp qs]| |] pres]; try discriminate.
      apply tbind_ok in H1 as (? & ? & _ & H1). apply tret_ok in H1 as [<- _]. apply sub_refl.
Qed.
End O.

Lemma pre_kid n vs m : preorder kids n vs -> In m (kids n) -> exists ws, preorder kids m ws /\ incl ws vs.
Proof.
  intros H. inversion H as [n0 vss F]; subst. clear H. revert F. generalize (kids n) as l. intros l F I.
  assert (X : exists ws, preorder kids m ws /\ In ws vss).
  { induction F as [|x y l vss Hx F IH]; [destruct I|]. destruct I as [->|I]; [exists y; split; cbn; auto|].
    destruct (IH I) as (ws & A & C). exists ws. split; cbn; auto. }
  destruct X as (ws & A & C). exists ws. split; [exact A|]. intros z Z. right. apply in_concat. exists ws. auto.
Qed.
Lemma pre_self n vs : preorder kids n vs -> In n vs.
Proof. intros H. inversion H; subst. cbn. auto. Qed.
Lemma places_in content ns : placedTree content ns -> forall sp, In sp (flat_map places ns) -> inFile content sp.
Proof.
  intros H sp I. destruct (C48_total_lemma ns) as [vs V]. specialize (H _ V).
  assert (X : forall m ws, preorder kids m ws -> incl ws vs -> locate m = Some sp -> inFile content sp).
  { intros m ws A C L. rewrite Forall_forall in H. specialize (H m (C _ (pre_self _ _ A))). unfold placed in H. rewrite L in H. apply H. }
  apply in_flat_map in I as (nd & I & Q).
  assert (K : In (ofNode nd) (kids (NdSheet ns))) by (cbn; apply in_map; exact I).
  destruct (pre_kid _ _ _ V K) as (ws & A & C). destruct nd as [r|a]; cbn [places ofNode] in *.
  - destruct Q as [Q|[]]. eapply X; [exact A|exact C|]. cbn. congruence.
  - destruct Q as [Q|Q]; [eapply X; [exact A|exact C|]; cbn; congruence|].
    destruct (ar_block a) as [[|rsp rs]|] eqn:E; try destruct Q.
    apply in_map_iff in Q as (r & Q & R).
    assert (K2 : In (NdRules rsp rs) (kids (NdAt a))) by (cbn [kids]; rewrite E; apply in_app_iff; right; cbn; auto).
    destruct (pre_kid _ _ _ A K2) as (ws2 & A2 & C2).
    assert (K3 : In (NdRule r) (kids (NdRules rsp rs))) by (cbn; apply in_map; exact R).
    destruct (pre_kid _ _ _ A2 K3) as (ws3 & A3 & C3).
    eapply X; [exact A3|eapply incl_tran; [exact C3|eapply incl_tran; eauto]|]. cbn. congruence.
Qed.
Lemma twice_places ns : incl (flat_map places (twiceImports ns)) (flat_map places ns).
Proof.
  intros sp H. apply in_flat_map in H as (nd & I & Q). apply in_flat_map in I as (nd0 & I & J). apply in_flat_map. exists nd0. split; [exact I|].
  destruct (isImport nd0); cbn in J; intuition congruence.
Qed.

Section W.
Context {U : UnicodeDigits} {FO : FloatOps}.
Variable P : project.
Lemma compiled_mapped p content n ss lines out : p_read P p = Some content -> parse 0 n content = ParseOk ss lines ->
  Forall noRawNode (ss_nodes ss) -> (Z.of_nat (length content) < 1073741823)%Z -> textOk out -> compiled P p out ->
  exists nds, mapped p content nds out /\ sub (map snd (starts [] nds)) (flat_map places (twiceImports (ss_nodes ss))).
Proof.
  intros R Hp N S T (c & n2 & m & ss2 & lines2 & ss' & t & R2 & Hp2 & Ht & Pr).
  rewrite R in R2. injection R2 as <-.
  assert (X : parse 0 n content = parse 0 n2 content) by (apply ParseMono.parse_agree; congruence). rewrite Hp, Hp2 in X. injection X as <- <-.
  assert (lines = lineStarts content) as -> by (eapply C08_parse_lemma; eauto).
  assert (Q : sub (map snd (starts [] (ss_nodes ss'))) (flat_map places (twiceImports (ss_nodes ss)))).
  { rewrite starts_places. unfold transform in Ht. destruct (transformNodes _ _ _ _ _) as [ns' t'| |] eqn:E; try discriminate.
    injection Ht as <- <-. cbn [ss_nodes]. eapply nodes_places; eauto. }
  exists (ss_nodes ss'). split; [|exact Q].
  pose proof Pr as Pr0. apply print_text in Pr as (css & mm & Pc & ->).
  destruct (C22_position_lemma p content (ss_nodes ss') css) as (mappings & A & C); auto.
  - unfold textOk in *. rewrite app_length in T. lia.
  - apply Forall_forall. intros q I. assert (J : In (snd q) (map snd (starts [] (ss_nodes ss')))) by (apply in_map; exact I).
    apply (sub_incl _ _ Q) in J. apply twice_places in J. eapply places_in in J; [|eapply C51_tree_lemma; eauto]. destruct J. lia.
  - exists css, mappings. split; [exact Pc|]. split; [|exact C]. cbn zeta in A. congruence.
Qed.
Lemma C64_lemma e : p_entries P = [e] -> o_imports (p_opts P) = ImportPassthrough -> (forall a, p_abs P e = Some a -> ~ leads P a a) ->
  forall g fs p out, reach P (g, Finished fs) -> lookup p fs = Some out -> textOk out ->
  forall content n ss lines, p_read P p = Some content -> parse 0 n content = ParseOk ss lines ->
  Forall noRawNode (ss_nodes ss) -> (Z.of_nat (length content) < 1073741823)%Z ->
  exists nds, mapped p content nds out /\ sub (map snd (starts [] nds)) (flat_map places (twiceImports (ss_nodes ss))).
Proof.
  intros E1 E2 E3 g fs p out H L T content n ss lines R Hp N S.
  eapply (C36_lemma P e) in H; eauto. apply H in L as [_ C]. eapply compiled_mapped; eauto.
Qed.
End W.
