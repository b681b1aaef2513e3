(** C61 when imports are inlined: every file of the chain may be respaced. *)
From Verif Require Import Bytes Utf8 Source Lexer LexSpec Ast AstInd BytesFacts Parser ParseMono ParseRerun ParserSpec ParseResults Printer PrinterSpec Strip MapProofs MapProofs  PrintStrip ParseTable Transformer TransSpec TransProofs StripTrans Resolver
  Compile CompileSpec CompileEnd InlineSpec InlineRefs InlineProofs TransDefs AgainSpec AgainProofs ReadSpec LexStreamSpec JoinSpec LayoutSpec LayoutProofs LayoutProjSpec.

Lemma map_eq_both {A C} (f : A -> C) xs : forall ys, map f xs = map f ys -> Forall2 (fun x y => f x = f y) xs ys.
Proof. induction xs as [|x xs IH]; intros [|y ys] H; try discriminate; constructor; injection H as H1 H2; auto. Qed.

Section WithFloats.
Context {FO : FloatOps}.
Variable o : topts.
Variables m m' : list (ptr * list node).
(** Same rules but for positions, and an import is replaced in both or in
    neither. *)
Definition sim0 (x y : node) : Prop := stripNode x = stripNode y /\ (isImport x = true -> plookup (nodeId x) m = None /\ plookup (nodeId y) m' = None).
Definition sim (x y : node) : Prop := stripNode x = stripNode y /\ (isImport x = true ->
  match plookup (nodeId x) m, plookup (nodeId y) m' with
  | None, None => True
  | Some a, Some b => Forall2 sim0 a b
  | _, _ => False
  end).
Lemma sim0_sim x y : sim0 x y -> sim x y.
Proof. intros [E H]. split; [exact E|]. intros Hi. destruct (H Hi) as [-> ->]. exact Logic.I. Qed.
(** Two computations with the same result but for positions. *)
Definition twin {A C} (f : A -> C) (p q : TM A) : Prop := forall t t', stripT t = stripT t' -> mapTS f (p t) = mapTS f (q t').
Lemma twin_ret {A C} (f : A -> C) a b : f a = f b -> twin f (tret a) (tret b).
Proof. intros E t t' Et. cbn. congruence. Qed.
Lemma twin_bind {A A' C C'} (f : A -> A') (h : C -> C') p q k k' : twin f p q -> (forall a b, f a = f b -> twin h (k a) (k' b)) -> twin h (tbind p k) (tbind q k').
Proof.
  intros H K t t' E. specialize (H t t' E). unfold tbind. destruct (p t) as [a t1| |], (q t') as [b t1'| |]; cbn in H; try discriminate; try reflexivity.
  assert (H1 : f a = f b) by congruence. assert (H2 : stripT t1 = stripT t1') by congruence. apply (K a b H1 t1 t1' H2).
Qed.
Lemma twin_ce {A C} (f : A -> C) p q r : ce f p r -> ce f q r -> twin f p q.
Proof. intros H1 H2 t t' E. rewrite <- H1, <- H2, E. reflexivity. Qed.
Lemma twin_nodes n : (forall xs ys, Forall2 sim xs ys -> twin (map stripNode) (transformNodes o (Some m) n xs) (transformNodes o (Some m') n ys)).
Proof.
  assert (K : forall n', (forall xs ys, Forall2 sim0 xs ys -> twin (map stripNode) (transformNodes o (Some m) n' xs) (transformNodes o (Some m') n' ys)) ->
    forall xs ys, Forall2 sim xs ys -> twin (map stripNode) (transformNodes o (Some m) (S n') xs) (transformNodes o (Some m') (S n') ys)).
  { intros n' IHn xs ys F. induction F as [|x y xs ys [E Hi] _ IH]; [apply twin_ret; reflexivity|]. intros t t'. rewrite !nodes_cons. revert t t'.
    apply (twin_bind (map stripNode)).
    - destruct (isImport x) eqn:Ei.
      + assert (Ey : isImport y = true) by (rewrite <- import_strip, <- E, import_strip; exact Ei). specialize (Hi eq_refl).
        destruct x as [|a]; [discriminate|]. destruct y as [|b]; [discriminate|]. cbn [isImport nodeId] in *. cbn [oneNode]. rewrite Ei, Ey.
        destruct (plookup (atRuleId a) m) as [ia|], (plookup (atRuleId b) m') as [ib|]; try contradiction.
        * injection E as _ Ep _. assert (El : length (ar_preludes a) = length (ar_preludes b)) by (rewrite <- (map_length stripAtPrelude), Ep; apply map_length).
          rewrite El. apply (twin_bind (fun u : unit => u)); [|intros _ _ _; apply IHn, Hi].
          destruct (_ <? _)%nat; [|apply twin_ret; reflexivity]. apply (twin_ce _ _ _ (treport (mkReport true sp0 (B "@import transform does not yet support @supports or media queries")))); apply ce_report; reflexivity.
        * apply twin_ret. cbn [map]. rewrite E. reflexivity.
      + assert (Ey : isImport y = false) by (rewrite <- import_strip, <- E, import_strip; exact Ei).
        apply (twin_ce _ _ _ (oneNode o (Some m) n' (stripNode x))); [apply ce_node; exact Ei|]. rewrite E. intros t.
        pose proof (ce_node o (Some m') n' y Ey t) as C. rewrite <- C. destruct y as [r|b]; [reflexivity|]. cbn [isImport] in Ey. cbn [oneNode stripNode stripAt ar_name]. rewrite Ey. reflexivity.
    - intros h h' Eh. apply (twin_bind (map stripNode)); [exact IH|]. intros r r' Er. apply twin_ret. rewrite !map_app. congruence. }
  assert (Z : forall n' xs ys, Forall2 sim0 xs ys -> twin (map stripNode) (transformNodes o (Some m) n' xs) (transformNodes o (Some m') n' ys)).
  { induction n' as [|n' IH]; intros xs ys F; [intros t t' _; reflexivity|]. apply K; [exact IH|]. clear - F. induction F; constructor; auto using sim0_sim. }
  destruct n as [|n]; intros xs ys F; [intros t t' _; reflexivity|]. apply K; [apply Z|exact F].
Qed.
End WithFloats.

Lemma strip_ofRun k nd : stripNode (nodeOfRun k nd) = stripNode nd.
Proof.
  destruct nd as [r|a]; [reflexivity|]. cbn [nodeOfRun stripNode]. f_equal. unfold stripAt, atOfRun. cbn [ar_name ar_preludes ar_block]. f_equal.
  destruct (ar_block a) as [[sp ds|sp rs]|]; cbn [option_map blockOfRun stripBlock]; auto. do 2 f_equal. rewrite map_map. apply map_ext. intros r. reflexivity.
Qed.
Section WithUnicode.
Context {U : UnicodeDigits}.
Lemma respaced_sym P P' : respacedProject P P' -> respacedProject P' P.
Proof.
  intros (E1 & E2 & E3 & E4 & E5). repeat split; auto. intros f. destruct (E5 f) as [E|(x & y & Ex & Ey & R)]; [left; auto|].
  right. exists y, x. split; [exact Ey|]. split; [exact Ex|]. apply rsBack, R.
Qed.
(** A file and its counterpart. *)
Lemma file_ok P P' d f c n ss lines : respacedProject P P' -> p_read P f = Some c -> parse d n c = ParseOk ss lines ->
  exists c' n' ss' lines', p_read P' f = Some c' /\ parse d n' c' = ParseOk ss' lines' /\ strip (ss_nodes ss) = strip (ss_nodes ss') /\
    map fst (ss_imports ss) = map fst (ss_imports ss').
Proof.
  intros (_ & _ & _ & _ & E5) Rd Hp. destruct (E5 f) as [E|(x & y & Ex & Ey & R)]; [exists c, n, ss, lines; rewrite E; auto|].
  assert (x = c) by congruence. subst x. destruct (C61_parse_lemma _ _ _ R) as (n0 & H). destruct (H n0 ltac:(lia)) as (s1 & l1 & s2 & l2 & H1 & H2 & H3 & H4 & _).
  pose proof (CompileEnd.parse_agree 0 n0 d n c ltac:(rewrite H1; discriminate) ltac:(rewrite Hp; discriminate)) as A. rewrite Hp, H1 in A. cbn [outcomeOfRun] in A. injection A as -> ->.
  exists y, n0, (sheetOfRun d s2), l2. split; [exact Ey|]. split; [rewrite (C12_rerun_lemma 0 d), H2; reflexivity|]. unfold sheetOfRun, strip. cbn [ss_nodes ss_imports].
  rewrite !map_map. split.
  - rewrite !(map_ext (fun x => stripNode (nodeOfRun d x)) stripNode) by apply strip_ofRun. exact H3.
  - rewrite !(map_ext (fun x => fst (importOfRun d x)) fst) by reflexivity. exact H4.
Qed.
Lemma file_bad P P' d f c n sp msg lines : respacedProject P P' -> p_read P f = Some c -> parse d n c = ParseErr sp msg lines -> p_read P' f = Some c.
Proof.
  intros (_ & _ & _ & _ & E5) Rd Hp. destruct (E5 f) as [E|(x & y & Ex & Ey & R)]; [congruence|].
  assert (x = c) by congruence. subst x. destruct (C61_parse_lemma _ _ _ R) as (n0 & H). destruct (H n0 ltac:(lia)) as (s1 & l1 & s2 & l2 & H1 & _).
  pose proof (CompileEnd.parse_agree 0 n0 d n c ltac:(rewrite H1; discriminate) ltac:(rewrite Hp; discriminate)) as A. rewrite Hp, H1 in A. discriminate.
Qed.
Lemma edge_same P P' f h : respacedProject P P' -> edge P f h -> edge P' f h.
Proof.
  intros E (spec & rel & (c & run & n & ss & lines & Rd & Hp & Hi) & E1 & E2). destruct (file_ok _ _ _ _ _ _ _ _ E Rd Hp) as (c' & n' & ss' & lines' & Rd' & Hp' & _ & Ei).
  destruct E as (_ & _ & E3 & E4 & _). exists spec, rel. split; [|rewrite E3, E4; auto]. exists c', run, n', ss', lines'. rewrite <- Ei. auto.
Qed.
Lemma leads_same P P' f h : respacedProject P P' -> leads P f h -> leads P' f h.
Proof. intros E. induction 1 as [h H|h k _ IH H]; [apply leadsEdge|eapply leadsStep; [exact IH|]]; eapply edge_same; eauto. Qed.
Lemma involved_same P P' f : respacedProject P P' -> involved P f -> involved P' f.
Proof.
  intros E (e & a & H1 & H2 & H3). pose proof E as (E1 & _ & E3 & _). exists e, a. rewrite E1, E3. split; [exact H1|]. split; [exact H2|].
  destruct H3 as [H3|H3]; [left; exact H3|right; eapply leads_same; eauto].
Qed.
Lemma one_same P P' : respacedProject P P' -> oneImportEach P -> oneImportEach P'.
Proof.
  intros E H f Hf. pose proof (respaced_sym _ _ E) as E'. destruct (H f (involved_same _ _ _ E' Hf)) as [H1 H2]. split; [intros L; apply H1; eapply leads_same; eauto|].
  intros c run n ss lines Rd Hp. destruct (file_ok _ _ _ _ _ _ _ _ E' Rd Hp) as (c' & n' & ss' & lines' & Rd' & Hp' & _ & Ei). specialize (H2 _ _ _ _ _ Rd' Hp').
  rewrite <- (map_length fst), Ei, map_length. exact H2.
Qed.

Context {FO : FloatOps}.
Variables P P' : project.
Hypothesis R : respacedProject P P'.
Definition alike (r r' : option (list node)) : Prop := match r, r' with None, None => True | Some a, Some b => strip a = strip b | _, _ => False end.
Definition alikeRepl (imps imps' : list (bytes * ptr)) (m m' : list (ptr * list node)) : Prop := m = [] /\ m' = [] \/
  exists spec k k' a b, imps = [(spec, k)] /\ imps' = [(spec, k')] /\ m = [(k, a)] /\ m' = [(k', b)] /\ strip a = strip b.
Lemma import_is d n c ss lines x : parse d n c = ParseOk ss lines -> In x (ss_nodes ss) -> isImport x = true -> exists t, In (t, nodeId x) (ss_imports ss).
Proof.
  intros Hp J Hi. destruct (C14_lemma _ _ _ _ _ Hp) as [F _]. pose proof (C15_lemma _ _ _ _ _ Hp) as S1. rewrite Forall_forall in S1. specialize (S1 x J).
  destruct x as [|a]; [discriminate|]. cbn [isImport] in Hi. cbn [soundNode] in S1. destruct S1 as [S1 _]. destruct (S1 (proj1 (beq_eq _ _) Hi)) as (_ & sp & t & rest & Ep & _).
  exists t. rewrite F. apply in_flat_map. exists (NAt a). split; [exact J|]. cbn [importOf nodeId]. rewrite Hi, Ep. left. reflexivity.
Qed.
Lemma plookup_one {A} k (v : A) : plookup k [(k, v)] = Some v.
Proof. cbn [plookup]. unfold ptrEq. rewrite !Nat.eqb_refl. reflexivity. Qed.
Lemma plookup_other {A} (k k' : ptr) (v : A) : fst k <> fst k' -> plookup k [(k', v)] = None.
Proof. intros N. cbn [plookup]. unfold ptrEq. destruct (Nat.eqb_spec (fst k) (fst k')); [contradiction|reflexivity]. Qed.
Lemma runOf_id nd : runOf nd = fst (nodeId nd). Proof. destruct nd; reflexivity. Qed.
Lemma inlined_alike : (forall d f r, inlined P d f r -> exists r', inlined P' d f r' /\ alike r r') /\
  (forall d f imps m, replaces P d f imps m -> forall imps', map fst imps = map fst imps' -> exists m', replaces P' d f imps' m' /\ alikeRepl imps imps' m m').
Proof.
  pose proof R as (E1 & E2 & E3 & E4 & E5).
  assert (One : forall (imps' : list (bytes * ptr)) (spec : bytes) (k : ptr), map fst [(spec, k)] = map fst imps' -> exists k', imps' = [(spec, k')]).
  { intros [|[s k'] [|]] spec k H; try discriminate. injection H as ->. eauto. }
  apply inlined_both.
  - intros d f Rd. exists None. split; [|exact Logic.I]. apply inUnread. destruct (E5 f) as [E|(x & y & Ex & _)]; congruence.
  - intros d f c n sp msg lines Rd Hp. exists None. split; [|exact Logic.I]. eapply inBad; [eapply file_bad; eauto|exact Hp].
  - intros d f c n ss lines m k ss1 t Rd Hp Rp IH T. destruct (file_ok _ _ _ _ _ _ _ _ R Rd Hp) as (c' & n' & ss' & lines' & Rd' & Hp' & En & Ei).
    destruct (IH _ Ei) as (m' & Rp' & Al).
    assert (F : Forall2 (sim m m') (ss_nodes ss) (ss_nodes ss')).
    { assert (G : forall x y, In x (ss_nodes ss) -> In y (ss_nodes ss') -> stripNode x = stripNode y -> sim m m' x y).
      { intros x y Jx Jy E. split; [exact E|]. intros Hi. assert (Hj : isImport y = true) by (rewrite <- import_strip, <- E, import_strip; exact Hi).
        destruct Al as [[-> ->]|(spec & p & q & a & b & Ea & Eb & -> & -> & Es)]; [exact Logic.I|].
        destruct (import_is _ _ _ _ _ _ Hp Jx Hi) as (t1 & I1). destruct (import_is _ _ _ _ _ _ Hp' Jy Hj) as (t2 & I2).
        pose proof (parse_import_run _ _ _ _ _ _ _ Hp I1) as R1. pose proof (parse_import_run _ _ _ _ _ _ _ Hp' I2) as R2.
        rewrite Ea in I1. rewrite Eb in I2. destruct I1 as [I1|[]]. destruct I2 as [I2|[]]. injection I1 as _ ->. injection I2 as _ ->. rewrite !plookup_one.
        pose proof (proj2 (inlined_harmless P) _ _ _ _ Rp _ _ (or_introl eq_refl)) as [Ha _]. pose proof (proj2 (inlined_harmless P') _ _ _ _ Rp' _ _ (or_introl eq_refl)) as [Hb _].
        generalize a at 1. generalize b at 1. intros b0 a0. clear - Es Ha Hb R1 R2. unfold strip in Es. apply map_eq_both in Es. induction Es as [|u v a b E _ IH]; constructor; [|inversion Ha; inversion Hb; auto].
        apply Forall_inv in Ha, Hb. rewrite runOf_id in Ha, Hb. split; [exact E|]. intros _. split; apply plookup_other; lia. }
      unfold strip in En. apply map_eq_both in En. clear - En G. revert G. induction En as [|x y xs ys E _ IH]; intros G; constructor; [apply G; cbn; auto|].
      apply IH. intros u v Hu Hv. apply G; right; auto. }
    unfold transform in T. destruct (transformNodes (p_opts P) (Some m) k (ss_nodes ss) (initState (p_opts P) (Some m))) as [out t0| |] eqn:Et; try discriminate. injection T as <- <-.
    pose proof (twin_nodes (p_opts P) m m' k _ _ F (initState (p_opts P) (Some m)) (initState (p_opts P) (Some m')) eq_refl) as W. rewrite Et in W.
    destruct (transformNodes (p_opts P) (Some m') k (ss_nodes ss') (initState (p_opts P) (Some m'))) as [out' t0'| |] eqn:Et'; try discriminate. cbn [mapTS] in W.
    exists (Some out'). split; [|cbn [alike ss_nodes]; unfold strip; congruence]. change out' with (ss_nodes (mkSheet out' (ss_imports ss'))).
    eapply inRules; [exact Rd'|exact Hp'|exact Rp'|]. unfold transform. rewrite E2, Et'. reflexivity.
  - intros d f [|i r] H; [|discriminate]. exists []. split; [apply rpNone|left; auto].
  - intros d f spec k E imps' H. destruct (One _ _ _ H) as (k' & ->). exists []. split; [apply rpUnresolved; rewrite E4; exact E|left; auto].
  - intros d f spec k rel Er Ea imps' H. destruct (One _ _ _ H) as (k' & ->). exists []. split; [eapply rpNoPath; [rewrite E4; exact Er|rewrite E3; exact Ea]|left; auto].
  - intros d f spec k rel f' Er Ea _ (r' & H1 & A) imps' H. destruct (One _ _ _ H) as (k' & ->). destruct r'; [contradiction|]. exists [].
    split; [eapply rpFailed; [rewrite E4; exact Er|rewrite E3; exact Ea|exact H1]|left; auto].
  - intros d f spec k rel f' nds Er Ea _ (r' & H1 & A) imps' H. destruct (One _ _ _ H) as (k' & ->). destruct r' as [nds'|]; [|contradiction]. exists [(k', nds')].
    split; [eapply rpRules; [rewrite E4; exact Er|rewrite E3; exact Ea|exact H1]|]. right. exists spec, k, k', nds, nds'. auto.
Qed.
Lemma C61_inline_lemma e : o_imports (p_opts P) = ImportInline -> oneImportEach P -> p_entries P = [e] ->
  forall g fs g' fs', reach P (g, Finished fs) -> reach P' (g', Finished fs') -> forall p out, lookup p fs = Some out ->
  exists out', lookup p fs' = Some out' /\ sameText out out'.
Proof.
  intros Im One Ee g fs g' fs' H H' p out L. pose proof R as (E1 & E2 & E3 & _).
  apply (C53_lemma P Im One e Ee g fs H) in L as [Ea (c & n & ss & lines & nds & Rd & Hp & In_ & Pr)].
  destruct (file_ok _ _ _ _ _ _ _ _ R Rd Hp) as (c' & n' & ss' & lines' & Rd' & Hp' & _). destruct (proj1 inlined_alike _ _ _ In_) as ([nds'|] & In' & Al); [|contradiction].
  cbn [alike] in Al. destruct (print_text _ _ _ Pr) as (css & mp & Pc & Eo).
  assert (Pc' : print None nds' = Some css) by (rewrite <- print_strip, <- Al, print_strip; exact Pc).
  pose proof (parse_table c' 0%nat n') as Tb. rewrite Hp' in Tb. destruct Tb as [Hd _].
  destruct (print_total (mkSource p c' lines') nds' css Hd Pc') as (out' & Po). destruct (print_text _ _ _ Po) as (css' & mp' & Pc2 & Eo'). assert (css' = css) by congruence. subst css'.
  exists out'. split; [|eexists css, _, _; split; [exact Eo|exact Eo']].
  eapply (C53_lemma P'); [rewrite E2; exact Im|eapply one_same; eauto|rewrite E1; exact Ee|exact H'|]. split; [rewrite E3; exact Ea|].
  exists c', n', ss', lines', nds'. auto.
Qed.
Lemma times_text Q k p out : compiledTimes Q k p out -> exists c n m ss lines ss' t css mp, p_read Q p = Some c /\ parse 0 n c = ParseOk ss lines /\ transform (p_opts Q) None m ss = TOk ss' t /\
  print None (ss_nodes ss') = Some css /\ out = css ++ mapComment mp.
Proof.
  intros (c & n & m & ss & lines & ss' & t & Rd & Hp & T & Pr). destruct (print_text _ _ _ Pr) as (css & mp & Pc & Eo). eexists c, n, m, ss, lines, ss', t, css, _. repeat (split; [eassumption|]). exact Eo.
Qed.
Lemma C61_many_lemma : o_imports (p_opts P) <> ImportInline ->
  forall g fs g' fs', reachApart P (g, Finished fs) -> reachApart P' (g', Finished fs') -> forall p out out', lookup p fs = Some out -> lookup p fs' = Some out' -> sameText out out'.
Proof.
  intros Im g fs g' fs' H H' p out out' L L'. pose proof R as (E1 & E2 & E3 & _).
  destruct (CompileMany.C35_lemma P Im _ _ H) as (_ & S1 & _). destruct (CompileMany.C35_lemma P' ltac:(rewrite E2; exact Im) _ _ H') as (_ & S1' & _).
  destruct (S1 _ _ L) as (_ & k & T1). destruct (S1' _ _ L') as (_ & k' & T1'). apply times_text in T1 as (c & n & m & ss & lines & ss1 & t & css & mp & Rd & Hp & T & Pc & ->).
  apply times_text in T1' as (c' & n' & m' & ss' & lines' & ss1' & t' & css' & mp' & Rd' & Hp' & T' & Pc' & ->).
  destruct (file_ok _ _ _ _ _ _ _ _ R Rd Hp) as (c2 & n2 & ss2 & lines2 & Rd2 & Hp2 & En & _). assert (c2 = c') by congruence. subst c2.
  pose proof (parsed_same _ _ _ _ _ _ Hp' Hp2 ltac:(discriminate) ltac:(discriminate)) as E. injection E as <- <-.
  destruct (transform_strip _ _ _ _ _ (ss_nodes ss') (ss_imports ss') T (eq_sym En)) as (ns & t2 & T2 & Es).
  assert (css' = css) as ->; [|exists css, mp, mp'; auto].
  assert (X : print None (ss_nodes ss1') = print None ns).
  { destruct ss' as [nn ii]. cbn [ss_nodes ss_imports] in *. rewrite E2 in T'. pose proof (CompileOne.transform_agree (p_opts P) _ _ (mkSheet nn ii) _ _ _ _ T2 T') as Q. rewrite <- Q. reflexivity. }
  assert (print None ns = Some css) by (rewrite <- print_strip, Es, print_strip; exact Pc). congruence.
Qed.
End WithUnicode.
