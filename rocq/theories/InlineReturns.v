(** One entry file with a chain of imports, inlined: Compile returns, without a
    crash: C34, C45, C53. *)
From Verif Require Import Bytes Utf8 Source Lexer Ast BytesFacts Parser ParseMono ParseResults ParseRerun Printer Transformer TransSpec TransProofs
  TransMedia TransInline TransStable Resolver Compile CompileSpec CompileSteps CompileOne CompileEnd CompileMany InlineSpec InlineRefs InlineProofs.

Section WithFloats.
Context {FO : FloatOps}.
Variable o : topts.
Notation sameEnd := CompileMany.sameEnd.
Lemma one_end m m' n h r nd t : deref h r = Some nd -> ~ hit m nd -> ~ hit m' nd ->
  sameEnd (oneRef o (Some m) n h r t) (oneNode o (Some m') n nd t).
Proof.
  intros Er Hm Hm'. unfold oneRef. rewrite Er. destruct nd as [q|a]; cbn [oneNode].
  - unfold tbind. destruct (transformRule o n q t) as [[q'|] t1| |]; cbn; auto.
  - destruct (beq (ar_name a) (B "import")) eqn:E1.
    { destruct (plookup (atRuleId a) m) eqn:E2; [destruct Hm; exists a; eexists; apply beq_eq in E1; eauto|].
      destruct (plookup (atRuleId a) m') eqn:E3; [destruct Hm'; exists a; eexists; apply beq_eq in E1; eauto|]. cbn. auto. }
    destruct (beq (ar_name a) (B "custom-media")).
    { unfold tbind. destruct (addCustomMedia _ _); cbn; auto. }
    destruct (beq (ar_name a) (B "media")); [|cbn; auto].
    destruct (ar_preludes a) as [|[| |[lsp qs]| |] pres]; try (cbn; auto; fail). unfold tbind. destruct (transformMqs o qs t); cbn; auto.
Qed.
Lemma same_bind (m1 : TM (list nref * heap)) (m2 : TM (list node)) (r1 : list nref * heap -> TM (list nref * heap)) (r2 : TM (list node)) t :
  sameEnd (m1 t) (m2 t) -> (forall x t1, m1 t = TOk x t1 -> sameEnd (r1 x t1) (r2 t1)) ->
  sameEnd (tbind m1 (fun here => tbind (r1 here) (fun more => tret (fst here ++ fst more, snd more))) t)
          (tbind m2 (fun h => tbind r2 (fun more => tret (h ++ more))) t).
Proof.
  intros H K. unfold tbind. destruct (m1 t) as [x t1| |] eqn:E1, (m2 t) as [y t2| |]; cbn [CompileMany.sameEnd] in *; try tauto. subst t2.
  specialize (K x t1 eq_refl). destruct (r1 x t1) as [x' t3| |], (r2 t1) as [y' t4| |]; cbn in *; tauto.
Qed.
Lemma keep_end m m' n : forall rs h t ns, NoDup rs -> derefs h rs = Some ns -> Forall (fun nd => ~ hit m nd /\ ~ hit m' nd) ns ->
  sameEnd (transformRefs o (Some m) n rs h t) (transformNodes o (Some m') n ns t).
Proof.
  destruct n as [|n]; [cbn; auto|]. induction rs as [|r rs IH]; intros h t ns Hn Hd Hh.
  - inversion Hd; subst. cbn. auto.
  - cbn [derefs] in Hd. destruct (deref h r) as [nd|] eqn:Er; [|discriminate]. destruct (derefs h rs) as [ns1|] eqn:Es; [|discriminate].
    inversion Hd; subst. inversion Hn as [|? ? Hr Hn']; subst. inversion Hh as [|? ? [Hh1 Hh2] Hh']; subst.
    rewrite InlineRefs.refs_cons, nodes_cons. apply same_bind; [apply one_end; auto|]. intros [here h1] t1 E1. apply IH; auto.
    assert (F0 : from 0 nd) by (destruct nd; cbn; auto; lia).
    destruct (one_keep o m m' 0 _ _ _ _ _ _ _ _ Er Hh1 Hh2 F0 E1) as (_ & _ & _ & _ & S4 & _).
    cbn [snd]. rewrite <- Es. apply derefs_ext. intros r' Hi. apply S4. intros ->. auto.
Qed.
Lemma ones_end at_ im inds d n : forall rs h t ns,
  NoDup rs -> derefs h rs = Some ns -> NoDup (atIds ns) -> Forall (from d) ns ->
  fst at_ = d -> NoDup im -> derefs h im = Some inds -> Forall (from (S d)) inds -> (forall r, In r rs -> ~ In r im) ->
  sameEnd (transformRefs o (Some [(at_, im)]) n rs h t) (transformNodes o (Some [(at_, inds)]) n ns t).
Proof.
  destruct n as [|n]; [cbn; auto|].
  induction rs as [|r rs IH]; intros h t ns Hn Hd Hids Hf Hat Him Hdi Hfi Hdis.
  - inversion Hd; subst. cbn. auto.
  - cbn [derefs] in Hd. destruct (deref h r) as [nd|] eqn:Er; [|discriminate]. destruct (derefs h rs) as [ns1|] eqn:Es; [|discriminate].
    inversion Hd; subst. clear Hd. inversion Hn as [|? ? Hr Hn']; subst. inversion Hf as [|? ? Hf1 Hf']; subst.
    assert (Hit : (exists a, nd = NAt a /\ ar_name a = B "import" /\ atRuleId a = at_) \/ ~ hit [(at_, im)] nd /\ ~ hit [(at_, inds)] nd).
    { destruct nd as [q|a]; [right; split; intros (a & x & E & _); discriminate|].
      destruct (beq (ar_name a) (B "import")) eqn:E1.
      - destruct (ptrEq (atRuleId a) at_) eqn:E2; [left; exists a; repeat split; [apply beq_eq; auto|apply ptrEq_eq; auto]|].
        right. split; intros (a' & x & E & _ & Hx); inversion E; subst; cbn in Hx; rewrite E2 in Hx; discriminate.
      - right. split; intros (a' & x & E & Hx & _); inversion E; subst; rewrite Hx, beq_refl in E1; discriminate. }
    rewrite InlineRefs.refs_cons, nodes_cons.
    destruct Hit as [(a & -> & Ea & Eid)|[Hh1 Hh2]].
    + assert (NH : forall A (x : A), Forall (fun nd => ~ hit [(at_, x)] nd) ns1).
      { intros A x. rewrite Forall_forall. intros nd Hi (b & y & -> & _ & Hy). cbn in Hy. destruct (ptrEq (atRuleId b) at_) eqn:E; [|discriminate].
        apply ptrEq_eq in E. cbn in Hids. inversion Hids as [|? ? Hb _]. apply Hb. apply in_flat_map. exists (NAt b). split; auto. left. congruence. }
      assert (NI : forall A (x : A), Forall (fun nd => ~ hit [(at_, x)] nd) inds).
      { intros A x. rewrite Forall_forall. intros nd Hi (b & y & -> & _ & Hy). cbn in Hy. destruct (ptrEq (atRuleId b) at_) eqn:E; [|discriminate].
        apply ptrEq_eq in E. rewrite Forall_forall in Hfi. apply Hfi in Hi. cbn in Hi. unfold atRuleId in E. rewrite <- E in Hi. cbn in Hi. lia. }
      assert (NI2 : Forall (fun nd => ~ hit [(at_, im)] nd /\ ~ hit [(at_, inds)] nd) inds).
      { rewrite Forall_forall. intros nd Hi. split; [pose proof (NI _ im) as X|pose proof (NI _ inds) as X]; rewrite Forall_forall in X; auto. }
      assert (NH2 : Forall (fun nd => ~ hit [(at_, im)] nd /\ ~ hit [(at_, inds)] nd) ns1).
      { rewrite Forall_forall. intros nd Hi. split; [pose proof (NH _ im) as X|pose proof (NH _ inds) as X]; rewrite Forall_forall in X; auto. }
      assert (E1 : oneRef o (Some [(at_, im)]) n h r = (_ <~ (if (1 <? length (ar_preludes a))%nat
                then treport (mkReport true (ar_sp a) (B "@import transform does not yet support @supports or media queries"))
                else tret tt) ;; transformRefs o (Some [(at_, im)]) n im h)).
      { unfold oneRef. rewrite Er, Ea, beq_refl. cbn [plookup]. rewrite Eid, ptrEq_refl. reflexivity. }
      assert (E2 : oneNode o (Some [(at_, inds)]) n (NAt a) = (_ <~ (if (1 <? length (ar_preludes a))%nat
                then treport (mkReport true (ar_sp a) (B "@import transform does not yet support @supports or media queries"))
                else tret tt) ;; transformNodes o (Some [(at_, inds)]) n inds)).
      { cbn [oneNode]. rewrite Ea, beq_refl. cbn [plookup]. rewrite Eid, ptrEq_refl. reflexivity. }
      apply same_bind.
      * rewrite E1, E2. unfold tbind. destruct (1 <? length (ar_preludes a))%nat; cbn [treport tret]; apply keep_end; auto.
      * intros [here h1] t1 H1. cbn [snd]. rewrite E1 in H1. apply tbind_ok in H1 as ([] & t3 & _ & H3). apply keep_end; auto.
        destruct (refs_keep o _ [(at_, inds)] (fst at_) _ _ _ _ _ _ _ _ H3 Him Hdi NI2) as (here' & S1 & S2).
        { eapply Forall_impl; [|exact Hfi]. intros [|b]; cbn; auto. lia. }
        rewrite <- Es. apply derefs_ext. intros r' Hi. apply S2. apply Hdis. right. auto.
    + apply same_bind; [apply one_end; auto|]. intros [here h1] t1 H1. cbn [snd].
      destruct (one_keep o _ [(at_, inds)] (fst at_) _ _ _ _ _ _ _ _ Er Hh1 Hh2 Hf1 H1) as (here' & S1 & S2 & S3 & S4 & S5 & S6).
      apply IH; auto.
      * rewrite <- Es. apply derefs_ext. intros r' Hi. apply S4. intros ->. auto.
      * destruct nd; cbn in Hids; auto. inversion Hids; auto.
      * rewrite <- Hdi. apply derefs_ext. intros r' Hi. apply S4. intros ->. apply (Hdis r); auto. left. auto.
      * intros x Hi. apply Hdis. right. auto.
Qed.
End WithFloats.

Section WithProject.
Context {U : UnicodeDigits} {FO : FloatOps}.
Variable P : project.
Let o := p_opts P.
Hypothesis inline : o_imports (p_opts P) = ImportInline.

(** ** What a result says about the files *)
Definition comes (d : nat) (f : bytes) : Prop := exists r, inlined P d f r.
Lemma comes_parse d f c n : comes d f -> p_read P f = Some c -> parse d n c <> ParseCrash /\ exists m, parse d m c <> ParseTimeout.
Proof.
  intros (r & H) R. inversion H; subst.
  - congruence.
  - assert (content = c) by congruence. subst. split; [|eexists; rewrite H1; discriminate].
    intros E. pose proof (parsed_same _ _ _ _ _ _ E H1 ltac:(discriminate) ltac:(discriminate)). discriminate.
  - assert (content = c) by congruence. subst. split; [|eexists; rewrite H1; discriminate].
    intros E. pose proof (parsed_same _ _ _ _ _ _ E H1 ltac:(discriminate) ltac:(discriminate)). discriminate.
Qed.
Lemma comes_sheet d f c n ss lines : comes d f -> p_read P f = Some c -> parse d n c = ParseOk ss lines ->
  exists m k ss' t, replaces P d f (ss_imports ss) m /\ transform (p_opts P) (Some m) k ss = TOk ss' t.
Proof.
  intros (r & H) R Hp. inversion H; subst.
  - congruence.
  - assert (content = c) by congruence. subst. pose proof (parsed_same _ _ _ _ _ _ Hp H1 ltac:(discriminate) ltac:(discriminate)). discriminate.
  - assert (content = c) by congruence. subst. pose proof (parsed_same _ _ _ _ _ _ Hp H1 ltac:(discriminate) ltac:(discriminate)) as E. inversion E; subst.
    do 4 eexists. split; eauto.
Qed.
Lemma comes_edge d f g : comes d f -> edge P f g -> comes (S d) g.
Proof.
  intros C (spec & rel & (c & run & n & ss & lines & R & Hp & Hi) & E1 & E2).
  assert (Ex : exists ss', parse d n c = ParseOk ss' lines /\ map fst (ss_imports ss') = map fst (ss_imports ss)).
  { rewrite parse_zero in *. destruct (parse 0 n c) as [s0 l0| | |]; cbn in *; try discriminate. inversion Hp; subst. eexists. split; [reflexivity|].
    cbn. rewrite !map_map. apply map_ext. intros [? ?]. reflexivity. }
  destruct Ex as (ss' & Hp' & Em). destruct (comes_sheet _ _ _ _ _ _ C R Hp') as (m & _ & _ & _ & M & _).
  assert (Hi' : In spec (map fst (ss_imports ss'))) by (rewrite Em; exact Hi).
  inversion M; subst; match goal with X : _ = ss_imports ss' |- _ => rewrite <- X in Hi'; cbn in Hi' end;
    try contradiction; destruct Hi' as [<-|[]]; try congruence.
  - assert (rel0 = rel) by congruence. subst. assert (f' = g) by congruence. subst. eexists. eauto.
  - assert (rel0 = rel) by congruence. subst. assert (f' = g) by congruence. subst. eexists. eauto.
Qed.
Lemma comes_leads d f g : leads P f g -> comes d f -> exists d', comes d' g.
Proof. induction 1 as [g H|g h _ IH H]; intros C; [|destruct (IH C) as (d' & C')]; eexists; eapply comes_edge; eauto. Qed.
Lemma comes_grounded : forall d f, comes d f -> grounded P f.
Proof.
  assert (H : (forall d f r, inlined P d f r -> grounded P f) /\
    (forall d f is m, replaces P d f is m -> forall spec rel g, In spec (map fst is) -> p_resolve P spec (fpDir f) = Some rel -> p_abs P rel = Some g -> grounded P g)).
  { apply inlined_both.
    - intros d f R. constructor. intros g (spec & rel & (c & run & n & ss & lines & R' & _) & _). congruence.
    - intros d f c n sp msg lines R Hp. constructor. intros g (spec & rel & (c' & run & n' & ss & lines' & R' & Hp' & _) & _).
      assert (c' = c) by congruence. subst. rewrite parse_zero in Hp, Hp'. pose proof (CompileEnd.parse_agree 0 n 0 n' c) as A.
      destruct (parse 0 n c) eqn:E1; cbn in Hp; try discriminate. destruct (parse 0 n' c) eqn:E2; cbn in Hp'; try discriminate.
      specialize (A ltac:(discriminate) ltac:(discriminate)). cbn in A. discriminate.
    - intros d f c n ss lines m k ss' t R Hp M IH T. constructor. intros g (spec & rel & (c' & run & n' & ss2 & lines' & R' & Hp' & Hi) & E1 & E2).
      assert (c' = c) by congruence. subst. apply (IH spec rel g); auto.
      rewrite parse_zero in Hp, Hp'. pose proof (CompileEnd.parse_agree 0 n 0 n' c) as A.
      destruct (parse 0 n c) as [s0 l0| | |] eqn:P1; cbn in Hp; try discriminate. destruct (parse 0 n' c) as [s1 l1| | |] eqn:P2; cbn in Hp'; try discriminate.
      specialize (A ltac:(discriminate) ltac:(discriminate)). cbn in A. inversion A; subst. inversion Hp; subst. inversion Hp'; subst. cbn in *.
      rewrite !map_map in *. erewrite map_ext; [exact Hi|]. intros [? ?]. reflexivity.
    - intros d f spec rel g [].
    - intros d f spec at_ E spec' rel g [<-|[]] E1 E2. cbn in *. congruence.
    - intros d f spec at_ rel E E' spec' rel' g [<-|[]] E1 E2. cbn in *. assert (rel' = rel) by congruence. subst. congruence.
    - intros d f spec at_ rel f' E E' I IH spec' rel' g [<-|[]] E1 E2. cbn in *. assert (rel' = rel) by congruence. subst. assert (g = f') by congruence. subst. exact IH.
    - intros d f spec at_ rel f' nds E E' I IH spec' rel' g [<-|[]] E1 E2. cbn in *. assert (rel' = rel) by congruence. subst. assert (g = f') by congruence. subst. exact IH. }
  intros d f (r & Hr). exact (proj1 H _ _ _ Hr).
Qed.
Lemma grounded_leads f : grounded P f -> ~ leads P f f.
Proof.
  intros Gr L. assert (X : forall g, leads P f g -> Acc (fun g f => edge P f g) f -> Acc (fun g f => leads P f g) f).
  { intros _ _ A. clear -A. induction A as [f A IH]. constructor. intros g L.
    assert (Y : forall h, leads P f h -> Acc (fun g f => leads P f g) h).
    { induction 1 as [h E|h h' _ IH' E]; [apply IH; exact E|]. apply IH'. apply leadsEdge. exact E. }
    apply Y. exact L. }
  specialize (X f L Gr). clear Gr. induction X as [f _ IH]. exact (IH f L L).
Qed.

(** ** The transform at the end of the loop *)
Lemma transform_end L it repl g : good P (it :: L) -> base (it :: L) g -> comes (length L) (it_path it) ->
  collected P (length L) (it_path it) (ss_imports (it_ss it)) repl g ->
  (forall n, transformStep P n g (length L) (length L) (refsOf (length L) it) repl <> Some Crash) /\
  exists n r, transformStep P n g (length L) (length L) (refsOf (length L) it) repl = Some r.
Proof.
  intros (R & (n0 & Hp) & _ & _ & _) (B1 & B2 & B3 & B4 & B5) Cm C.
  set (d := length L) in *.
  assert (N : NoDup (refsOf d it)) by apply alloc_nodup.
  assert (F : Forall (from d) (ss_nodes (it_ss it))) by (eapply parse_from; eauto).
  assert (Hd : forall r, In r (refsOf d it) -> fst r = d).
  { intros r Hi. unfold refsOf in Hi. rewrite alloc_refs in Hi. apply in_map_iff in Hi as (x & <- & _). auto. }
  destruct (comes_sheet _ _ _ _ _ _ Cm R Hp) as (m & k & ss' & t & M & T).
  assert (E : forall n, CompileMany.sameEnd (transformRefs (p_opts P) (Some repl) n (refsOf d it) (g_heap g) (initState (p_opts P) (Some m)))
    (transformNodes (p_opts P) (Some m) n (ss_nodes (it_ss it)) (initState (p_opts P) (Some m)))).
  { intros n. destruct C as [[-> Hm]|(spec & at_ & rs & nds & Ei & -> & Hm & Hn1 & Hn2 & Hn3 & Hn4)].
    - pose proof (proj2 (inlined_unique_both P) _ _ _ _ Hm _ M) as <-. apply keep_end; auto. rewrite Forall_forall. intros nd _. split; intros (a & x & _ & _ & X); discriminate.
    - pose proof (proj2 (inlined_unique_both P) _ _ _ _ Hm _ M) as <-. apply (ones_end _ at_ rs nds d); auto.
      { eapply C14_lemma; eauto. }
      { eapply parse_import_run; eauto. rewrite Ei. left. reflexivity. }
      { intros r Hi Hi'. apply Hd in Hi. rewrite Forall_forall in Hn3. apply Hn3 in Hi'. lia. } }
  assert (S1 : forall n, match transformStep P n g d d (refsOf d it) repl with
    | None => transform (p_opts P) (Some m) n (it_ss it) = TTimeout
    | Some Crash => transform (p_opts P) (Some m) n (it_ss it) = TCrash
    | _ => True end).
  { intros n. specialize (E n). unfold transformStep. rewrite inline. unfold transform. unfold initState in *.
    destruct (transformRefs _ _ _ _ _ _) as [[rs' h] t1| |], (transformNodes _ _ _ _ _); cbn in *; tauto. }
  split.
  - intros n X. specialize (S1 n). rewrite X in S1.
    assert (Y : transform (p_opts P) (Some m) k (it_ss it) <> TTimeout) by congruence. destruct (transform_one (p_opts P) (Some m) k n (it_ss it) Y); congruence.
  - exists k. specialize (S1 k). destruct (transformStep P k g d d (refsOf d it) repl) as [r|]; [eauto|congruence].
Qed.
(** The frame of a call. *)
Lemma frame_end L f g fr : wk P L f g (InFrame fr) -> (forall a, p_abs P f = Some a -> comes (length L) a) ->
  (forall n, frameStep P n g fr <> Some Crash) /\ exists n r, frameStep P n g fr = Some r.
Proof.
  intros W C. inversion W; subst; cbn [frameStep]; try (split; [discriminate|exists 0%nat; eexists; reflexivity]).
  - split; [intros n|exists 0%nat]; (destruct (p_abs P f); [destruct (lookup _ _)|]; discriminate || (eexists; reflexivity)).
  - split; [intros n|exists 0%nat]; (destruct (p_read P a); discriminate || (eexists; reflexivity)).
  - cbn [g2 g_byIndex ilookup]. rewrite Nat.eqb_refl. split; [discriminate|exists 0%nat; eexists; reflexivity].
  - assert (E : nth_error (g_srcs (g2 L a c (S (length L)) [0%nat])) (length L) = Some (mkSource a c [])).
    { cbn. rewrite nth_error_app2; rewrite G_srcs; auto. rewrite Nat.sub_diag. reflexivity. }
    rewrite E. cbn [src_content src_path src_lines]. change (g_runs (g2 L a c (S (length L)) [0%nat])) with (length L).
    split.
    + intros n. destruct (comes_parse (length L) a c n) as (X & _); auto. destruct (parse (length L) n c); discriminate || congruence.
    + destruct (comes_parse (length L) a c 0) as (_ & n & X); auto. exists n. destruct (parse (length L) n c); try (eexists; reflexivity). congruence.
Qed.
Lemma kid_comes L it spec at_ rel : good P (it :: L) -> ss_imports (it_ss it) = [(spec, at_)] -> p_resolve P spec (fpDir (it_path it)) = Some rel ->
  comes (length L) (it_path it) -> forall a, p_abs P rel = Some a -> comes (length (it :: L)) a.
Proof.
  intros (R & (n & Hp) & _) Ei Er C a Ha. cbn [length]. eapply comes_edge; [exact C|]. exists spec, rel. split; [|auto].
  exists (it_content it), (length L), n, (it_ss it), (it_lines it). split; auto. split; auto. rewrite Ei. left. reflexivity.
Qed.
Definition stuck (t : gor) : bool := match t with Fresh | Back _ | Done => true | _ => false end.
Lemma frame_over L f g fr : wk P L f g (InFrame fr) -> (forall a, p_abs P f = Some a -> comes (length L) a) ->
  (forall n path, stepG P n path g (InFrame fr) <> Some Crash) /\ (stuck (InFrame fr) = true \/ exists n path r, stepG P n path g (InFrame fr) = Some r).
Proof.
  intros W C. destruct (frame_end _ _ _ _ W C) as (X & n & r & Y).
  split; [intros q path; destruct path; cbn [stepG]; [apply X|discriminate]|right; exists n, [], r; exact Y].
Qed.
Lemma nth_one {A} (x : A) j y : nth_error [x] j = Some y -> j = 0%nat /\ y = x.
Proof. destruct j as [|[|j]]; cbn; intros [=]; auto. Qed.
Lemma wk_end L f g t : wk P L f g t -> (forall a, p_abs P f = Some a -> comes (length L) a) ->
  (forall n path, stepG P n path g t <> Some Crash) /\ (stuck t = true \/ exists n path r, stepG P n path g t = Some r).
Proof.
  intros W. induction W as [L f Gd Tw|L f a Gd Ha Tw|L f a c Gd Ha Tw Hr|L f a c Gd Ha Tw Hr|L f a c Gd Ha Tw Hr|L f a c Gd Ha Tw Hr|L f a c Gd Ha Tw Hr
    |L f a c Gd Ha Tw Hr|L f a c Gd Ha Tw Hr|L f a c Gd Ha Tw Hr
    |L f it Gd Ha|L f it spec at_ Gd Ha Ei|L f it spec at_ rel g kid Gd Ha Ei Er W IH|L f it spec at_ g repl Gd Ha Ei Bs Co|L f g rs Bs F|L f g rs Bs F A|L f g Bs F];
    intros C; try (apply (frame_over L f); [econstructor; eauto|exact C]; fail).
  - (* the loop *) pose proof (C _ Ha) as Ci. cbn [stepG]. destruct (0 <? length (ss_imports (it_ss it)))%nat eqn:E.
    + split; [intros n [|j path]; cbn [stepG]; [rewrite E; discriminate|destruct j; discriminate]|right; exists 0%nat, []; cbn [stepG]; rewrite E; eexists; reflexivity].
    + assert (X : collected P (length L) (it_path it) (ss_imports (it_ss it)) [] (G (it :: L))).
      { left. split; auto. destruct (ss_imports (it_ss it)); [constructor|discriminate]. }
      destruct (transform_end L it [] _ Gd (base_G _) Ci X) as (X1 & n & r & X2).
      split; [intros q [|j path]; cbn [stepG]; [rewrite E; apply X1|destruct j; discriminate]|right; exists n, [], r; cbn [stepG]; rewrite E; exact X2].
  - (* before Resolve *) rewrite Ei in *. assert (Es : nth_error (g_srcs (G (it :: L))) (length L) = Some (srcOf it)) by apply (base_G (it :: L)).
    split.
    + intros n [|j path]; cbn [stepG length Nat.ltb Nat.leb forallb isDone andb]; [discriminate|]. destruct (nth_error [Fresh] j) as [y|] eqn:Ej; [|discriminate].
      apply nth_one in Ej as [-> ->]. cbn [current nth_error]. rewrite Es. destruct (p_resolve P spec _); discriminate.
    + right. exists 0%nat, [0%nat]. cbn [stepG nth_error current]. rewrite Es. destruct (p_resolve P spec _); eexists; reflexivity.
  - (* the import *) rewrite Ei in *. destruct (IH (kid_comes _ _ _ _ _ Gd Ei Er (C _ Ha))) as (X1 & X2). clear IH.
    split.
    + intros n [|j path]; cbn [stepG length Nat.ltb Nat.leb].
      * destruct (forallb isDone [kid]) eqn:E; [|discriminate]. destruct kid; try discriminate E. inversion W.
      * destruct (nth_error [kid] j) as [y|] eqn:Ej; [|discriminate]. apply nth_one in Ej as [-> ->]. cbn [current nth_error]. specialize (X1 n path).
        assert (K : match stepG P n path g kid with
          | Some (Go g' kid') => Some (Go g' (InLoop (length L) (length L) (refsOf (length L) it) [(spec, at_)] 1 [] (upd 0 kid' [kid])))
          | other => other
          end <> Some Crash) by (destruct (stepG P n path g kid) as [[|]|]; congruence).
        destruct kid; try exact K; [inversion W|discriminate].
    + right. destruct X2 as [X2|(n & path & r & X2)].
      * destruct kid; try discriminate X2; [inversion W| |inversion W]. exists 0%nat, [0%nat]. cbn [stepG nth_error current]. eexists; reflexivity.
      * exists n, (0%nat :: path). cbn [stepG nth_error current]. destruct kid; try (rewrite X2; destruct r; eexists; reflexivity); [inversion W|eexists; reflexivity].
  - (* the end of the loop *) destruct (transform_end L it repl _ Gd Bs (C _ Ha) Co) as (X1 & n & r & X2). rewrite Ei.
    split; [intros q [|j path]; cbn [stepG length Nat.ltb Nat.leb forallb isDone andb]; [apply X1|]|right; exists n, [], r; exact X2].
    destruct (nth_error [Done] j) as [y|] eqn:Ej; [|discriminate]. apply nth_one in Ej as [-> ->]. cbn [current nth_error]. destruct path; discriminate.
  - split; [intros n [|]; discriminate|left; reflexivity].
  - split; [intros n [|]; discriminate|left; reflexivity].
Qed.
End WithProject.

(** ** The whole execution *)
Section Run.
Context {U : UnicodeDigits} {FO : FloatOps}.
Variable P : project.
Variable e : bytes.
Hypothesis inline : o_imports (p_opts P) = ImportInline.
Hypothesis oneEntry : p_entries P = [e].
Hypothesis result : forall p, p_abs P e = Some p -> exists r, inlined P 0 p r.
Lemma involved_comes f : involved P f -> exists d, comes P d f.
Proof.
  intros (e' & a & Hi & Ha & H). rewrite oneEntry in Hi. destruct Hi as [<-|[]]. pose proof (result _ Ha) as C.
  destruct H as [->|H]; [exists 0%nat; exact C|eapply comes_leads; eauto].
Qed.
Lemma result_chained : oneImportEach P.
Proof.
  intros f V. destruct (involved_comes f V) as (d & C). split; [apply grounded_leads; eapply comes_grounded; eauto|].
  intros c run n ss lines R Hp.
  assert (Ex : exists ss', parse d n c = ParseOk ss' lines /\ length (ss_imports ss') = length (ss_imports ss)).
  { rewrite parse_zero in *. destruct (parse 0 n c) as [s0 l0| | |]; cbn in *; try discriminate. inversion Hp; subst. eexists. split; [reflexivity|].
    cbn. rewrite !map_length. reflexivity. }
  destruct Ex as (ss' & Hp' & <-). destruct (comes_sheet _ _ _ _ _ _ _ C R Hp') as (m & _ & _ & _ & M & _). inversion M; cbn; lia.
Qed.
Lemma result_bound : exists N, forall k s, runs P k start s -> (k <= N)%nat.
Proof.
  apply (C53_bound P inline result_chained e oneEntry).
  - intros f V. destruct (involved_comes f V) as (d & C). intros c R. destruct (comes_parse P d f c 0 C R) as (_ & m & X). exists m. rewrite parse_zero in X.
    intros Y. rewrite Y in X. apply X. reflexivity.
  - intros f V. destruct (involved_comes f V) as (d & C). eapply comes_grounded; eauto.
Qed.
Lemma root_end g t : wk P [] e g t -> (forall n path, stepG P n path g t <> Some Crash) /\ (stuck t = true \/ exists n path r, stepG P n path g t = Some r).
Proof. intros W. apply (wk_end P inline [] e g t W). exact result. Qed.
Lemma result_no_crash g : ~ reach P (g, Crashed).
Proof.
  intros R. remember (g, Crashed) as s' eqn:Es. destruct R as [|s s' R (n & path & H)]; [discriminate|]. subst s'.
  pose proof (winv_reach P inline result_chained e oneEntry _ R) as W.
  inversion W; subst; cbn [stepM] in H; rewrite ?oneEntry in H; cbn [length Nat.ltb Nat.leb] in H.
  - destruct path as [|[|j] path]; discriminate.
  - destruct path as [|j path]; [discriminate|]. destruct (nth_error [Fresh] j) as [y|] eqn:Ej; [|discriminate]. apply nth_one in Ej as [-> ->]. discriminate.
  - destruct path as [|j path]; [destruct (forallb _ _); discriminate|]. destruct (nth_error [t] j) as [y|] eqn:Ej; [|discriminate]. apply nth_one in Ej as [-> ->].
    match goal with K : wk P [] e _ t |- _ => destruct (root_end _ _ K) as (X & _) end. specialize (X n path). cbn [current nth_error] in H.
    destruct t; try discriminate; destruct (stepG P n path _ _) as [[|]|]; congruence.
  - destruct path as [|j path]; [discriminate|]. destruct (nth_error [Done] j) as [y|] eqn:Ej; [|discriminate]. apply nth_one in Ej as [-> ->]. destruct path; discriminate.
  - destruct path as [|j path]; [discriminate|]. destruct (nth_error [Done] j) as [y|] eqn:Ej; [|discriminate]. apply nth_one in Ej as [-> ->]. destruct path; discriminate.
  - destruct path as [|j [|]]; try discriminate. destruct (nth_error _ j); [|discriminate]. destruct (printOne _ _ _). discriminate.
  - match goal with X : _ \/ _ |- _ => destruct X; subst end; [destruct path; discriminate|].
    destruct path as [|j [|]]; try discriminate. destruct (nth_error _ j); [|discriminate]. destruct (printOne _ _ _). discriminate.
  - destruct path; discriminate.
  - destruct path; discriminate.
  - destruct path; discriminate.
Qed.
Lemma result_progress s : reach P s -> (exists g fs, s = (g, Finished fs)) \/ exists s', step P s s'.
Proof.
  intros R. pose proof (winv_reach P inline result_chained e oneEntry _ R) as W. inversion W; subst.
  - right. eexists. exists 0%nat, []. cbn [stepM]. rewrite oneEntry. reflexivity.
  - right. eexists. exists 0%nat, [0%nat]. cbn [stepM nth_error]. rewrite oneEntry. reflexivity.
  - right. destruct (root_end g t) as (X & [Y|(n & path & r & Y)]); auto.
    + destruct t; try discriminate Y; [inversion H| |inversion H]. eexists. exists 0%nat, [0%nat]. cbn [stepM nth_error].  reflexivity.
    + destruct r as [g' t'|]; [|destruct (X n path Y)]. exists (match t with Fresh => (g, Running 1 [InFrame (Called e true)]) | Back _ => (g, Running 1 [Done]) | _ => (g', Running 1 [t']) end).
      exists n, (0%nat :: path). cbn [stepM nth_error]. rewrite oneEntry. cbn [current nth_error].
      destruct t; try (rewrite Y); reflexivity.
  - right. eexists. exists 0%nat, []. cbn [stepM]. rewrite oneEntry. reflexivity.
  - right. eexists. exists 0%nat, []. cbn [stepM]. rewrite oneEntry. reflexivity.
  - right. destruct (printOne g 0 []) as [g' out'] eqn:E. eexists. exists 0%nat, [0%nat]. cbn [stepM nth_error]. rewrite E. reflexivity.
  - right. match goal with X : _ \/ _ |- _ => destruct X; subst end; [eexists; exists 0%nat, []; reflexivity|].
    destruct (printOne g 0 []) as [g' out'] eqn:E. eexists. exists 0%nat, [0%nat]. cbn [stepM nth_error]. rewrite E. reflexivity.
  - right. eexists. exists 0%nat, []. reflexivity.
  - left. eauto.
  - destruct (result_no_crash g). exact R.
Qed.
Lemma result_returns : exists N, forall k s, runs P k start s -> (k <= N)%nat /\ ((exists g fs, s = (g, Finished fs)) \/ exists s', step P s s').
Proof.
  destruct result_bound as (N & H). exists N. intros k s R. split; [eauto|]. apply result_progress. eapply runs_reach; eauto.
Qed.
End Run.

(** ** A file that comes to nothing *)
Section Without.
Context {U : UnicodeDigits} {FO : FloatOps}.
Variable P : project.
Variables e p : bytes.
Hypothesis inline : o_imports (p_opts P) = ImportInline.
Hypothesis chained : oneImportEach P.
Hypothesis oneEntry : p_entries P = [e].
Hypothesis path : p_abs P e = Some p.
Lemma fin_comes g ret : fin P [] e ret g -> comes P 0 p.
Proof.
  destruct ret as [rs|].
  - intros (a & c & n & ss & ls & nds & F1 & F2 & F3 & F4 & _). assert (a = p) by congruence. subst. eexists. exact F4.
  - intros (H & _). eexists. exact (H _ path).
Qed.
Lemma ended_comes s : reach P s -> match snd s with Printing _ _ | Finished _ => comes P 0 p | _ => True end.
Proof.
  intros R. induction R as [|s s' R IH St]; [exact Logic.I|]. pose proof (winv_reach P inline chained e oneEntry _ R) as W.
  apply step_mstep in St. inversion St; subst; cbn [snd] in *; auto.
  inversion W; subst; cbn [length] in *; rewrite ?oneEntry in *; cbn [length] in *; try lia; try discriminate.
  - match goal with X : forallb isDone [t] = true |- _ => destruct t; try discriminate X end. match goal with X : wk _ _ _ _ Done |- _ => inversion X end.
  - eapply fin_comes; eauto.
  - eapply fin_comes; eauto.
Qed.
Lemma no_result : ~ (exists r, inlined P 0 p r) -> forall g fs, ~ reach P (g, Finished fs).
Proof. intros N g fs R. apply N. exact (ended_comes _ R). Qed.
End Without.
