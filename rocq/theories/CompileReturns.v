(** Any number of entries, imports not inlined, calls of addSource apart: no
    crash, and the next transition always exists: C34, C45. *)
From Verif Require Import Bytes Utf8 Source Lexer Ast BytesFacts Parser ParseMono ParserSpec ParseRerun Printer Transformer TransSpec TransProofs TransRerun TransStable
  Resolver Compile CompileSpec CompileSteps CompileOne CompileCalm CompileRefs CompileEnd CompileMany.

Section WithProject.
Context {U : UnicodeDigits} {FO : FloatOps}.
Variable P : project.
Hypothesis notInline : o_imports (p_opts P) <> ImportInline.
Hypothesis fine : forall f, involved P f -> processed P f.
Let o := p_opts P.

Lemma parse_fine f c run n : involved P f -> p_read P f = Some c -> parse run n c <> ParseCrash /\ exists m, parse run m c <> ParseTimeout.
Proof.
  intros I R. destruct (fine f I c R) as (m & H). split.
  - intros E. rewrite parse_zero in E. destruct (parse 0 n c) eqn:E1; try discriminate.
    assert (X : parse 0 n c = parse 0 m c). { apply ParseMono.parse_agree; [congruence|]. destruct (parse 0 m c); congruence || tauto. }
    rewrite <- X, E1 in H. auto.
  - exists m. rewrite parse_zero. destruct (parse 0 m c); cbn; congruence || tauto.
Qed.
(** The transform of a file's nodes. *)
Lemma refs_fine g s rs f n : involved P f -> srcIs P g s f -> working P g s rs ->
  transformRefs o None n rs (g_heap g) (initState o None) <> TCrash /\
  exists m, transformRefs o None m rs (g_heap g) (initState o None) <> TTimeout.
Proof.
  intros I (src & S1 & S2 & S3 & _) W. pose proof (working_nodup P g s rs W) as Nd. destruct W as (n1 & ss & L & run & (src' & k & P1 & P2 & P3 & P4) & _ & D).
  rewrite S1 in P1. inversion P1; subst src'. destruct (fine f I _ S3) as (m0 & H).
  assert (X : parse 0 m0 (src_content src) = parse 0 n1 (src_content src)).
  { apply ParseMono.parse_agree; [|congruence]. destruct (parse 0 m0 (src_content src)); congruence || tauto. }
  rewrite X, P3 in H. destruct H as (m & ss' & t & H).
  assert (Tr : forall q, match transformRefs o None q rs (g_heap g) (initState o None) with TCrash => transform o None q ss = TCrash | TTimeout => transform o None q ss = TTimeout | _ => True end).
  { intros q. pose proof (refs_end o q rs (g_heap g) (initState o None) _ Nd D) as E. rewrite nodes_rerun in E. unfold transform.
    destruct (transformRefs o None q rs (g_heap g) (initState o None)); auto; destruct (transformNodes o None q (ss_nodes ss) (initState o None)); cbn in *; tauto. }
  split.
  - intros E. specialize (Tr n). rewrite E in Tr. fold o in H. assert (X1 : transform o None m ss <> TTimeout) by congruence. destruct (transform_one o None m n ss X1); congruence.
  - exists m. intros E. specialize (Tr m). rewrite E in Tr. fold o in H. congruence.
Qed.

(** * No crash *)
Lemma frame_fine n g f A : book P g A -> facts P g (InFrame f) -> gorOk P g (InFrame f) -> frameStep P n g f <> Some Crash.
Proof.
  intros Bk F Gr H. inversion F as [|? Ff| | |]; subst. inversion Gr as [|? Gf| | | |]; subst.
  destruct f as [file out|file abs out|abs content out|i abs content out|i out|i tmp out|i out|i|i|i s|i rs]; cbn [frameStep frameFacts frameOk] in *; try discriminate.
  - destruct (p_abs P file); [destruct (lookup _ _)|]; discriminate.
  - destruct (p_read P abs); discriminate.
  - destruct (ilookup i (g_asts g)); discriminate.
  - destruct Ff as (s & Hs). rewrite Hs in H. discriminate.
  - destruct Gf as (f & src & S1 & S2 & S3 & S4). rewrite S1 in H. destruct (parse_fine f (src_content src) (g_runs g) n S4 S3) as (N & _).
    destruct (parse (g_runs g) n (src_content src)); discriminate || congruence.
Qed.
Lemma stepG_fine n path : forall g t A, book P g A -> facts P g t -> gorOk P g t -> many P g t -> stepG P n path g t <> Some Crash.
Proof.
  induction path as [|j path IH]; intros g t A Bk F Gr M H; cbn [stepG] in H.
  - destruct t as [|f|i s rs imps k repl kids| |]; try discriminate; [eapply frame_fine; eauto|].
    destruct (k <? length imps)%nat; [discriminate|]. destruct (forallb isDone kids); [|discriminate].
    rewrite (transform_none P notInline) in H. inversion M; subst. inversion Gr as [| |? ? f ? ? ? ? ? G1 G2 G3 G4 G5 G6 G7| | |]; subst.
    assert (I : involved P f) by (destruct G1 as (src & _ & _ & _ & I); auto). destruct (refs_fine g s rs f n I G1) as (N & _); auto.
    unfold o in N. destruct (transformRefs (p_opts P) None n rs (g_heap g) (initState (p_opts P) None)) as [[rs' h] t1| |]; discriminate || congruence.
  - destruct t as [| |i s rs imps k repl kids| |]; try discriminate. destruct (nth_error kids j) as [kid|] eqn:Ek; [|discriminate].
    assert (K : match stepG P n path g kid with
        | Some (Go g' kid') => Some (Go g' (InLoop i s rs imps k repl (upd j kid' kids)))
        | other => other
        end <> Some Crash).
    { intros E. destruct (stepG P n path g kid) as [[g1 kid'|]|] eqn:E1; try discriminate. revert E1. apply nth_error_In in Ek.
      inversion M as [| |? ? ? ? ? ? ? _ _ M3| |]; subst. inversion Gr as [| |? ? f ? ? ? ? ? _ _ _ _ _ _ G7| | |]; subst. inversion F as [| |? ? ? ? ? ? ? _ _ _ F4| |]; subst.
      rewrite Forall_forall in M3, G7, F4. eapply IH; eauto. }
    destruct kid; try exact (K H); (destruct (current k imps) as [[spec at_]|] eqn:Ec; [|try exact (K H)]).
    + destruct (nth_error (g_srcs g) s) as [src|] eqn:Es; [|discriminate]. destruct (p_resolve P spec _) as [rel|] eqn:Er; discriminate.
    + discriminate.
Qed.
Lemma C45_lemma g : ~ reachApart P (g, Crashed).
Proof.
  intros R. remember (g, Crashed) as s' eqn:Es. destruct R as [|s s' R (n & path & H & _)]; [discriminate|]. subst s'.
  pose proof (many_reach P notInline _ R) as M. pose proof (calm_reach P _ R) as Ca. pose proof (reach_ok P _ (apart_reach P _ R)) as Ok.
  destruct s as [g1 m]. destruct m as [k kids|todo out|out|]; cbn [stepM] in H; try (destruct path; discriminate).
  - destruct path as [|j path]; [destruct (k <? _)%nat; [discriminate|]; destruct (forallb _ _); discriminate|].
    destruct (nth_error kids j) as [kid|] eqn:Ek; [|discriminate].
    assert (K : match stepG P n path g1 kid with
        | Some (Go g' kid') => Some (g', Running k (upd j kid' kids))
        | Some Crash => Some (g1, Crashed)
        | None => None
        end <> Some (g, Crashed)).
    { intros E. destruct (stepG P n path g1 kid) as [[g2 kid'|]|] eqn:E1; try discriminate. revert E1. apply nth_error_In in Ek.
      destruct Ca as [(Bk & Fs & _)|]; [|discriminate]. destruct Ok as (_ & _ & _ & Gk). destruct M as (_ & M & _). cbn [fst snd] in *.
      rewrite Forall_forall in Fs, Gk, M. eapply stepG_fine; eauto. }
    destruct kid; try exact (K H).
    + destruct (current k (p_entries P)); [discriminate|exact (K H)].
    + discriminate.
  - destruct todo; [destruct path; discriminate|]. destruct path as [|j [|]]; try discriminate. destruct (nth_error _ j); [|discriminate]. destruct (printOne _ _ _). discriminate.
Qed.

(** * Progress *)
Lemma add_step g t : adders t <> [] -> exists path f g' t', gorAt path t = Some (InFrame f) /\ inAddSource f = true /\ stepG P 0 path g t = Some (Go g' t').
Proof.
  revert t. fix IH 1. intros t. destruct t as [|f|i s rs imps k repl kids| |]; cbn [adders]; try congruence.
  - destruct (inAddSource f) eqn:E; [|congruence]. intros _. exists [], f. destruct f; try discriminate; cbn [stepG frameStep gorAt]; try (do 2 eexists; repeat split; auto; fail).
    destruct (p_read P abs); do 2 eexists; repeat split; auto.
  - intros N. assert (X : exists j kid, nth_error kids j = Some kid /\ adders kid <> [] /\
      (exists path f g' t', gorAt path kid = Some (InFrame f) /\ inAddSource f = true /\ stepG P 0 path g kid = Some (Go g' t'))).
    { revert N. induction kids as [|kid kids IHk]; cbn; [congruence|]. intros N. pose proof (IH kid) as Hk. destruct (adders kid) eqn:E.
      - destruct (IHk N) as (j & kid' & X). exists (S j), kid'. exact X.
      - exists 0%nat, kid. split; [auto|split; [congruence|]]. apply Hk. congruence. }
    destruct X as (j & kid & X1 & X2 & path & f & g' & t' & X3 & X4 & X5). exists (j :: path), f. cbn [gorAt stepG]. rewrite X1.
    destruct kid; cbn [adders] in X2; try congruence; rewrite X5; do 2 eexists; (split; [exact X3|split; [exact X4|reflexivity]]).
Qed.
Definition active (t : gor) : bool := match t with InFrame _ | InLoop _ _ _ _ _ _ _ => true | _ => false end.
Lemma not_done kids : forallb isDone kids = false -> exists j kid, nth_error kids j = Some kid /\ isDone kid = false.
Proof.
  induction kids as [|t kids IH]; cbn; [discriminate|]. destruct (isDone t) eqn:E.
  - intros H. destruct (IH H) as (j & kid & X). exists (S j), kid. auto.
  - intros _. exists 0%nat, t. auto.
Qed.
Lemma current_some {A} k (l : list A) : (0 < k)%nat -> (k <= length l)%nat -> exists x, current k l = Some x.
Proof.
  intros H1 H2. destruct k as [|k]; [lia|]. cbn. destruct (nth_error l k) eqn:E; eauto. apply nth_error_None in E. lia.
Qed.
Lemma any_step A g (Bk : book P g A) : forall t, active t = true -> facts P g t -> gorOk P g t -> many P g t -> exists n path r, stepG P n path g t = Some r.
Proof.
  fix IH 1. intros t. destruct t as [|f|i s rs imps k repl kids| |]; cbn [active]; try discriminate; intros _ F Gr M.
  - inversion F as [|? Ff| | |]; subst. inversion Gr as [|? Gf| | | |]; subst.
    assert (X : exists n r, frameStep P n g f = Some r).
    { destruct f as [file out|file abs out|abs content out|i abs content out|i out|i tmp out|i out|i|i|i s|i rs]; cbn [frameStep frameFacts frameOk] in *; try (exists 0%nat; eexists; reflexivity).
      - exists 0%nat. destruct (p_abs P file); [destruct (lookup _ _)|]; eexists; reflexivity.
      - exists 0%nat. destruct (p_read P abs); eexists; reflexivity.
      - exists 0%nat. destruct (ilookup i (g_asts g)); eexists; reflexivity.
      - exists 0%nat. destruct (ilookup i (g_byIndex g)); eexists; reflexivity.
      - destruct Gf as (f & src & S1 & S2 & S3 & S4). rewrite S1. destruct (parse_fine f (src_content src) (g_runs g) 0 S4 S3) as (_ & m & N).
        exists m. destruct (parse (g_runs g) m (src_content src)); try (eexists; reflexivity). congruence. }
    destruct X as (n & r & X). exists n, [], r. exact X.
  - destruct (k <? length imps)%nat eqn:E; [exists 0%nat, []; eexists; cbn [stepG]; rewrite E; reflexivity|]. apply Nat.ltb_ge in E.
    inversion M as [| |? ? ? ? ? ? ? M1 M2 M3| |]; subst. inversion Gr as [| |? ? f ? ? ? ? ? G1 G2 G3 G4 G5 G6 G7| | |]; subst. inversion F as [| |? ? ? ? ? ? ? F1 F2 F3 F4| |]; subst.
    destruct (forallb isDone kids) eqn:D.
    + assert (I : involved P f) by (destruct G1 as (src & _ & _ & _ & I); auto). destruct (refs_fine g s rs f 0 I G1 M2) as (_ & m & N).
      exists m, []. cbn [stepG]. destruct (length kids <? length imps)%nat eqn:E'; [apply Nat.ltb_lt in E'; lia|]. rewrite D, (transform_none P notInline). unfold o in N.
      destruct (transformRefs (p_opts P) None m rs (g_heap g) (initState (p_opts P) None)) as [[rs' h] t1| |]; [eexists; reflexivity|eexists; reflexivity|congruence].
    + assert (X : exists j kid, nth_error kids j = Some kid /\ isDone kid = false /\ (active kid = true -> exists n path r, stepG P n path g kid = Some r)).
      { clear - D F4 G7 M3 IH. revert D F4 G7 M3. induction kids as [|kid kids IHk]; cbn; [discriminate|]. intros D F4 G7 M3. inversion F4; subst. inversion G7; subst. inversion M3; subst.
        pose proof (IH kid) as Hk. destruct (isDone kid) eqn:E.
        - destruct (IHk D) as (j & kid' & X); auto. exists (S j), kid'. exact X.
        - exists 0%nat, kid. split; [auto|split; [auto|intros Ac; apply Hk; auto]]. }
      destruct X as (j & kid & X1 & X2 & X3).
      destruct (current_some (length kids) imps) as ((spec & at_) & C); [destruct kids; [destruct j; discriminate|cbn; lia]|lia|].
      destruct kid as [|f'|i' s' rs' imps' k' repl' kids'|ret|]; cbn in X2; try discriminate.
      * destruct G1 as (src & S1 & _). exists 0%nat, [j]. cbn [stepG]. rewrite X1, C, S1. destruct (p_resolve P spec _); eexists; reflexivity.
      * destruct (X3 eq_refl) as (n & path & r & X). exists n, (j :: path). cbn [stepG]. rewrite X1, X. destruct r; eexists; reflexivity.
      * destruct (X3 eq_refl) as (n & path & r & X). exists n, (j :: path). cbn [stepG]. rewrite X1, X. destruct r; eexists; reflexivity.
      * exists 0%nat, [j]. cbn [stepG]. rewrite X1, C. eexists; reflexivity.
Qed.
Lemma progress s : reachApart P s -> (exists g fs, s = (g, Finished fs)) \/ exists s', apart P s s'.
Proof.
  intros R. pose proof (many_reach P notInline _ R) as M. pose proof (calm_reach P _ R) as Ca. pose proof (reach_ok P _ (apart_reach P _ R)) as Ok.
  destruct s as [g m]. destruct m as [k kids|todo out|out|].
  - right. destruct Ca as [(Bk & Fs & _)|]; [|discriminate]. destruct Ok as (_ & Ok1 & Ok2 & Gk). destruct M as (_ & M & _). cbn [fst snd] in *.
    destruct (k <? length (p_entries P))%nat eqn:E.
    { eexists. exists 0%nat, []. cbn [stepM]. rewrite E. split; [reflexivity|]. intros (? & ? & X). discriminate. }
    destruct (forallb isDone kids) eqn:D.
    { eexists. exists 0%nat, []. cbn [stepM]. rewrite E, D. split; [reflexivity|]. intros (? & ? & X). discriminate. }
    destruct (flat_map adders kids) as [|f0 fs0] eqn:Ad.
    + destruct (not_done _ D) as (j & kid & X1 & X2). apply Nat.ltb_ge in E.
      destruct (current_some k (p_entries P)) as (e & C); [subst k; destruct kids; [destruct j; discriminate|cbn; lia]|lia|].
      pose proof X1 as X1'. apply nth_error_In in X1'. rewrite Forall_forall in Fs, Gk, M.
      assert (Any : active kid = true -> exists n path r, stepG P n path g kid = Some r) by (intros Ac; eapply any_step; eauto).
      destruct kid as [|f'|i' s' rs' imps' k' repl' kids'|ret|]; cbn in X2; try discriminate.
      * eexists. exists 0%nat, [j]. cbn [stepM]. rewrite X1, C. split; [reflexivity|]. auto.
      * destruct (Any eq_refl) as (n & path & r & X). destruct r as [g' t'|]; eexists; exists n, (j :: path); cbn [stepM]; rewrite X1, X; (split; [reflexivity|auto]).
      * destruct (Any eq_refl) as (n & path & r & X). destruct r as [g' t'|]; eexists; exists n, (j :: path); cbn [stepM]; rewrite X1, X; (split; [reflexivity|auto]).
      * eexists. exists 0%nat, [j]. cbn [stepM]. rewrite X1. split; [reflexivity|]. auto.
    + assert (X : exists j kid, nth_error kids j = Some kid /\ adders kid <> []).
      { clear - Ad. revert Ad. induction kids as [|kid kids IH]; cbn; [discriminate|]. destruct (adders kid) eqn:E.
        - intros H. destruct (IH H) as (j & kid' & X). exists (S j), kid'. auto.
        - intros _. exists 0%nat, kid. split; [auto|congruence]. }
      destruct X as (j & kid & X1 & X2). destruct (add_step g kid X2) as (path & f & g' & t' & Y1 & Y2 & Y3).
      eexists. exists 0%nat, (j :: path). cbn [stepM]. rewrite X1. split.
      * destruct kid; cbn [adders] in X2; try congruence; rewrite Y3; reflexivity.
      * intros (file & out & B). cbn in B. rewrite X1, Y1 in B. inversion B; subst f. discriminate.
  - right. destruct todo as [|i todo].
    + eexists. exists 0%nat, []. split; [reflexivity|]. intros (? & ? & X). discriminate.
    + destruct (printOne g i out) as [g' out'] eqn:E. eexists. exists 0%nat, [0%nat]. cbn [stepM nth_error]. rewrite E. split; [reflexivity|]. intros (? & ? & X). discriminate.
  - left. eauto.
  - destruct (C45_lemma g R).
Qed.
Lemma runs_reach k s s' : runsApart P k s s' -> reachApart P s -> reachApart P s'.
Proof. induction 1; auto. intros R. apply IHrunsApart. econstructor; eauto. Qed.
Lemma C34_lemma : (forall f, involved P f -> grounded P f) ->
  exists N, forall k s, runsApart P k start s -> (k <= N)%nat /\ ((exists g fs, s = (g, Finished fs)) \/ exists s', apart P s s').
Proof.
  intros Gr. destruct (C34_bound P) as (N & H); auto.
  - intros f I c R. destruct (fine f I c R) as (n & H). exists n. destruct (parse 0 n c); congruence || tauto.
  - exists N. intros k s R. split; [eauto|]. apply progress. eapply runs_reach; eauto. constructor.
Qed.
End WithProject.
