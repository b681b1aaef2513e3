(** Every error that Compile reports is one of the project: C59. *)
From Verif Require Import Bytes Utf8 Source Lexer Ast Parser ParserSpec ParseRerun Printer Transformer TransSpec TransProofs TransRerun
  Resolver Compile CompileSpec CompileSteps CompileOne CompileCalm CompileRefs CompileMany ErrSpec.

Section WithProject.
Context {U : UnicodeDigits} {FO : FloatOps}.
Variable P : project.
Hypothesis notInline : o_imports (p_opts P) <> ImportInline.
Let o := p_opts P.

(** * What steps leave alone *)
Record stays (g g' : glob) (w : list nat) : Prop := {
  st_srcs : forall s src, nth_error (g_srcs g) s = Some src -> exists src', nth_error (g_srcs g') s = Some src' /\
    src_path src' = src_path src /\ src_content src' = src_content src;
  st_heap : forall r, (fst r < g_runs g)%nat -> ~ In (fst r) w -> deref (g_heap g') r = deref (g_heap g) r;
  st_runs : (g_runs g <= g_runs g')%nat }.
Lemma stays_same g g' : g_srcs g' = g_srcs g -> g_heap g' = g_heap g -> g_runs g' = g_runs g -> stays g g' [].
Proof. intros E1 E2 E3. constructor; rewrite ?E1, ?E2, ?E3; auto. intros s src H. exists src. auto. Qed.
Lemma stays_refl g : stays g g []. Proof. apply stays_same; auto. Qed.
Lemma names_stays g g' w s f : stays g g' w -> names g s f -> names g' s f.
Proof. intros K (src & H1 & H2). destruct (st_srcs _ _ _ K _ _ H1) as (src' & E1 & E2 & _). exists src'. rewrite E2. auto. Qed.
Lemma genuine_stays g g' w e : stays g g' w -> genuine P g e -> genuine P g' e.
Proof.
  intros K. destruct e; cbn [genuine]; auto.
  - intros (f & H1 & H2). exists f. split; [eapply names_stays; eauto|auto].
  - intros (f & nds & rs & H1 & H2). exists f, nds, rs. split; [eapply names_stays; eauto|auto].
Qed.
Lemma errors_stays g g' w es : stays g g' w -> Forall (genuine P g) es -> Forall (genuine P g') es.
Proof. intros K. apply Forall_impl. intros e. eapply genuine_stays; eauto. Qed.

(** * What a goroutine works on *)
(** [rs]: the nodes of the source [s] as they were parsed, ... *)
Definition fresh (g : glob) (s : sref) (rs : list nref) : Prop := exists src n ss L run,
  nth_error (g_srcs g) s = Some src /\ parse 0 n (src_content src) = ParseOk ss L /\
  rs = map (pair run) (seq 0 (length (ss_nodes ss))) /\ derefs (g_heap g) rs = Some (map (nodeOfRun run) (ss_nodes ss)).
(** ... those of some file as they were transformed. *)
Definition final (g : glob) (rs : list nref) : Prop := exists f nds reps run,
  involved P f /\ transformsTo P f nds reps /\ Forall (fun r => fst r = run) rs /\ derefs (g_heap g) rs = Some (map (nodeOfRun run) nds).
Definition frameGood (g : glob) (f : frame) : Prop :=
  match f with
  | Called file _ => requested P file
  | Missed file abs _ => requested P file /\ p_abs P file = Some abs
  | Transformed _ rs => final g rs
  | _ => True
  end.
Inductive good (g : glob) : gor -> Prop :=
| gdFresh : good g Fresh
| gdFrame f : frameGood g f -> good g (InFrame f)
| gdLoop i s rs imps k repl kids : fresh g s rs -> Forall (good g) kids -> good g (InLoop i s rs imps k repl kids)
| gdBack ret : good g (Back ret)
| gdDone : good g Done.
Definition astsGood (g : glob) : Prop := forall i rs, In (i, rs) (g_asts g) -> final g rs.
Definition sound (g : glob) (W : list nat) : Prop := astsGood g /\ ownOk g W /\ Forall (genuine P g) (g_errors g).

Lemma derefs_stays g g' w run rs : stays g g' w -> Forall (fun r => fst r = run) rs -> Forall (fun x => (x < g_runs g)%nat) (heads rs) -> apartRuns w (heads rs) ->
  derefs (g_heap g') rs = derefs (g_heap g) rs.
Proof.
  intros K H1 H2 H3. apply derefs_ext. intros r Hr. pose proof H1 as H1'. rewrite Forall_forall in H1'. pose proof (H1' _ Hr) as E. destruct (heads_runs _ _ H1) as [->|E1]; [destruct Hr|].
  apply (st_heap _ _ _ K); rewrite E.
  - rewrite E1 in H2. inversion H2; auto.
  - apply H3. rewrite E1. left. auto.
Qed.
Lemma fresh_stays g g' w s rs : stays g g' w -> Forall (fun x => (x < g_runs g)%nat) (heads rs) -> apartRuns w (heads rs) -> fresh g s rs -> fresh g' s rs.
Proof.
  intros K H1 H2 (src & n & ss & L & run & W1 & W2 & W3 & W4). destruct (st_srcs _ _ _ K _ _ W1) as (src' & E1 & _ & E3).
  exists src', n, ss, L, run. rewrite E3. split; [auto|split; [auto|split; [auto|]]]. rewrite <- W4. eapply derefs_stays; eauto. rewrite W3. apply working_runs.
Qed.
Lemma final_stays g g' w rs : stays g g' w -> Forall (fun x => (x < g_runs g)%nat) (heads rs) -> apartRuns w (heads rs) -> final g rs -> final g' rs.
Proof.
  intros K H1 H2 (f & nds & reps & run & W1 & W2 & W3 & W4). exists f, nds, reps, run. split; [auto|split; [auto|split; [auto|]]].
  rewrite <- W4. eapply derefs_stays; eauto.
Qed.
Lemma frameGood_stays g g' w f : stays g g' w -> Forall (fun x => (x < g_runs g)%nat) (owned (InFrame f)) -> apartRuns w (owned (InFrame f)) -> frameGood g f -> frameGood g' f.
Proof. intros K H1 H2 H. destruct f; cbn [frameGood owned] in *; auto. eapply final_stays; eauto. Qed.
Lemma good_stays g g' w (K : stays g g' w) : forall t, good g t -> Forall (fun x => (x < g_runs g)%nat) (owned t) -> apartRuns w (owned t) -> good g' t.
Proof.
  fix IH 2. intros t [|f Hf|i s rs imps k repl kids H1 H2| |] L A; try (constructor; fail).
  - constructor. eapply frameGood_stays; eauto.
  - cbn [owned] in L, A. apply Forall_app in L as [L1 L2]. apply apart_app in A as [A1 A2]. constructor; [eapply fresh_stays; eauto|].
    clear H1 L1 A1. induction H2 as [|t1 kids Ht Hk IHk]; constructor; cbn [flat_map] in L2, A2; apply Forall_app in L2 as [L2 L3]; apply apart_app in A2 as [A2 A3]; auto.
Qed.
Lemma goods_stay g g' w kids : stays g g' w -> Forall (good g) kids -> Forall (fun x => (x < g_runs g)%nat) (flat_map owned kids) -> apartRuns w (flat_map owned kids) -> Forall (good g') kids.
Proof.
  intros K H. induction H as [|t kids Ht Hk IHk]; intros L A; constructor; cbn [flat_map] in L, A; apply Forall_app in L as [L2 L3]; apply apart_app in A as [A2 A3]; auto.
  eapply good_stays; eauto.
Qed.
Lemma asts_stay g g' w : stays g g' w -> g_asts g' = g_asts g -> Forall (fun x => (x < g_runs g)%nat) (astRuns g) -> apartRuns w (astRuns g) -> astsGood g -> astsGood g'.
Proof.
  intros K E L A H i rs Hi. rewrite E in Hi. pose proof (ast_runs _ _ _ Hi) as I.
  eapply final_stays; eauto; [eapply Forall_incl; eauto|]. intros x Hx. apply A. auto.
Qed.
(** A step that reports [es] and gives up some of what one goroutine owns. *)
Lemma sound_same g g' pre m m' post es : stays g g' [] -> g_asts g' = g_asts g -> g_errors g' = g_errors g ++ es -> Forall (genuine P g) es -> (m' = m \/ m' = []) ->
  sound g (pre ++ m ++ post) -> sound g' (pre ++ m' ++ post).
Proof.
  intros K E1 E2 E3 E4 (H1 & H2 & H3). split; [|split].
  - eapply asts_stay; eauto; [exact (proj1 (own_lt _ _ H2))|]. intros x _ [].
  - eapply own_less; eauto. apply K.
  - rewrite E2. apply Forall_app. split; eapply errors_stays; eauto.
Qed.
Ltac quiet := match goal with |- stays ?g ?x _ /\ _ => assert (K : stays g x []) by (apply stays_same; reflexivity) end.
Lemma parse_run run n c ss L : parse run n c = ParseOk ss L -> exists ss0, parse 0 n c = ParseOk ss0 L /\ ss = sheetOfRun run ss0.
Proof. apply linesOf_ok. Qed.

Lemma frame_sound n g f g' t' pre post : frameStep P n g f = Some (Go g' t') -> globOk P g -> frameOk P g f ->
  sound g (pre ++ owned (InFrame f) ++ post) -> frameGood g f ->
  stays g g' [] /\ sound g' (pre ++ owned t' ++ post) /\ good g' t'.
Proof.
  intros H G F W M. destruct f as [file out|file abs out|abs content out|i abs content out|i out|i tmp out|i out|i|i|i s|i rs]; cbn [frameStep frameGood] in *.
  - destruct (p_abs P file) as [abs|] eqn:Ea.
    + destruct (lookup abs (g_sources g)) as [i|] eqn:El; inversion H; subst; (split; [apply stays_refl|split; [exact W|constructor]]); cbn; auto.
    + inversion H; subst. quiet. split; [exact K|split; [|constructor]].
      eapply (sound_same g _ pre [] [] post [EAbs file]); eauto. constructor; [|constructor]. cbn. auto.
  - destruct M as [M1 M2]. destruct (p_read P abs) as [content|] eqn:Er; inversion H; subst.
    + split; [apply stays_refl|split; [exact W|constructor; cbn; auto]].
    + quiet. split; [exact K|split; [|constructor]]. eapply (sound_same g _ pre [] [] post [ERead file]); eauto. constructor; [|constructor]. cbn. eauto.
  - inversion H; subst. quiet. split; [exact K|split; [|constructor; cbn; auto]]. eapply (sound_same g _ pre [] [] post []); eauto. cbn. rewrite app_nil_r. auto.
  - inversion H; subst. match goal with |- stays g ?x _ /\ _ => set (g1 := x) in * end.
    assert (K : stays g g1 []).
    { constructor; auto. intros s src Hs. exists src. split; auto. cbn. rewrite nth_error_app1; auto. apply nth_error_Some. congruence. }
    split; [exact K|split; [|constructor; cbn; auto]]. eapply (sound_same g _ pre [] [] post []); eauto. cbn. rewrite app_nil_r. auto.
  - inversion H; subst. split; [apply stays_refl|split; [exact W|constructor; cbn; auto]].
  - inversion H; subst. quiet. split; [exact K|split; [|constructor; cbn; auto]]. eapply (sound_same g _ pre [] [] post []); eauto. cbn. rewrite app_nil_r. auto.
  - inversion H; subst. destruct out; [|split; [apply stays_refl|split; [exact W|constructor; cbn; auto]]].
    quiet. split; [exact K|split; [|constructor; cbn; auto]]. eapply (sound_same g _ pre [] [] post []); eauto. cbn. rewrite app_nil_r. auto.
  - destruct (ilookup i (g_asts g)) as [rs|] eqn:Ei; inversion H; subst; (split; [apply stays_refl|split; [exact W|constructor; cbn; auto]]).
  - destruct (ilookup i (g_byIndex g)) as [s|] eqn:Ei; inversion H; subst. split; [apply stays_refl|split; [exact W|constructor; cbn; auto]].
  - cbn [frameOk] in F. destruct F as (f & src & Es & F2 & F3 & F4). rewrite Es in H.
    assert (Kp : forall L g1, g_srcs g1 = upd s (mkSource (src_path src) (src_content src) L) (g_srcs g) ->
        g_runs g1 = S (g_runs g) -> (forall r, (fst r < g_runs g)%nat -> deref (g_heap g1) r = deref (g_heap g) r) -> stays g g1 []).
    { intros L g1 E1 E2 E4. constructor; rewrite ?E2; auto. intros s1 src1 H1. rewrite E1, nth_upd, H1. destruct (s1 =? s)%nat eqn:E; [|exists src1; auto].
      apply Nat.eqb_eq in E. subst s1. rewrite Es in H1. inversion H1; subst. eexists. split; [reflexivity|]. cbn. auto. }
    destruct W as (H1 & H2 & H3).
    destruct (parse (g_runs g) n (src_content src)) as [ss L|sp msg L| |] eqn:Ep; try discriminate; inversion H; subst; clear H.
    + match goal with |- stays g ?x _ /\ _ => set (g1 := x) in * end.
      destruct (parse_run _ _ _ _ _ Ep) as (ss0 & Ep0 & ->).
      assert (K : stays g g1 []). { eapply Kp; try reflexivity. intros r Hr. cbn [g_heap g1]. apply deref_alloc_other. lia. }
      split; [exact K|split; [split; [|split]|]].
      * eapply asts_stay; eauto; [exact (proj1 (own_lt _ _ H2))|]. intros x _ [].
      * cbn [owned flat_map app] in *. rewrite app_nil_r. destruct H2 as [N1 N2]. split.
        -- change (astRuns g1) with (astRuns g). rewrite heads_alloc. destruct (ss_nodes (sheetOfRun (g_runs g) ss0)); [exact N1|].
           rewrite app_assoc in *. apply NoDup_insert_nat; auto. intros Hi. rewrite Forall_forall in N2. apply N2 in Hi. lia.
        -- change (astRuns g1) with (astRuns g). rewrite heads_alloc. rewrite !Forall_app in *. cbn [g_runs g1]. destruct N2 as (Y1 & Y2 & Y3).
           repeat split; try (eapply Forall_impl; [|eassumption]; cbn; lia). destruct (ss_nodes _); repeat constructor.
      * cbn [g_errors g1]. eapply errors_stays; eauto.
      * constructor; [|constructor]. exists (mkSource (src_path src) (src_content src) (src_lines src ++ L)), n, ss0, L, (g_runs g). split; [|split; [exact Ep0|split]].
        -- cbn [g_srcs g1]. rewrite nth_upd, Nat.eqb_refl, Es. reflexivity.
        -- rewrite alloc_refs. cbn [sheetOfRun ss_nodes]. rewrite map_length. reflexivity.
        -- cbn [g_heap g1]. rewrite derefs_alloc. reflexivity.
    + match goal with |- stays g ?x _ /\ _ => set (g1 := x) in * end.
      apply linesOf_err in Ep. assert (K : stays g g1 []) by (eapply Kp; reflexivity).
      split; [exact K|split; [|constructor]]. apply (sound_same g g1 pre [] [] post [EParse s sp msg]); auto.
      * constructor; [|constructor]. cbn. exists (src_path src). split; [exists src; auto|]. split; [exact F4|]. exists (src_content src), n, L. auto.
      * split; auto.
  - inversion H; subst. match goal with |- stays g ?x _ /\ _ => set (g1 := x) in * end. assert (K : stays g g1 []) by (apply stays_same; reflexivity).
    split; [exact K|split; [|constructor]]. destruct W as (H1 & H2 & H3). split; [|split].
    + intros j rs' [E|E]; [injection E as <- <-; exact M|exact (H1 _ _ E)].
    + cbn [owned] in *. destruct H2 as [N1 N2]. unfold ownOk, astRuns in *. cbn [g_asts g1 flat_map snd app]. split.
      * eapply Permutation.Permutation_NoDup; [|exact N1]. rewrite (app_assoc _ pre), Permutation.Permutation_app_swap_app, <- !app_assoc. reflexivity.
      * rewrite !Forall_app in *. cbn [g_runs g1]. tauto.
    + exact H3.
Qed.
Lemma final_transform n g i s rs repl g' t' pre post f : transformStep P n g i s rs repl = Some (Go g' t') -> srcIs P g s f ->
  sound g (pre ++ heads rs ++ post) -> fresh g s rs -> stays g g' (heads rs) /\ sound g' (pre ++ owned t' ++ post) /\ good g' t'.
Proof.
  rewrite (transform_none P notInline). intros H (src0 & S1 & S2 & S3 & S4) W (src & m & ss & L & run & W0 & W1 & W2 & W3). assert (src0 = src) by congruence. subst src0.
  assert (Nd : NoDup rs). { rewrite W2, <- alloc_refs. apply alloc_nodup. }
  destruct (transformRefs (p_opts P) None n rs (g_heap g) (initState (p_opts P) None)) as [[rs' h] t| |] eqn:E; inversion H; subst g' t'; clear H.
  destruct (refs_none _ _ _ _ _ _ _ _ _ E Nd W3) as (ns' & T1 & T2 & T3 & T4). destruct (transform_of P _ _ _ _ _ T1) as (ss' & T5 & ->).
  pose proof (working_runs (length (ss_nodes ss)) run) as Rn. rewrite <- W2 in Rn. destruct (incl_heads _ _ _ Rn T4) as (Rn' & Hh).
  match goal with |- stays g ?x _ /\ _ => set (g1 := x) end.
  assert (K : stays g g1 (heads rs)).
  { constructor; auto. intros s1 src1 H1. exists src1. auto. intros r Hr Hn. cbn [g_heap g1]. apply T3. intros Hr'. apply Hn.
    rewrite Forall_forall in Rn. pose proof (Rn _ Hr') as Er. destruct rs as [|r0 rs]; [destruct Hr'|]. cbn. left. rewrite Er. apply Rn. left. auto. }
  assert (Tr : transformsTo P f (ss_nodes ss') (t_reports t)).
  { exists (src_content src), m, n, ss, L, ss', t. subst f. auto. }
  split; [exact K|]. destruct W as (H1 & H2 & H3). split; [split; [|split]|].
  - eapply asts_stay; eauto; [exact (proj1 (own_lt _ _ H2))|]. eapply own_ast_apart; eauto.
  - cbn [owned]. apply (own_less g g1 pre (heads rs) (heads rs') post); auto.
  - cbn [g_errors g1]. apply Forall_app. split; [eapply errors_stays; eauto|]. apply Forall_forall. intros e I. apply in_map_iff in I as (r & <- & I).
    cbn [genuine]. exists f, (ss_nodes ss'), (t_reports t). split; [exists src; auto|auto].
  - constructor. cbn. exists f, (ss_nodes ss'), (t_reports t), run. auto.
Qed.
Lemma gstep_sound g t g' t' : gstep P g t g' t' -> forall pre post, globOk P g -> gorOk P g t -> sound g (pre ++ owned t ++ post) -> good g t ->
  exists w, stays g g' w /\ incl w (owned t) /\ sound g' (pre ++ owned t' ++ post) /\ good g' t'.
Proof.
  induction 1 as [n g f g' t' H|g i s rs imps k repl kids L|n g i s rs imps k repl kids g' t' L D H|g i s rs imps k repl a b spec at_ src rel C S R|g i s rs imps k repl a b spec at_ src C S R
    |g i s rs imps k repl a b ret spec at_ C|g i s rs imps k repl a b kid g' kid' H IH]; intros pre post G Go W M.
  - inversion M; subst. inversion Go; subst. destruct (frame_sound _ _ _ _ _ _ _ H G ltac:(eassumption) W) as (K & W' & M'); auto. exists []. split; [auto|split; [intros x []|auto]].
  - exists []. split; [apply stays_refl|split; [intros x []|]]. inversion M; subst. cbn [owned] in *. rewrite flat_map_app. cbn [flat_map owned]. rewrite !app_nil_r.
    split; [auto|]. constructor; auto. apply Forall_app. split; auto. repeat constructor.
  - inversion M; subst. inversion Go; subst. cbn [owned] in *. rewrite (done_owned _ D), app_nil_r in *. destruct (final_transform _ _ _ _ _ _ _ _ _ _ _ H ltac:(eassumption) W) as (K & W' & M'); auto.
    exists (heads rs). split; [auto|split; [apply incl_refl|auto]].
  - exists []. split; [apply stays_refl|split; [intros x []|]]. inversion M as [| |? ? ? ? ? ? ? M1 M3| |]; subst. cbn [owned] in *. rewrite flat_app in *. cbn [owned app] in *.
    split; [auto|]. constructor; auto. apply Forall_mid in M3 as (X1 & _ & X2). apply Forall_mid. split; [auto|split; [|auto]]. constructor. cbn.
    inversion Go as [| |? ? f ? ? ? ? ? G1 _ G3 _ _ _ _| | |]; subst. destruct G1 as (src' & Y1 & Y2 & Y3 & Y4). assert (src' = src) by congruence. subst src'.
    right. exists f, spec. split; [exact Y4|]. split; [apply G3; apply current_In in C; apply (in_map fst) in C; exact C|]. rewrite <- Y2. exact R.
  - assert (K : stays g (addError g (EResolve spec)) []) by (apply stays_same; reflexivity).
    exists []. split; [exact K|split; [intros x []|]]. inversion M as [| |? ? ? ? ? ? ? M1 M3| |]; subst. cbn [owned] in *. rewrite flat_app in *. cbn [owned app] in *.
    inversion Go as [| |? ? f ? ? ? ? ? G1 _ G3 _ _ _ _| | |]; subst. destruct G1 as (src' & Y1 & Y2 & Y3 & Y4). assert (src' = src) by congruence. subst src'.
    split; [eapply sound_same with (m := heads rs ++ flat_map owned a ++ flat_map owned b) (es := [EResolve spec]); eauto|].
    + constructor; [|constructor]. cbn. exists f. split; [exact Y4|]. split; [apply G3; apply current_In in C; apply (in_map fst) in C; exact C|]. rewrite <- Y2. exact R.
    + apply (good_stays g _ [] K); [|cbn [owned]; rewrite flat_app; cbn [owned app]; destruct W as (_ & W & _); apply own_lt in W as [_ W]|intros x _ []].
      * constructor; auto. apply Forall_mid in M3 as (X1 & _ & X2). apply Forall_mid. split; [auto|split; [constructor|auto]].
      * apply Forall_app in W as [_ W]. apply Forall_app in W as [W _]. exact W.
  - exists []. split; [apply stays_refl|split; [intros x []|]]. inversion M as [| |? ? ? ? ? ? ? M1 M3| |]; subst. cbn [owned] in *. rewrite flat_app in *. cbn [owned app] in *.
    split; [auto|]. constructor; auto. apply Forall_mid in M3 as (X1 & _ & X2). apply Forall_mid. split; [auto|split; [constructor|auto]].
  - inversion M as [| |? ? ? ? ? ? ? M1 M3| |]; subst. cbn [owned] in *. rewrite flat_app in *. apply Forall_mid in M3 as (X1 & X0 & X2).
    assert (R : forall x, pre ++ (heads rs ++ flat_map owned a ++ owned x ++ flat_map owned b) ++ post = (pre ++ heads rs ++ flat_map owned a) ++ owned x ++ (flat_map owned b ++ post)).
    { intros x. rewrite <- !app_assoc. reflexivity. }
    rewrite R in *. inversion Go as [| |? ? ? ? ? ? ? ? _ _ _ _ _ _ Gk| | |]; subst. apply Forall_mid in Gk as (_ & Gk & _).
    destruct (IH _ _ G Gk W X0) as (w & K & I & W' & M'). exists w. split; [auto|split; [|split; [cbn [owned]; rewrite flat_app, R; auto|]]].
    + intros x Hx. cbn [owned]. rewrite !in_app_iff. auto.
    + destruct W as (_ & Own & _). pose proof (own_lt _ _ Own) as [_ Lt]. rewrite !Forall_app in Lt. destruct Lt as ((_ & L1 & L2) & _ & L3 & _).
      destruct Own as [Nd _]. apply NoDup_app_remove_l in Nd. rewrite <- !app_assoc in Nd. apply NoDup_app_remove_l in Nd.
      assert (Ap : forall l, (forall x, In x l -> In x (heads rs) \/ In x (flat_map owned a) \/ In x (flat_map owned b)) -> apartRuns w l).
      { intros l Hl x Hx Hw. apply I in Hw. destruct (Hl _ Hx) as [Y|[Y|Y]].
        - eapply nodup_apart in Nd; [|exact Y]. apply Nd. rewrite !in_app_iff. auto.
        - apply NoDup_app_remove_l in Nd. eapply nodup_apart in Nd; [|exact Y]. apply Nd. rewrite !in_app_iff. auto.
        - apply NoDup_app_remove_l, NoDup_app_remove_l in Nd. eapply nodup_apart in Nd; [|exact Hw]. apply Nd. rewrite !in_app_iff. auto. }
      constructor; [eapply fresh_stays; eauto|]. apply Forall_mid. split; [eapply goods_stay; eauto|split; [auto|eapply goods_stay; eauto]].
Qed.

(** * The whole program *)
Definition soundS (s : glob * mstate) : Prop :=
  match snd s with
  | Running _ kids => sound (fst s) (flat_map owned kids) /\ Forall (good (fst s)) kids
  | Printing _ _ | Finished _ => sound (fst s) []
  | Crashed => Forall (genuine P (fst s)) (g_errors (fst s))
  end.
Lemma print_sound g idx out : globOk P g -> sound g [] -> sound (fst (printOne g idx out)) [].
Proof.
  intros G W. unfold printOne. destruct (ilookup idx (g_byIndex g)) as [s|] eqn:E1; [|exact W]. destruct (ilookup idx (g_asts g)) as [rs|] eqn:E2; [|exact W].
  destruct (nth_error (g_srcs g) s) as [src|] eqn:E3; [|exact W]. destruct (derefs (g_heap g) rs) as [nds|] eqn:E4; [|exact W].
  destruct (print (Some src) nds) eqn:E5; [exact W|]. cbn [fst].
  apply (sound_same g _ [] [] [] [] [EPrint (src_path src)]); auto; [apply stays_same; reflexivity|]. constructor; [|constructor]. cbn [genuine].
  destruct (go_by _ _ G _ _ E1) as (f & src' & F1 & F2 & F3 & F4). assert (src' = src) by congruence. subst src'. split; [congruence|].
  apply ilookup_In in E2. destruct W as (W & _). destruct (W _ _ E2) as (f' & nds' & reps & run & X1 & X2 & X3 & X4). rewrite E4 in X4. injection X4 as ->.
  rewrite print_rerun in E5. exists f', nds', reps, src. auto.
Qed.
Lemma mstep_sound s s' : mstep P s s' -> stateOk P s -> soundS s -> soundS s'.
Proof.
  intros H Ok M. destruct H as [g k kids L|g k kids L D|g k a b e C|g k a b ret|g k a b kid g' kid' H|g k kids|g a idx b out|g out]; unfold soundS in *; cbn [fst snd] in *; auto.
  - destruct M as (M1 & M2). rewrite flat_map_app. cbn [flat_map owned app]. rewrite !app_nil_r. split; [auto|]. apply Forall_app; split; auto; repeat constructor.
  - destruct M as (M1 & M2). rewrite (done_owned _ D) in M1. exact M1.
  - destruct M as (M1 & M2). rewrite flat_app in *. cbn [owned app] in *. split; [auto|]. apply Forall_mid in M2 as (X1 & _ & X2). apply Forall_mid. split; [auto|split; [|auto]].
    constructor. cbn. left. eapply current_In; eauto.
  - destruct M as (M1 & M2). rewrite flat_app in *. cbn [owned app] in *. split; [auto|]. apply Forall_mid in M2 as (X1 & _ & X2). apply Forall_mid. split; [auto|split; [constructor|auto]].
  - destruct M as (M1 & M2). destruct Ok as (G & _ & _ & Gk). cbn [fst snd] in *. rewrite flat_app in *. apply Forall_mid in Gk as (_ & Gk & _). apply Forall_mid in M2 as (X1 & X0 & X2).
    destruct (gstep_sound _ _ _ _ H _ _ G Gk M1 X0) as (w & Kp & I & W' & M'). split; [auto|].
    destruct M1 as (_ & Own & _). pose proof (own_lt _ _ Own) as [_ Lt]. rewrite !Forall_app in Lt. destruct Lt as (L1 & _ & L2).
    destruct Own as [Nd _]. apply NoDup_app_remove_l in Nd.
    apply Forall_mid. split; [|split; [auto|]]; eapply goods_stay; eauto; intros x Hx Hw; apply I in Hw.
    + eapply nodup_apart in Nd; [|exact Hx]. apply Nd. rewrite !in_app_iff. auto.
    + apply NoDup_app_remove_l in Nd. eapply nodup_apart in Nd; [|exact Hw]. auto.
  - apply M.
  - apply print_sound; [apply Ok|exact M].
Qed.
Lemma C59_sound_lemma g m : reach P (g, m) -> Forall (genuine P g) (g_errors g).
Proof.
  intros H. assert (X : soundS (g, m)).
  { remember (g, m) as s eqn:E. clear E. induction H as [|s s' H IH St]; [|eapply mstep_sound; [apply step_mstep; exact St|apply reach_ok; exact H|exact IH]].
    unfold soundS. cbn. split; [|constructor]. split; [intros i rs []|split; [split; constructor|constructor]]. }
  unfold soundS in X. destruct m; cbn [fst snd] in X; try apply X. 
Qed.
End WithProject.
