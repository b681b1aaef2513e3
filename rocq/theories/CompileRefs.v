(** What holds in every state of every execution: references are valid, sources
    hold the files they are named after, and only involved files are read. *)
From Verif Require Import Bytes Utf8 Source Lexer Ast Parser Printer Transformer Resolver Compile CompileSpec CompileSteps CompileCalm.

Definition dom (h : heap) (r : nref) : Prop := exists nd, deref h r = Some nd.
Lemma dom_hset h r nd r' : dom h r' -> dom (hset h r nd) r'.
Proof. intros (x & H). unfold dom. rewrite deref_hset. destruct (ptrEq r' r); eauto. Qed.
Lemma dom_same h r nd : dom (hset h r nd) r.
Proof. exists nd. apply deref_same. Qed.

(** * Transform *)
Section WithFloats.
Context {FO : FloatOps}.
Definition replOk (h : heap) (repl : option (list (ptr * list nref))) : Prop :=
  forall m p rs, repl = Some m -> plookup p m = Some rs -> Forall (dom h) rs.
Lemma refs_dom o repl n : forall rs h t rs' h' t', transformRefs o repl n rs h t = TOk (rs', h') t' ->
  Forall (dom h) rs -> replOk h repl -> Forall (dom h') rs' /\ forall r, dom h r -> dom h' r.
Proof.
  induction n as [|n IHn]; [discriminate|]. cbn [transformRefs].
  induction rs as [|r rs IH]; intros h t rs' h' t' H Hd Hr.
  - cbn in H. inversion H; subst. auto.
  - inversion Hd as [|? ? Hd1 Hd2]; subst.
    apply tbind_ok in H as ([here h1] & t1 & H1 & H). apply tbind_ok in H as ([more h2] & t2 & H2 & H). cbn [fst snd] in *. inversion H; subst. clear H.
    assert (S : Forall (dom h1) here /\ forall r, dom h r -> dom h1 r).
    { clear H2. destruct (deref h r) as [[q|a]|] eqn:Er; [| |discriminate].
      - apply tbind_ok in H1 as (q' & t3 & H1 & H). destruct q' as [q'|]; inversion H; subst; [|auto].
        split; [constructor; [apply dom_same|constructor]|]. intros. apply dom_hset; auto.
      - destruct (beq (ar_name a) (B "import")).
        { destruct repl as [m|]; [|inversion H1; subst; auto]. destruct (plookup (atRuleId a) m) as [imported|] eqn:Ep; [|inversion H1; subst; auto].
          apply tbind_ok in H1 as (u & t3 & H1 & H). eapply IHn; [exact H| |exact Hr]. eapply Hr; eauto. }
        destruct (beq (ar_name a) (B "custom-media")).
        { apply tbind_ok in H1 as (q' & t3 & H1 & H). inversion H; subst. auto. }
        destruct (beq (ar_name a) (B "media")).
        { destruct (ar_preludes a) as [|[| |[lsp qs]| |] pres]; try discriminate. apply tbind_ok in H1 as (q' & t3 & H1 & H). inversion H; subst.
          split; [constructor; [apply dom_same|constructor]|]. intros. apply dom_hset; auto. }
        inversion H1; subst. auto. }
    destruct S as (S1 & S2).
    destruct (IH _ _ _ _ _ H2) as (M1 & M2).
    + eapply Forall_impl; [|exact Hd2]. auto.
    + intros m p rs0 E1 E2. eapply Forall_impl; [|eapply Hr; eauto]. auto.
    + split; [|auto]. apply Forall_app. split; [eapply Forall_impl; [|exact S1]; auto|auto].
Qed.
End WithFloats.

Section WithProject.
Context {U : UnicodeDigits} {FO : FloatOps}.
Variable P : project.

(** The source [s] is the file at [f]. *)
Definition srcIs (g : glob) (s : sref) (f : bytes) : Prop :=
  exists src, nth_error (g_srcs g) s = Some src /\ src_path src = f /\ p_read P f = Some (src_content src) /\ involved P f.
Definition hasSrc (g : glob) (s : sref) : Prop := exists f, srcIs g s f.
Definition hasRefs (g : glob) (rs : list nref) : Prop := Forall (dom (g_heap g)) rs.
Definition ext (g g' : glob) : Prop := (forall s f, srcIs g s f -> srcIs g' s f) /\ (forall r, dom (g_heap g) r -> dom (g_heap g') r).
Lemma ext_refl g : ext g g. Proof. split; auto. Qed.
Definition errOk (g : glob) (e : cerror) : Prop :=
  match e with EParse s _ _ | ETransform s _ => hasSrc g s | _ => True end.
Record globOk (g : glob) : Prop := {
  go_srcs : forall s src, nth_error (g_srcs g) s = Some src -> hasSrc g s;
  go_by : forall i s, ilookup i (g_byIndex g) = Some s -> hasSrc g s;
  go_asts : forall i rs, ilookup i (g_asts g) = Some rs -> hasRefs g rs;
  go_errors : Forall (errOk g) (g_errors g) }.
Definition frameOk (g : glob) (f : frame) : Prop :=
  match f with
  | Called file _ => forall a, p_abs P file = Some a -> involved P a
  | Missed _ abs _ => involved P abs
  | ReadIn abs content _ | Indexed _ abs content _ => involved P abs /\ p_read P abs = Some content
  | HasSource _ s => hasSrc g s
  | Transformed _ rs => hasRefs g rs
  | _ => True
  end.
Inductive gorOk (g : glob) : gor -> Prop :=
| okFresh : gorOk g Fresh
| okFrame f : frameOk g f -> gorOk g (InFrame f)
| okLoop i s f rs imps k repl kids : srcIs g s f -> hasRefs g rs -> (forall spec, In spec (map fst imps) -> imports P f spec) ->
    (forall p rs', In (p, rs') repl -> hasRefs g rs') -> length kids = k -> (k <= length imps)%nat -> Forall (gorOk g) kids ->
    gorOk g (InLoop i s rs imps k repl kids)
| okBack rs : hasRefs g rs -> gorOk g (Back (Some rs))
| okBackNone : gorOk g (Back None)
| okDone : gorOk g Done.

Lemma hasRefs_ext g g' rs : ext g g' -> hasRefs g rs -> hasRefs g' rs.
Proof. intros [_ E] H. eapply Forall_impl; [|exact H]. auto. Qed.
Lemma hasSrc_ext g g' s : ext g g' -> hasSrc g s -> hasSrc g' s.
Proof. intros [E _] (f & H). exists f. auto. Qed.
Lemma frameOk_ext g g' f : ext g g' -> frameOk g f -> frameOk g' f.
Proof. intros E. destruct f; cbn; auto; intros H; [eapply hasSrc_ext|eapply hasRefs_ext]; eauto. Qed.
Lemma gorOk_ext g g' (E : ext g g') : forall t, gorOk g t -> gorOk g' t.
Proof.
  fix IH 2. intros t [|f Hf|i s f rs imps k repl kids H1 H2 H3 H4 H5 H6 H7| | |]; try (constructor; fail).
  - constructor. eapply frameOk_ext; eauto.
  - apply okLoop with (f := f); auto.
    + apply E. auto.
    + eapply hasRefs_ext; eauto.
    + intros. eapply hasRefs_ext; eauto.
    + clear H5. induction H7; constructor; auto.
  - constructor. eapply hasRefs_ext; eauto.
Qed.
Lemma errOk_ext g g' e : ext g g' -> errOk g e -> errOk g' e.
Proof. intros E. destruct e; cbn; auto; apply hasSrc_ext; auto. Qed.
(** Only the errors grow. *)
Lemma globOk_more g g' : ext g g' -> globOk g -> g_srcs g' = g_srcs g -> g_byIndex g' = g_byIndex g -> g_asts g' = g_asts g ->
  Forall (errOk g') (g_errors g') -> globOk g'.
Proof.
  intros E [H1 H2 H3 H4] E1 E2 E3 H. constructor; auto.
  - intros s src X. rewrite E1 in X. eapply hasSrc_ext; eauto.
  - intros i s X. rewrite E2 in X. eapply hasSrc_ext; eauto.
  - intros i rs X. rewrite E3 in X. eapply hasRefs_ext; eauto.
Qed.
Lemma ext_same g g' : g_srcs g' = g_srcs g -> g_heap g' = g_heap g -> ext g g'.
Proof. intros E1 E2. split; [intros s f (src & H)|intros r H; rewrite E2; auto]. exists src. rewrite E1. auto. Qed.
Lemma errs_ext g g' : ext g g' -> Forall (errOk g) (g_errors g) -> Forall (errOk g') (g_errors g).
Proof. intros E H. eapply Forall_impl; [|exact H]. intros e. apply errOk_ext; auto. Qed.
Lemma globOk_addError g e : globOk g -> errOk g e -> globOk (addError g e).
Proof.
  intros H He. assert (E : ext g (addError g e)) by (apply ext_same; auto). apply (globOk_more g); auto.
  cbn. apply Forall_app. split; [apply errs_ext; auto; apply H|]. constructor; [|constructor]. eapply errOk_ext; eauto.
Qed.
Lemma ilookup_In {A} i (x : A) l : ilookup i l = Some x -> In (i, x) l.
Proof.
  induction l as [|[j y] l IH]; cbn; [discriminate|]. destruct (i =? j)%nat eqn:E; auto. apply Nat.eqb_eq in E. subst. intros H. inversion H. auto.
Qed.
Lemma plookup_In {A} p (x : A) l : plookup p l = Some x -> exists p', In (p', x) l.
Proof.
  induction l as [|[j y] l IH]; cbn; [discriminate|]. destruct (ptrEq p j); [intros H; inversion H; subst; eauto|]. intros H. destruct (IH H) as (p' & I). eauto.
Qed.
Lemma dom_alloc run k nds h r : dom h r -> dom (alloc run k nds ++ h) r.
Proof.
  revert k. induction nds as [|nd nds IH]; intros k H; cbn; auto. unfold dom. cbn. destruct (ptrEq r (run, k)); eauto. apply IH. auto.
Qed.
Lemma derefs_dom h rs nds : derefs h rs = Some nds -> Forall (dom h) rs.
Proof.
  revert nds. induction rs as [|r rs IH]; intros nds H; [constructor|]. cbn in H. destruct (deref h r) eqn:E; [|discriminate]. destruct (derefs h rs); [|discriminate].
  constructor; [eexists; eauto|eauto].
Qed.
Lemma dom_derefs h rs : Forall (dom h) rs -> exists nds, derefs h rs = Some nds.
Proof. induction 1 as [|r rs (nd & Hr) _ (nds & H)]; [exists []; auto|]. exists (nd :: nds). cbn. rewrite Hr, H. auto. Qed.

Lemma frame_ok n g f g' t' : frameStep P n g f = Some (Go g' t') -> globOk g -> frameOk g f -> globOk g' /\ ext g g' /\ gorOk g' t'.
Proof.
  intros H G F. destruct f as [file out|file abs out|abs content out|i abs content out|i out|i tmp out|i out|i|i|i s|i rs]; cbn [frameStep frameOk] in *.
  - destruct (p_abs P file) as [abs|] eqn:Ea.
    + destruct (lookup abs (g_sources g)); inversion H; subst; (split; [auto|split; [apply ext_refl|]]); constructor; cbn; auto.
    + inversion H; subst. split; [apply globOk_addError; cbn; auto|split; [apply ext_same; auto|]]. constructor.
  - destruct (p_read P abs) as [content|] eqn:Er; inversion H; subst.
    + split; [auto|split; [apply ext_refl|]]. constructor. cbn. auto.
    + split; [apply globOk_addError; cbn; auto|split; [apply ext_same; auto|]]. constructor.
  - inversion H; subst. assert (E : ext g (mkG ((abs, g_next g) :: g_sources g) (g_next g) (g_byIndex g) (g_asts g) (g_outputs g) (g_errors g) (g_srcs g) (g_heap g) (g_runs g))) by (apply ext_same; auto).
    split; [|split; [exact E|constructor; cbn; auto]]. apply (globOk_more g); auto. cbn. apply errs_ext; auto. apply G.
  - inversion H; subst. clear H. match goal with |- globOk ?x /\ _ => set (g1 := x) end.
    assert (E : ext g g1).
    { split; [|auto]. intros s f (src & X1 & X2). exists src. cbn [g_srcs g1]. rewrite nth_error_app1; auto. apply nth_error_Some. congruence. }
    assert (N : srcIs g1 (length (g_srcs g)) abs).
    { exists (mkSource abs content []). cbn [g_srcs g1]. rewrite nth_error_app2, Nat.sub_diag by lia. destruct F. auto. }
    split; [|split; [exact E|constructor; cbn; auto]]. constructor.
    + intros s src X. cbn [g_srcs g1] in X. destruct (Nat.lt_ge_cases s (length (g_srcs g))) as [L|L].
      * rewrite nth_error_app1 in X by auto. eapply hasSrc_ext; [exact E|]. eapply go_srcs; eauto.
      * assert (s = length (g_srcs g)).
        { assert (s < length (g_srcs g ++ [mkSource abs content []]))%nat by (apply nth_error_Some; congruence). rewrite app_length in *. cbn in *. lia. }
        subst s. exists abs. auto.
    + intros j s X. cbn [g_byIndex g1 ilookup] in X. destruct (j =? i)%nat; [inversion X; subst; exists abs; auto|]. eapply hasSrc_ext; [exact E|]. eapply go_by; eauto.
    + intros j rs X. eapply hasRefs_ext; [exact E|]. eapply go_asts; eauto.
    + cbn. apply errs_ext; auto. apply G.
  - inversion H; subst. split; [auto|split; [apply ext_refl|]]. constructor; cbn; auto.
  - inversion H; subst. assert (E : ext g (mkG (g_sources g) (S tmp) (g_byIndex g) (g_asts g) (g_outputs g) (g_errors g) (g_srcs g) (g_heap g) (g_runs g))) by (apply ext_same; auto).
    split; [|split; [exact E|constructor; cbn; auto]]. apply (globOk_more g); auto. cbn. apply errs_ext; auto. apply G.
  - inversion H; subst. destruct out; [|split; [auto|split; [apply ext_refl|constructor; cbn; auto]]].
    match goal with |- globOk ?x /\ _ => set (g1 := x) end. assert (E : ext g g1) by (apply ext_same; auto).
    split; [|split; [exact E|constructor; cbn; auto]]. apply (globOk_more g); auto. cbn. apply errs_ext; auto. apply G.
  - destruct (ilookup i (g_asts g)) as [rs|] eqn:Ei; inversion H; subst; (split; [auto|split; [apply ext_refl|]]); constructor; cbn; auto. eapply go_asts; eauto.
  - destruct (ilookup i (g_byIndex g)) as [s|] eqn:Ei; inversion H; subst. split; [auto|split; [apply ext_refl|]]. constructor. cbn. eapply go_by; eauto.
  - destruct F as (f & src & F1 & F2 & F3 & F4). rewrite F1 in H. 
    assert (E0 : forall g1 ls, g_srcs g1 = upd s (mkSource (src_path src) (src_content src) ls) (g_srcs g) -> (forall r, dom (g_heap g) r -> dom (g_heap g1) r) ->
      ext g g1 /\ (forall s' src', nth_error (g_srcs g1) s' = Some src' -> exists src0, nth_error (g_srcs g) s' = Some src0)).
    { intros g1 ls E1 E2. split; [split; auto|].
      - intros s' f' (src' & X1 & X2 & X3 & X4). unfold srcIs. rewrite E1, nth_upd, X1. destruct (s' =? s)%nat eqn:Es; [|eexists; eauto].
        apply Nat.eqb_eq in Es. subst s'. cbn. eexists. split; [reflexivity|]. cbn. rewrite F1 in X1. inversion X1; subst src'. auto.
      - intros s' src' X. rewrite E1, nth_upd in X. destruct (s' =? s)%nat; eauto. destruct (nth_error (g_srcs g) s'); [eauto|discriminate]. }
    destruct (parse (g_runs g) n (src_content src)) as [ss lines|sp msg lines| |] eqn:Ep; try discriminate; inversion H; subst g' t'; clear H.
    + match goal with |- globOk ?x /\ _ => set (g1 := x) end.
      destruct (E0 g1 (src_lines src ++ lines)) as (E & Em); [reflexivity|intros r Hr; apply dom_alloc; auto|].
      split; [|split; [exact E|]].
      * constructor.
        -- intros s' src' X. destruct (Em _ _ X) as (src0 & Y). eapply hasSrc_ext; [exact E|]. eapply go_srcs; eauto.
        -- intros j s' X. eapply hasSrc_ext; [exact E|]. eapply go_by; eauto.
        -- intros j rs X. eapply hasRefs_ext; [exact E|]. eapply go_asts; eauto.
        -- cbn. apply errs_ext; auto. apply G.
      * apply okLoop with (f := f); cbn [length]; auto; try lia; try (intros ? ? []); try (cbn; intros; tauto).
        -- apply E. exists src. auto.
        -- eapply derefs_dom. apply derefs_alloc.
        -- intros spec I. exists (src_content src), (g_runs g), n, ss, lines. auto.
    + match goal with |- globOk (addError ?x _) /\ _ => set (g1 := x) end.
      destruct (E0 g1 (src_lines src ++ lines)) as (E & Em); [reflexivity|auto|].
      split; [|split; [|constructor]].
      * apply globOk_addError.
        -- constructor.
          ++ intros s' src' X. destruct (Em _ _ X) as (src0 & Y). eapply hasSrc_ext; [exact E|]. eapply go_srcs; eauto.
          ++ intros j s' X. eapply hasSrc_ext; [exact E|]. eapply go_by; eauto.
          ++ intros j rs X. eapply hasRefs_ext; [exact E|]. eapply go_asts; eauto.
          ++ cbn. apply errs_ext; auto. apply G.
        -- cbn. eapply hasSrc_ext; [exact E|]. exists f, src. auto.
      * destruct E as (X1 & X2). split; auto.
  - inversion H; subst. match goal with |- globOk ?x /\ _ => set (g1 := x) end. assert (E : ext g g1) by (apply ext_same; auto).
    split; [|split; [exact E|constructor; auto]]. destruct G as [G1 G2 G3 G4]. constructor.
    + intros s src X. eapply hasSrc_ext; [exact E|]. eauto.
    + intros j s X. eapply hasSrc_ext; [exact E|]. eauto.
    + intros j rs' X. cbn [g_asts g1 ilookup] in X. destruct (j =? i)%nat; [inversion X; subst; auto|]. eapply hasRefs_ext; [exact E|]. eauto.
    + cbn. apply errs_ext; auto.
Qed.
Lemma transform_ok n g i s f rs repl g' t' : transformStep P n g i s rs repl = Some (Go g' t') -> globOk g -> srcIs g s f -> hasRefs g rs ->
  (forall p rs', In (p, rs') repl -> hasRefs g rs') -> globOk g' /\ ext g g' /\ gorOk g' t'.
Proof.
  unfold transformStep. intros H G Hs Hr Hp. destruct (transformRefs _ _ n rs (g_heap g) _) as [[rs' h] t| |] eqn:E; inversion H; subst; clear H.
  destruct (refs_dom _ _ _ _ _ _ _ _ _ E) as (D1 & D2); auto.
  { intros m p rs0 X1 X2. destruct (o_imports (p_opts P)); inversion X1; subst. apply plookup_In in X2 as (p' & I). eapply Hp; eauto. }
  match goal with |- globOk ?x /\ _ => set (g1 := x) end. assert (X : ext g g1) by (split; auto).
  split; [|split; [exact X|constructor; exact D1]]. apply (globOk_more g); auto. cbn. apply Forall_app. split; [apply errs_ext; auto; apply G|].
  apply Forall_forall. intros e I. apply in_map_iff in I as (r & <- & _). cbn. eapply hasSrc_ext; [exact X|]. exists f. auto.
Qed.
Lemma ext_trans g1 g2 g3 : ext g1 g2 -> ext g2 g3 -> ext g1 g3.
Proof. intros [A1 A2] [B1 B2]. split; auto. Qed.
Lemma current_In {A} k (l : list A) x : current k l = Some x -> In x l.
Proof. destruct k; [discriminate|]. cbn. apply nth_error_In. Qed.
Lemma edge_involved f g : involved P f -> edge P f g -> involved P g.
Proof.
  intros (e & a & H1 & H2 & [->|H3]) E; exists e, a; (split; [auto|split; [auto|]]); right; [apply leadsEdge; auto|eapply leadsStep; eauto].
Qed.
Lemma gstep_ok g t g' t' : gstep P g t g' t' -> globOk g -> gorOk g t -> globOk g' /\ ext g g' /\ gorOk g' t'.
Proof.
  induction 1 as [n g f g' t' H|g i s rs imps k repl kids L|n g i s rs imps k repl kids g' t' L D H|g i s rs imps k repl a b spec at_ src rel C S R|g i s rs imps k repl a b spec at_ src C S R
    |g i s rs imps k repl a b ret spec at_ C|g i s rs imps k repl a b kid g' kid' H IH]; intros G T.
  - inversion T; subst. eapply frame_ok; eauto.
  - inversion T as [| |? ? f ? ? ? ? ? H1 H2 H3 H4 H5 H6 H7| | |]; subst. split; [auto|split; [apply ext_refl|]].
    apply okLoop with (f := f); auto; [rewrite app_length; cbn; lia|]. apply Forall_app. split; auto. constructor; auto. constructor.
  - inversion T; subst. eapply transform_ok; eauto.
  - inversion T as [| |? ? f ? ? ? ? ? H1 H2 H3 H4 H5 H6 H7| | |]; subst. split; [auto|split; [apply ext_refl|]].
    apply okLoop with (f := f); auto; [rewrite !app_length; cbn; auto|]. apply Forall_mid in H7 as (X1 & _ & X2). apply Forall_mid. split; [auto|split; [|auto]].
    constructor. cbn. intros abs Ha. destruct H1 as (src' & Y1 & Y2 & Y3 & Y4). rewrite S in Y1. inversion Y1; subst src'.
    eapply edge_involved; [exact Y4|]. exists spec, rel. rewrite <- Y2. split; [|auto]. rewrite Y2. apply H3. apply current_In in C. apply (in_map fst) in C. exact C.
  - inversion T as [| |? ? f ? ? ? ? ? H1 H2 H3 H4 H5 H6 H7| | |]; subst. split; [apply globOk_addError; cbn; auto|split; [apply ext_same; auto|]].
    apply (gorOk_ext g); [apply ext_same; auto|].
    apply okLoop with (f := f); auto; [rewrite !app_length; cbn; auto|]. apply Forall_mid in H7 as (X1 & _ & X2). apply Forall_mid. split; [auto|split; [constructor|auto]].
  - inversion T as [| |? ? f ? ? ? ? ? H1 H2 H3 H4 H5 H6 H7| | |]; subst. split; [auto|split; [apply ext_refl|]].
    apply Forall_mid in H7 as (X1 & X0 & X2).
    apply okLoop with (f := f); auto; [|rewrite !app_length; cbn; auto|apply Forall_mid; split; [auto|split; [constructor|auto]]].
    intros p rs' I. destruct ret as [rs0|]; [|eauto]. destruct I as [I|I]; [|eauto]. inversion I; subst. inversion X0; auto.
  - inversion T as [| |? ? f ? ? ? ? ? H1 H2 H3 H4 H5 H6 H7| | |]; subst. apply Forall_mid in H7 as (X1 & X0 & X2).
    destruct (IH G X0) as (G' & E & K'). split; [auto|split; [auto|]].
    assert (T' : gorOk g' (InLoop i s rs imps (length (a ++ kid :: b)) repl (a ++ kid :: b))) by (apply (gorOk_ext g); auto).
    inversion T' as [| |? ? f' ? ? ? ? ? H1' H2' H3' H4' H5' H6' H7'| | |]; subst. apply Forall_mid in H7' as (Z1 & _ & Z2).
    apply okLoop with (f := f'); auto; [rewrite !app_length; cbn; auto|]. apply Forall_mid. auto.
Qed.

Definition stateOk (s : glob * mstate) : Prop :=
  globOk (fst s) /\
  match snd s with
  | Running k kids => length kids = k /\ (k <= length (p_entries P))%nat /\ Forall (gorOk (fst s)) kids
  | _ => True
  end.
Lemma printOne_ok g i out : globOk g -> globOk (fst (printOne g i out)).
Proof.
  intros G. unfold printOne. destruct (ilookup i (g_byIndex g)) as [s|]; [|auto]. destruct (ilookup i (g_asts g)) as [rs|]; [|auto].
  destruct (nth_error (g_srcs g) s) as [src|]; [|auto]. destruct (derefs (g_heap g) rs); [|auto]. destruct (print _ _); auto. apply globOk_addError; cbn; auto.
Qed.
Lemma mstep_ok s s' : mstep P s s' -> stateOk s -> stateOk s'.
Proof.
  unfold stateOk. intros H. inversion H; subst; cbn [fst snd]; intros (G & S); try (split; [exact G|]); try exact I.
  - destruct S as (S1 & S2 & S3). rewrite app_length. cbn. split; [lia|split; [lia|]]. apply Forall_app. split; auto. constructor; auto. constructor.
  - destruct S as (S1 & S2 & S3). rewrite app_length in *. cbn in *. split; [auto|split; [auto|]]. apply Forall_mid in S3 as (X1 & _ & X2). apply Forall_mid.
    split; [auto|split; [|auto]]. constructor. cbn. intros abs Ha. exists e, abs. split; [|auto]. match goal with C : current _ _ = Some e |- _ => apply current_In in C; auto end.
  - destruct S as (S1 & S2 & S3). rewrite app_length in *. cbn in *. split; [auto|split; [auto|]]. apply Forall_mid in S3 as (X1 & _ & X2). apply Forall_mid.
    split; [auto|split; [constructor|auto]].
  - destruct S as (S1 & S2 & S3). apply Forall_mid in S3 as (X1 & X0 & X2). match goal with K : gstep _ _ _ _ _ |- _ => destruct (gstep_ok _ _ _ _ K G X0) as (G' & E & K') end.
    split; [auto|]. rewrite app_length in *. cbn in *. split; [auto|split; [auto|]]. apply Forall_mid.
    split; [eapply Forall_impl; [|exact X1]; intros; eapply gorOk_ext; eauto|split; [auto|eapply Forall_impl; [|exact X2]; intros; eapply gorOk_ext; eauto]].
  - split; [apply printOne_ok; auto|exact I].
Qed.
Lemma reach_ok s : reach P s -> stateOk s.
Proof.
  induction 1 as [|s s' _ IH H]; [|eapply mstep_ok; [apply step_mstep|]; eauto].
  split; [|cbn; split; [auto|split; [lia|constructor]]]. constructor; cbn; try (intros; destruct s; discriminate); try discriminate. constructor.
Qed.
End WithProject.
