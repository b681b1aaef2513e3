(** Proofs on where the errors of a whole compilation point. *)
From Verif Require Import Bytes Utf8 Source Lexer LexSpec Ast AstInd Walk WalkSpec WalkProofs SourceProofs SpanSpec SpanProofs SpanReports Parser ParserProofs ParseTable Printer
  Transformer Resolver Compile CompileSpec CompileSteps CompileCalm CompileRefs Plugin.

Lemma ndOk_mono (Q Q' : span -> Prop) : (forall sp, Q sp -> Q' sp) -> forall nd, ndOk Q nd -> ndOk Q' nd.
Proof. intros H nd. apply under_mono. intros n Hn sp L. apply H, Hn, L. Qed.
Lemma well_under content n : well content n -> under (placed content) n.
Proof. revert n. fix IH 2. intros n [n0 P K]. constructor; auto. clear P. induction K; constructor; auto. Qed.
Lemma placed_at content n : placed content n -> atQ (inFile content) n.
Proof. intros P sp L. unfold placed in P. rewrite L in P. apply P. Qed.

(** * Transform on shared nodes *)
Section Shared.
Context {FO : FloatOps}.
Variable m : list sref.                  (* the source of each call of Parse *)
Variable Qs : sref -> span -> Prop.
Variable inl : bool.
Hypothesis Hinl : inl = true -> forall s s' sp, Qs s sp -> Qs s' sp.
Definition from (s : sref) (r : nref) : Prop := inl = true \/ nth_error m (fst r) = Some s.
Definition hOk (h : heap) : Prop := forall r nd, deref h r = Some nd -> exists s, nth_error m (fst r) = Some s /\ ndOk (Qs s) nd.
Lemma hOk_get h s r nd : hOk h -> from s r -> deref h r = Some nd -> ndOk (Qs s) nd.
Proof.
  intros H F D. destruct (H _ _ D) as (s' & E & N). destruct F as [F|F]; [|congruence]. eapply ndOk_mono; [|exact N]. intros sp. apply Hinl. exact F.
Qed.
Lemma hOk_set h s r nd nd' : hOk h -> from s r -> deref h r = Some nd -> ndOk (Qs s) nd' -> hOk (hset h r nd').
Proof.
  intros H F D N r0 nd0. rewrite deref_hset. destruct (ptrEq r0 r) eqn:E; [|apply H]. apply ptrEq_eq in E. subst. intros [= <-].
  destruct (H _ _ D) as (s' & E & _). exists s'. split; [exact E|]. destruct F as [F|F]; [|congruence]. eapply ndOk_mono; [|exact N]. intros sp. apply Hinl. exact F.
Qed.
Variable s : sref.
Hypothesis Qz : Qs s zsp.
Variable o : topts.
Lemma refs_within repl n : (forall x, repl = Some x -> inl = true) ->
  forall rs h, hOk h -> Forall (from s) rs -> keeps (Qs s) (transformRefs o repl n rs h) (fun rh => hOk (snd rh)).
Proof.
  intros HR. induction n as [|n IH]; [intros; apply k_timeout|]. cbn [transformRefs].
  induction rs as [|r rest IHr]; intros h H F; [apply k_ret; exact H|]. inversion F as [|x l F1 F2]; subst.
  eapply k_bind with (R := fun rh => hOk (snd rh)); [|intros a Ha; eapply k_bind; [apply IHr; [exact Ha|exact F2]|]; intros b Hb; apply k_ret; exact Hb].
  destruct (deref h r) as [nd|] eqn:D; [|apply k_crash]. pose proof (hOk_get h s r nd H F1 D) as N. destruct nd as [q|a].
  - eapply k_bind; [apply k_rule; [exact Qz|exact N]|]. intros [q'|] Hq; apply k_ret; [|exact H]. cbn. eapply hOk_set; eauto. apply Hq. reflexivity.
  - pose proof N as N'. eapply uQ_kids in N' as [Hs K]; [|reflexivity|reflexivity]. apply Forall_app in K as [Kp Kb]. apply map_in in Kp.
    destruct (beq (ar_name a) (B "import")).
    + destruct repl as [x|]; [|apply k_ret; exact H]. destruct (plookup (atRuleId a) x) as [im|]; [|apply k_ret; exact H].
      eapply k_bind with (R := fun _ => True); [destruct (1 <? _)%nat; [apply k_report; exact Hs|apply k_ret; exact Logic.I]|]. intros _ _.
      apply IH; auto. apply Forall_forall. intros r0 _. left. exact (HR x eq_refl).
    + destruct (beq (ar_name a) (B "custom-media")).
      * eapply k_bind; [apply k_custom; exact Kp|]. intros _ _. apply k_ret. exact H.
      * destruct (beq (ar_name a) (B "media")); [|apply k_ret; exact H].
        destruct (ar_preludes a) as [|[| |[lsp qs]| |] pres] eqn:Ep; try apply k_crash. inversion Kp as [|x l Kq Kr]; subst.
        eapply uQ_kids in Kq as [Hl Kq]; [|reflexivity|reflexivity]. cbn [fst snd] in *. apply map_in in Kq.
        eapply k_bind; [apply k_mqs; [exact Qz|exact Kq]|]. intros qs' Hq. apply k_ret. cbn. eapply hOk_set; eauto.
        eapply uQ_kids; [reflexivity|reflexivity|]. cbn. split; [exact Hs|]. constructor.
        -- eapply uQ_kids; [reflexivity|reflexivity|]. split; [exact Hl|]. cbn [snd]. apply map_ok. exact Hq.
        -- apply Forall_app. split; [|exact Kb]. apply map_ok. exact Kr.
Qed.
End Shared.

(** * Every execution *)
Section WithProject.
Context {U : UnicodeDigits} {FO : FloatOps}.
Variable P : project.
Definition inlining : bool := match o_imports (p_opts P) with ImportInline => true | _ => false end.
(** The span is in the file, and the line table has begun. *)
Definition good (g : glob) (s : sref) (sp : span) : Prop :=
  exists src, nth_error (g_srcs g) s = Some src /\ hd_error (src_lines src) = Some 0%nat /\ inFile (src_content src) sp.
Definition Qs (g : glob) (s : sref) (sp : span) : Prop := if inlining then exists s', good g s' sp else good g s sp.
Definition errIn (g : glob) (e : cerror) : Prop :=
  match e with EParse s sp _ => good g s sp | ETransform s r => good g s zsp /\ Qs g s (rp_sp r) | _ => True end.
Record gIn (m : list sref) (g : glob) : Prop := {
  gi_runs : length m = g_runs g;
  gi_heap : hOk m (Qs g) (g_heap g);
  gi_m : forall s, In s m -> good g s zsp;
  gi_lines : forall s src, nth_error (g_srcs g) s = Some src -> src_lines src = [] \/ hd_error (src_lines src) = Some 0%nat;
  gi_errors : Forall (errIn g) (g_errors g) }.
Inductive tIn (m : list sref) : gor -> Prop :=
| inLoop i s rs imps k repl kids : In s m -> Forall (from m inlining s) rs -> Forall (tIn m) kids -> tIn m (InLoop i s rs imps k repl kids)
| inOther t : (forall i s rs imps k repl kids, t <> InLoop i s rs imps k repl kids) -> tIn m t.

Definition srcExt (g g' : glob) : Prop := forall s src, nth_error (g_srcs g) s = Some src ->
  exists src' more, nth_error (g_srcs g') s = Some src' /\ src_content src' = src_content src /\ src_lines src' = src_lines src ++ more.
Lemma srcExt_same g g' : g_srcs g' = g_srcs g -> srcExt g g'.
Proof. intros E s src H. exists src, []. rewrite E, app_nil_r. auto. Qed.
Lemma good_ext g g' s sp : srcExt g g' -> good g s sp -> good g' s sp.
Proof.
  intros E (src & H1 & H2 & H3). destruct (E _ _ H1) as (src' & more & X1 & X2 & X3). exists src'. rewrite X2, X3. split; [exact X1|]. split; [|exact H3].
  destruct (src_lines src); [discriminate|exact H2].
Qed.
Lemma Qs_ext g g' s sp : srcExt g g' -> Qs g s sp -> Qs g' s sp.
Proof. intros E. unfold Qs. destruct inlining; [intros (s' & H); exists s'|intros H]; eapply good_ext; eauto. Qed.
Lemma Qs_any g : inlining = true -> forall s s' sp, Qs g s sp -> Qs g s' sp.
Proof. intros E s s' sp. unfold Qs. rewrite E. auto. Qed.
Lemma Qs_good g s sp : good g s sp -> Qs g s sp.
Proof. unfold Qs. destruct inlining; eauto. Qed.
Lemma errIn_ext g g' e : srcExt g g' -> errIn g e -> errIn g' e.
Proof. intros E. destruct e; cbn; auto; [apply good_ext; auto|]. intros [H1 H2]. split; [eapply good_ext|eapply Qs_ext]; eauto. Qed.
Lemma errsIn_ext g g' es : srcExt g g' -> Forall (errIn g) es -> Forall (errIn g') es.
Proof. intros E. apply Forall_impl. intros e. apply errIn_ext. exact E. Qed.
Lemma heap_ext m more g g' h : srcExt g g' -> hOk m (Qs g) h -> hOk (m ++ more) (Qs g') h.
Proof.
  intros E H r nd D. destruct (H _ _ D) as (s & X & N). exists s. split; [rewrite nth_error_app1; auto; apply nth_error_Some; congruence|].
  eapply ndOk_mono; [|exact N]. intros sp. apply Qs_ext. exact E.
Qed.
Lemma heap_same m g g' h : srcExt g g' -> hOk m (Qs g) h -> hOk m (Qs g') h.
Proof. intros E H. rewrite <- (app_nil_r m). eapply heap_ext; eauto. Qed.
Lemma tIn_ext m more : forall t, tIn m t -> tIn (m ++ more) t.
Proof.
  fix IH 2. intros t [i s rs imps k repl kids H1 H2 H3|t0 H]; [|constructor 2; exact H]. constructor.
  - apply in_or_app. auto.
  - eapply Forall_impl; [|exact H2]. intros r [F|F]; [left; exact F|right]. rewrite nth_error_app1; auto. apply nth_error_Some. congruence.
  - clear H1 H2. induction H3; constructor; auto.
Qed.
(** Nothing that matters changes, up to more errors. *)
Lemma gIn_same m g g' es : g_srcs g' = g_srcs g -> g_heap g' = g_heap g -> g_runs g' = g_runs g -> g_errors g' = g_errors g ++ es ->
  Forall (errIn g) es -> gIn m g -> gIn m g'.
Proof.
  intros E1 E2 E3 E4 H [G1 G2 G3 G4 G5]. assert (X : srcExt g g') by (apply srcExt_same; auto). constructor.
  - congruence.
  - rewrite E2. eapply heap_same; eauto.
  - intros s I. eapply good_ext; eauto.
  - rewrite E1. exact G4.
  - rewrite E4. apply Forall_app. split; eapply errsIn_ext; eauto.
Qed.
Ltac same g := apply (gIn_same _ g _ []); [reflexivity|reflexivity|reflexivity|cbn; rewrite ?app_nil_r; reflexivity|constructor|].
Ltac other := constructor 2; intros; discriminate.

Lemma deref_alloc run nds h r nd : forall k, deref (alloc run k nds ++ h) r = Some nd -> fst r = run /\ In nd nds \/ deref h r = Some nd.
Proof.
  induction nds as [|x nds IH]; intros k; cbn; [auto|]. destruct (ptrEq r (run, k)) eqn:E.
  - apply ptrEq_eq in E. subst. intros [= <-]. auto.
  - intros H. destruct (IH _ H) as [[X1 X2]|X]; auto.
Qed.
Lemma alloc_from run nds : forall k, Forall (fun r => fst r = run) (map fst (alloc run k nds)).
Proof. induction nds; intros k; cbn; constructor; auto. Qed.

Lemma frame_in m n g f g' t' : frameStep P n g f = Some (Go g' t') -> gIn m g -> exists more, gIn (m ++ more) g' /\ tIn (m ++ more) t'.
Proof.
  intros H G. assert (Hz : exists more, more = @nil sref) by eauto. destruct f; cbn [frameStep] in H.
  - exists []. rewrite app_nil_r. destruct (p_abs P file) as [abs|]; [|inversion H; subst; split; [|other]; apply (gIn_same _ g _ [EAbs file]); auto; repeat constructor].
    destruct (lookup abs (g_sources g)); inversion H; subst; split; auto; other.
  - exists []. rewrite app_nil_r. destruct (p_read P abs) as [content|]; inversion H; subst; (split; [|other]); auto. apply (gIn_same _ g _ [ERead file]); auto; repeat constructor.
  - exists []. rewrite app_nil_r. inversion H; subst. split; [same g; exact G|other].
  - exists []. rewrite app_nil_r. inversion H; subst. split; [|other]. destruct G as [G1 G2 G3 G4 G5]. match goal with |- gIn _ ?x => set (g1 := x) end.
    assert (E : srcExt g g1). { intros s src X. exists src, []. rewrite app_nil_r. cbn. rewrite nth_error_app1; auto. apply nth_error_Some. congruence. }
    constructor; auto.
    + cbn. eapply heap_same; eauto.
    + intros s I. eapply good_ext; eauto.
    + intros s src. cbn. intros X. destruct (Nat.lt_ge_cases s (length (g_srcs g))) as [L|L]; [rewrite nth_error_app1 in X by exact L; eauto|].
      rewrite nth_error_app2 in X by exact L. destruct (s - length (g_srcs g))%nat as [|[|]]; inversion X; subst. auto.
    + cbn. eapply errsIn_ext; eauto.
  - exists []. rewrite app_nil_r. inversion H; subst. split; auto. other.
  - exists []. rewrite app_nil_r. inversion H; subst. split; [same g; exact G|other].
  - exists []. rewrite app_nil_r. inversion H; subst. split; [|other]. destruct out; auto. same g. exact G.
  - exists []. rewrite app_nil_r. destruct (ilookup i (g_asts g)); inversion H; subst; split; auto; other.
  - exists []. rewrite app_nil_r. destruct (ilookup i (g_byIndex g)); inversion H; subst; split; auto; other.
  - destruct (nth_error (g_srcs g) s) as [src|] eqn:Es; [|discriminate]. destruct G as [G1 G2 G3 G4 G5].
    pose proof (parse_table (src_content src) (g_runs g) n) as T. pose proof (C11_lemma (g_runs g) (src_content src) n) as [_ C11].
    assert (X : forall g1 lines, g_srcs g1 = upd s (mkSource (src_path src) (src_content src) (src_lines src ++ lines)) (g_srcs g) -> hd_error lines = Some 0%nat ->
      srcExt g g1 /\ (forall sp, inFile (src_content src) sp -> good g1 s sp) /\
      (forall s0 src0, nth_error (g_srcs g1) s0 = Some src0 -> src_lines src0 = [] \/ hd_error (src_lines src0) = Some 0%nat)).
    { intros g1 lines E1 Hl. assert (Hh : hd_error (src_lines src ++ lines) = Some 0%nat).
      { destruct (G4 _ _ Es) as [E|E]; [rewrite E; exact Hl|]. destruct (src_lines src); [discriminate|exact E]. }
      split; [|split].
      - intros s0 src0 E0. rewrite E1, nth_upd. destruct (s0 =? s)%nat eqn:Eq.
        + apply Nat.eqb_eq in Eq. subst s0. rewrite Es in *. injection E0 as <-. cbn. do 2 eexists. split; [reflexivity|]. split; reflexivity.
        + exists src0, []. rewrite app_nil_r. auto.
      - intros sp I. exists (mkSource (src_path src) (src_content src) (src_lines src ++ lines)). split; [|auto].
        rewrite E1, nth_upd, Nat.eqb_refl, Es. reflexivity.
      - intros s0 src0. rewrite E1, nth_upd. destruct (s0 =? s)%nat eqn:Eq; [|apply G4]. apply Nat.eqb_eq in Eq. subst s0. rewrite Es. intros [= <-]. right. exact Hh. }
    assert (Zi : inFile (src_content src) zsp) by (split; cbn; lia).
    destruct (parse (g_runs g) n (src_content src)) as [ss lines|sp msg lines| |] eqn:Ep; inversion H; subst; clear H.
    + destruct T as [T _]. match goal with |- exists more, gIn _ ?x /\ _ => set (g1 := x) end. destruct (X g1 lines eq_refl T) as (E & Gd & L). exists [s].
      assert (N : Forall (ndOk (inFile (src_content src))) (ss_nodes ss)).
      { pose proof (C51_tree_well _ _ _ _ _ Ep) as W. apply well_under in W. apply (under_mono _ _ (placed_at _)) in W. apply uQ_inv in W as [_ W]. cbn [kids] in W.
        apply map_in in W. exact W. }
      split; [constructor|].
      * rewrite app_length. cbn. lia.
      * intros r nd D. cbn [g_heap g1] in D. apply deref_alloc in D as [[D1 D2]|D]; [|exact (heap_ext m [s] g g1 _ E G2 r nd D)].
        exists s. split; [rewrite D1, <- G1, nth_error_app2, Nat.sub_diag; auto|]. rewrite Forall_forall in N. eapply ndOk_mono; [|apply N; exact D2].
        intros sp I. apply Qs_good, Gd, I.
      * intros s0 I. apply in_app_iff in I as [I|[<-|[]]]; [|apply Gd; exact Zi]. eapply good_ext; [exact E|]. auto.
      * exact L.
      * cbn. eapply errsIn_ext; [exact E|]. exact G5.
      * constructor; [apply in_or_app; right; left; reflexivity| |constructor].
        eapply Forall_impl; [|apply alloc_from]. intros r Er. right. cbn beta in Er. rewrite Er, <- G1, nth_error_app2, Nat.sub_diag; auto.
    + destruct T as [T _]. match goal with |- exists more, gIn _ ?x /\ _ => set (g1 := x) end. destruct (X g1 lines eq_refl T) as (E & Gd & L). exists [s].
      split; [constructor|other].
      * rewrite app_length. cbn. lia.
      * cbn. apply (heap_ext m [s] g g1); auto.
      * intros s0 I. apply in_app_iff in I as [I|[<-|[]]]; [|apply Gd; exact Zi]. eapply good_ext; [exact E|]. auto.
      * exact L.
      * cbn. apply Forall_app. split; [eapply errsIn_ext; [exact E|exact G5]|]. constructor; [|constructor]. cbn. apply Gd.
        specialize (C11 _ _ _ eq_refl). destruct C11. split; auto.
  - exists []. rewrite app_nil_r. inversion H; subst. split; [same g; exact G|other].
Qed.
Lemma transform_in m n g i s rs repl g' t' : transformStep P n g i s rs repl = Some (Go g' t') -> gIn m g -> In s m -> Forall (from m inlining s) rs ->
  gIn m g' /\ tIn m t'.
Proof.
  unfold transformStep. intros H [G1 G2 G3 G4 G5] Is F.
  set (r0 := match o_imports (p_opts P) with ImportInline => Some repl | _ => None end) in H.
  assert (HR : forall x, r0 = Some x -> inlining = true). { unfold r0, inlining. destruct (o_imports (p_opts P)); congruence. }
  pose proof (refs_within m (Qs g) inlining (Qs_any g) s (Qs_good _ _ _ (G3 s Is)) (p_opts P) r0 n HR rs (g_heap g) G2 F) as K.
  match type of H with match transformRefs _ _ _ _ _ ?t with _ => _ end = _ => specialize (K t); assert (T : tOk (Qs g s) t) end.
  { split; [|split]; cbn; [destruct (o_props (p_opts P)); [intros x [= <-]; constructor|discriminate]|destruct (o_cmedia (p_opts P)); [intros x [= <-]; constructor|discriminate]|constructor]. }
  specialize (K T). destruct (transformRefs _ r0 n rs (g_heap g) _) as [[rs' h] t| |]; inversion H; subst; clear H. destruct K as [[_ [_ K1]] K2]. cbn [snd] in K2.
  split; [|other]. match goal with |- gIn _ ?x => set (g1 := x) end. assert (E : srcExt g g1) by (apply srcExt_same; auto). constructor; auto.
  - cbn. apply Forall_app. split; [eapply errsIn_ext; [exact E|exact G5]|]. apply Forall_map. eapply Forall_impl; [|exact K1]. intros r Hr. cbn.
    split; [eapply good_ext; eauto|eapply Qs_ext; eauto].
Qed.
Lemma gstep_in g t g' t' : gstep P g t g' t' -> forall m, gIn m g -> tIn m t -> exists more, gIn (m ++ more) g' /\ tIn (m ++ more) t'.
Proof.
  induction 1 as [n g f g' t' H|g i s rs imps k repl kids L|n g i s rs imps k repl kids g' t' L D H|g i s rs imps k repl a b spec at_ src rel C S R|g i s rs imps k repl a b spec at_ src C S R
    |g i s rs imps k repl a b ret spec at_ C|g i s rs imps k repl a b kid g' kid' H IH]; intros m G T.
  - eapply frame_in; eauto.
  - exists []. rewrite app_nil_r. split; auto. inversion T as [? ? ? ? ? ? ? H1 H2 H3|? X]; subst; [|edestruct X; reflexivity]. constructor; auto.
    apply Forall_app. split; auto. constructor; [other|constructor].
  - exists []. rewrite app_nil_r. inversion T as [? ? ? ? ? ? ? H1 H2 H3|? X]; subst; [|edestruct X; reflexivity]. eapply transform_in; eauto.
  - exists []. rewrite app_nil_r. split; auto. inversion T as [? ? ? ? ? ? ? H1 H2 H3|? X]; subst; [|edestruct X; reflexivity]. constructor; auto.
    apply Forall_mid in H3 as (X1 & _ & X2). apply Forall_mid. split; [auto|split; [other|auto]].
  - exists []. rewrite app_nil_r. split; [apply (gIn_same _ g _ [EResolve spec]); auto; repeat constructor|]. inversion T as [? ? ? ? ? ? ? H1 H2 H3|? X]; subst; [|edestruct X; reflexivity]. constructor; auto.
    apply Forall_mid in H3 as (X1 & _ & X2). apply Forall_mid. split; [auto|split; [other|auto]].
  - exists []. rewrite app_nil_r. split; auto. inversion T as [? ? ? ? ? ? ? H1 H2 H3|? X]; subst; [|edestruct X; reflexivity]. constructor; auto.
    apply Forall_mid in H3 as (X1 & _ & X2). apply Forall_mid. split; [auto|split; [other|auto]].
  - inversion T as [? ? ? ? ? ? ? H1 H2 H3|? X]; subst; [|edestruct X; reflexivity]. pose proof H3 as H3'. apply Forall_mid in H3 as (X1 & X0 & X2).
    destruct (IH m G X0) as (more & G' & K'). exists more. split; auto. pose proof (tIn_ext m more _ T) as T'. inversion T' as [? ? ? ? ? ? ? H1' H2' H4|? X]; subst; [|edestruct X; reflexivity].
    apply Forall_mid in H4 as (Y1 & _ & Y2). constructor; auto. apply Forall_mid. auto.
Qed.
Definition stateIn (m : list sref) (s : glob * mstate) : Prop :=
  gIn m (fst s) /\ match snd s with Running _ kids => Forall (tIn m) kids | _ => True end.
Lemma printOne_in m g i out : gIn m g -> gIn m (fst (printOne g i out)).
Proof.
  intros G. unfold printOne. destruct (ilookup i (g_byIndex g)) as [s|]; [|auto]. destruct (ilookup i (g_asts g)) as [rs|]; [|auto].
  destruct (nth_error (g_srcs g) s) as [src|]; [|auto]. destruct (derefs (g_heap g) rs); [|auto]. destruct (print _ _); auto.
  apply (gIn_same _ g _ [EPrint (src_path src)]); auto. repeat constructor.
Qed.
Lemma mstep_in s s' : mstep P s s' -> forall m, stateIn m s -> exists more, stateIn (m ++ more) s'.
Proof.
  unfold stateIn. intros H m. inversion H; subst; cbn [fst snd]; intros (G & T); try (exists []; rewrite app_nil_r; split; [exact G|exact Logic.I]).
  - exists []. rewrite app_nil_r. split; auto. apply Forall_app. split; auto. constructor; [other|constructor].
  - exists []. rewrite app_nil_r. split; auto. apply Forall_mid in T as (X1 & _ & X2). apply Forall_mid. split; [auto|split; [other|auto]].
  - exists []. rewrite app_nil_r. split; auto. apply Forall_mid in T as (X1 & _ & X2). apply Forall_mid. split; [auto|split; [other|auto]].
  - pose proof T as T0. apply Forall_mid in T as (X1 & X0 & X2). match goal with K : gstep _ _ _ _ _ |- _ => destruct (gstep_in _ _ _ _ K m G X0) as (more & G' & K') end.
    exists more. split; auto. apply Forall_mid. split; [|split; auto]; (eapply Forall_impl; [|eassumption]); intros; apply tIn_ext; auto.
  - exists []. rewrite app_nil_r. split; [apply printOne_in; auto|exact Logic.I].
Qed.
Lemma reach_in s : reach P s -> exists m, stateIn m s.
Proof.
  induction 1 as [|s s' _ (m & IH) H]; [exists []|].
  - split; [|constructor]. constructor; cbn; auto; try contradiction; [intros r nd D; discriminate|intros [|s] src H; discriminate].
  - apply step_mstep in H. destruct (mstep_in _ _ H m IH) as (more & X). eauto.
Qed.
End WithProject.
