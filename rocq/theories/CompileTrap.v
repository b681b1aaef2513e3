(** Files that import each other in circles: C34. *)
From Verif Require Import Bytes Utf8 Source Lexer Ast BytesFacts Parser ParseMono ParserSpec ParseRerun Printer Transformer Resolver Compile CompileSpec CompileSteps CompileOne CompileCalm CompileEnd.

Section WithProject.
Context {U : UnicodeDigits} {FO : FloatOps}.
Variable P : project.
Variable C : bytes -> Prop.
Hypothesis closed : trap P C.

Definition inC (src : source) : Prop := C (src_path src) /\ p_read P (src_path src) = Some (src_content src).
Record gOk (g : glob) : Prop := {
  go_asts : g_asts g = [];
  go_srcs : Forall inC (g_srcs g) }.
Definition fOk (f : frame) : Prop :=
  match f with
  | Called file _ => exists a, p_abs P file = Some a /\ C a
  | Missed _ abs _ => C abs
  | ReadIn abs content _ | Indexed _ abs content _ => C abs /\ p_read P abs = Some content
  | Transformed _ _ => False
  | _ => True
  end.
(** Not one goroutine has returned from parseFile. *)
Inductive stuck (g : glob) : gor -> Prop :=
| skFresh : stuck g Fresh
| skFrame f : fOk f -> stuck g (InFrame f)
| skLoop i s rs imps k repl kids src : nth_error (g_srcs g) s = Some src ->
    (forall spec, In spec (map fst imps) -> exists rel h, p_resolve P spec (fpDir (src_path src)) = Some rel /\ p_abs P rel = Some h /\ C h) ->
    imps <> [] -> length kids = k -> Forall (stuck g) kids -> stuck g (InLoop i s rs imps k repl kids).
Lemma stuck_grows g g' (G : grows g g') : forall t, stuck g t -> stuck g' t.
Proof.
  fix IH 2. intros t [|f Hf|i s rs imps k repl kids src H1 H2 H3 H4 H5].
  - constructor.
  - constructor; auto.
  - destruct (G _ _ H1) as (src' & X1 & X2 & X3). apply skLoop with (src := src'); auto; [rewrite <- X2; auto|].
    clear H2 H4. induction H5; constructor; auto.
Qed.
Lemma stuck_notDone g kids : Forall (stuck g) kids -> forallb isDone kids = true -> kids = [].
Proof. intros F D. destruct F as [|t kids Ht F]; auto. cbn in D. destruct t; try discriminate. inversion Ht. Qed.
Lemma gOk_addError g e : gOk g -> gOk (addError g e). Proof. intros []; constructor; auto. Qed.

Lemma parse_inC f content run n ss lines : C f -> p_read P f = Some content -> parse run n content = ParseOk ss lines ->
  ss_imports ss <> [] /\ forall spec, In spec (map fst (ss_imports ss)) -> exists rel g,
    p_resolve P spec (fpDir f) = Some rel /\ p_abs P rel = Some g /\ C g.
Proof.
  intros Hf Hr Hp. destruct (closed f Hf) as (c & m & ss0 & l0 & E1 & E2 & E3 & E4). rewrite Hr in E1. inversion E1; subst c.
  pose proof (specs_same _ _ _ _ _ _ _ _ _ E2 Hp) as E. rewrite E. split; auto. intros Q. rewrite Q in E. destruct (ss_imports ss0); [auto|discriminate].
Qed.
Lemma parse_noErr f content run n : C f -> p_read P f = Some content ->
  parse run n content = ParseTimeout \/ exists ss lines, parse run n content = ParseOk ss lines.
Proof.
  intros Hf Hr. destruct (closed f Hf) as (c & m & ss0 & l0 & E1 & E2 & E3 & E4). rewrite Hr in E1. inversion E1; subst c.
  pose proof (CompileEnd.parse_agree 0 m run n content) as X. rewrite E2 in X. destruct (parse run n content); eauto;
    specialize (X ltac:(discriminate) ltac:(discriminate)); discriminate.
Qed.
Lemma frame_trap n g f g' t' : gOk g -> fOk f -> frameStep P n g f = Some (Go g' t') -> gOk g' /\ grows g g' /\ stuck g' t'.
Proof.
  intros Gk Hf H. assert (Same : grows g g) by (apply grows_same; auto).
  destruct f as [file out|file abs out|abs content out|i abs content out|i out|i tmp out|i out|i|i|i s|i rs]; cbn [frameStep fOk] in *.
  - destruct Hf as (a & Ha & Hc). rewrite Ha in H. destruct (lookup a (g_sources g)); inversion H; subst; (split; [auto|split; [auto|constructor; cbn; auto]]).
  - destruct (closed abs Hf) as (c & _ & _ & _ & E & _). rewrite E in H. inversion H; subst. split; [auto|split; [auto|constructor; cbn; auto]].
  - inversion H; subst. split; [destruct Gk; constructor; auto|split; [apply grows_same; auto|constructor; cbn; auto]].
  - inversion H; subst. split; [destruct Gk; constructor; auto|split; [|constructor; cbn; auto]].
    + cbn. apply Forall_app. split; auto.
    + intros s src Hs. exists src. split; [|split; auto]. cbn. rewrite nth_error_app1; auto. apply nth_error_Some. congruence.
  - inversion H; subst. split; [auto|split; [auto|constructor; cbn; auto]].
  - inversion H; subst. split; [destruct Gk; constructor; auto|split; [apply grows_same; auto|constructor; cbn; auto]].
  - inversion H; subst. split; [destruct Gk, out; constructor; auto|split; [apply grows_same; destruct out; auto|constructor; cbn; auto]].
  - rewrite (go_asts _ Gk) in H. cbn in H. inversion H; subst. split; [auto|split; [auto|constructor; cbn; auto]].
  - destruct (ilookup i (g_byIndex g)); inversion H; subst. split; [auto|split; [auto|constructor; cbn; auto]].
  - destruct (nth_error (g_srcs g) s) as [src|] eqn:Es; [|discriminate].
    assert (Hs : inC src) by (pose proof (go_srcs _ Gk) as F; rewrite Forall_forall in F; apply F; eapply nth_error_In; eauto). destruct Hs as [Hs1 Hs2].
    set (read := fun lines => mkG (g_sources g) (g_next g) (g_byIndex g) (g_asts g) (g_outputs g) (g_errors g)
        (upd s (mkSource (src_path src) (src_content src) (src_lines src ++ lines)) (g_srcs g)) (g_heap g) (S (g_runs g))) in *.
    assert (Gr : forall lines, grows g (read lines)).
    { intros lines s1 src1 H1. unfold read. cbn. rewrite nth_upd. destruct (s1 =? s)%nat eqn:E.
      - apply Nat.eqb_eq in E. subst. rewrite Es in *. inversion H1; subst. eexists. split; [reflexivity|split; auto].
      - exists src1. split; auto. split; auto. }
    assert (Gq : forall lines, gOk (read lines)) by (intros; destruct Gk; constructor; auto; cbn; apply upd_Forall; auto; split; auto).
    destruct (parse_noErr _ _ (g_runs g) n Hs1 Hs2) as [E|(ss & lines & E)]; rewrite E in H; [discriminate|]. inversion H; subst.
    destruct (parse_inC _ _ _ _ _ _ Hs1 Hs2 E) as (I1 & I2).
    split; [destruct (Gq lines); constructor; auto|split; [exact (Gr lines)|]].
    eapply skLoop; [cbn; rewrite nth_upd, Nat.eqb_refl, Es; reflexivity|cbn; auto|auto|auto|constructor].
  - destruct Hf.
Qed.
Lemma gstep_trap g t g' t' : gstep P g t g' t' -> gOk g -> stuck g t -> gOk g' /\ grows g g' /\ stuck g' t'.
Proof.
  induction 1; intros Gk Ht; inversion Ht as [|f0 Hf|i0 s0 rs0 imps0 k0 repl0 kids0 src0 H1' H2' H3' H4' H5']; subst.
  - eapply frame_trap; eauto.
  - split; [auto|split; [apply grows_same; auto|]]. eapply skLoop; eauto; [rewrite app_length; cbn; lia|]. apply Forall_app. split; auto. constructor; constructor.
  - pose proof (stuck_notDone _ _ H5' H0). subst. cbn in *. destruct imps; [tauto|cbn in *; lia].
  - split; [auto|split; [apply grows_same; auto|]]. apply Forall_mid in H5' as (F1 & _ & F2). eapply skLoop; eauto.
    + rewrite !app_length. auto.
    + apply Forall_mid. split; [auto|split; [constructor|auto]]. cbn. assert (src = src0) by congruence. subst.
      destruct (H2' spec) as (rel' & h & X1 & X2 & X3); [eapply current_spec; eauto|]. exists h. split; [congruence|auto].
  - exfalso. assert (src = src0) by congruence. subst. destruct (H2' spec) as (rel' & h & X1 & X2 & X3); [eapply current_spec; eauto|]. congruence.
  - exfalso. apply Forall_mid in H5' as (_ & F & _). inversion F.
  - apply Forall_mid in H5' as (F1 & F & F2). destruct (IHgstep Gk F) as (A1 & A2 & A3). split; [auto|split; [auto|]].
    apply (stuck_grows _ _ A2) in Ht. inversion Ht; subst. eapply skLoop; eauto; [rewrite !app_length; auto|].
    match goal with X : Forall (stuck g') (_ ++ _) |- _ => apply Forall_mid in X as (F3 & _ & F4) end. apply Forall_mid. auto.
Qed.
Hypothesis entriesIn : forall e, In e (p_entries P) -> exists a, p_abs P e = Some a /\ C a.
Lemma mstep_trap s s' : mstep P s s' -> p_entries P <> [] ->
  (exists g k kids, s = (g, Running k kids) /\ gOk g /\ length kids = k /\ Forall (stuck g) kids) \/ snd s = Crashed ->
  (exists g k kids, s' = (g, Running k kids) /\ gOk g /\ length kids = k /\ Forall (stuck g) kids) \/ snd s' = Crashed.
Proof.
  intros H Ne [(g & k & kids & -> & Gk & L & F)|Cr]; [|destruct H; discriminate]. inversion H; subst; [| | | | |right; auto].
  - left. do 3 eexists. split; [reflexivity|]. rewrite app_length. cbn. split; [auto|split; [lia|]]. apply Forall_app. split; auto. constructor; constructor.
  - exfalso. match goal with D : forallb _ _ = true |- _ => pose proof (stuck_notDone _ _ F D) end. subst. cbn in *. destruct (p_entries P); [tauto|cbn in *; lia].
  - left. do 3 eexists. split; [reflexivity|]. split; [auto|split; [rewrite !app_length; auto|]]. apply Forall_mid in F as (F1 & _ & F2). apply Forall_mid.
    split; [auto|split; [constructor|auto]]. cbn. apply entriesIn. eapply current_in; eauto.
  - exfalso. apply Forall_mid in F as (_ & F & _). inversion F.
  - left. apply Forall_mid in F as (F1 & F2 & F3). match goal with G : gstep _ _ _ _ _ |- _ => destruct (gstep_trap _ _ _ _ G Gk F2) as (A1 & A2 & A3) end.
    do 3 eexists. split; [reflexivity|]. split; [auto|split; [rewrite !app_length; auto|]].
    assert (Q : forall l, Forall (stuck g) l -> Forall (stuck g') l) by (intros l; apply Forall_impl; intros; eapply stuck_grows; eauto).
    apply Forall_mid. auto.
Qed.
Lemma trap_reach s : p_entries P <> [] -> reach P s ->
  (exists g k kids, s = (g, Running k kids) /\ gOk g /\ length kids = k /\ Forall (stuck g) kids) \/ snd s = Crashed.
Proof.
  intros Ne. induction 1.
  - left. do 3 eexists. split; [reflexivity|]. split; [constructor; auto; constructor|split; [auto|constructor]].
  - eapply mstep_trap; eauto. apply step_mstep. auto.
Qed.
Lemma C34_trap_lemma g fs : p_entries P <> [] -> ~ reach P (g, Finished fs).
Proof. intros Ne R. destruct (trap_reach _ Ne R) as [(? & ? & ? & X & _)|X]; discriminate. Qed.
End WithProject.
