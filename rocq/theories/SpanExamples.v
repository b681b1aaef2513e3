(** Conclusions on positions, and examples. *)
From Verif Require Import Bytes Utf8 Source Lexer LexSpec Ast AstInd Walk WalkSpec WalkProofs SourceProofs SpanSpec SpanProofs SpanReports SpanCompile Parser Printer
  Transformer Resolver Compile CompileSpec CompileSteps CompileRefs Plugin PluginSpec PluginProofs Samples TransSamples CompileSamples CompileWitness CompileExamples BytesFacts.

(** * Reports of the transformer *)
Section WithFloats.
Context {FO : FloatOps}.
Lemma under_locate (ns : list node) vs : preorder kids (NdSheet ns) vs ->
  Forall (ndOk (fun sp => sp = zsp \/ exists m, In m vs /\ locate m = Some sp)) ns.
Proof.
  intros H. apply under_preorder in H. inversion H as [n0 _ K]; subst. cbn [kids] in K. apply (proj1 (Forall_map _ _ _)) in K.
  eapply Forall_impl; [|exact K]. intros nd N. eapply under_mono; [|exact N]. intros m Hm sp L. right. exists m. split; [exact Hm|exact L].
Qed.
Lemma C52_reports_lemma o n ss ss' t vs r : preorder kids (NdSheet (ss_nodes ss)) vs -> transform o None n ss = TOk ss' t -> In r (t_reports t) ->
  rp_sp r = zsp \/ exists m, In m vs /\ locate m = Some (rp_sp r).
Proof.
  intros V T I. apply under_locate in V. destruct (transform_within _ (or_introl eq_refl) o None n ss ss' t ltac:(discriminate) V T) as [_ H]. clear T. rename H into T.
  rewrite Forall_forall in T. exact (T r I).
Qed.
End WithFloats.

(** * Errors of a compilation *)
Section WithProject.
Context {U : UnicodeDigits} {FO : FloatOps}.
Variable P : project.
Lemma C52_errors_good g ms : o_imports (p_opts P) <> ImportInline -> reach P (g, ms) ->
  Forall (fun e => match e with EParse s sp _ => good g s sp | ETransform s r => good g s (rp_sp r) | _ => True end) (g_errors g).
Proof.
  intros N R. apply reach_in in R as (m & [G _]). cbn in G. apply gi_errors in G. eapply Forall_impl; [|exact G]. intros e. destruct e; cbn; auto.
  intros [_ H]. unfold Qs, inlining in H. destruct (o_imports (p_opts P)); try exact H. congruence.
Qed.
Lemma C52_errors_lemma g ms : o_imports (p_opts P) <> ImportInline -> reach P (g, ms) -> Forall (pointsIn g) (g_errors g).
Proof.
  intros N R. eapply Forall_impl; [|eapply C52_errors_good; eauto]. intros e. destruct e; cbn; auto; intros (src & H1 & _ & H2); eauto.
Qed.
Lemma C52_somewhere_lemma g ms : reach P (g, ms) -> Forall (pointsSomewhere g) (g_errors g).
Proof.
  intros R. apply reach_in in R as (m & [G _]). cbn in G. apply gi_errors in G. eapply Forall_impl; [|exact G]. intros e. destruct e; cbn; auto.
  - intros (src & H1 & _ & H2). eauto.
  - intros [_ H]. unfold Qs in H. destruct (inlining P); [destruct H as (s' & src & H1 & _ & H2)|destruct H as (src & H1 & _ & H2)]; eauto.
Qed.
Lemma small_good g s sp src : smallFiles g -> good g s sp -> nth_error (g_srcs g) s = Some src ->
  hd_error (src_lines src) = Some 0%nat /\ (sp_start sp <= sp_end sp)%nat /\ (sp_end sp <= length (src_content src))%nat /\
  Z.of_nat (length (src_content src)) < 2147483647 /\ Z.of_nat (length (src_lines src)) < 2147483648.
Proof.
  intros S0 (src' & H1 & H2 & H3 & H4) E. rewrite E in H1. injection H1 as <-. unfold smallFiles in S0. rewrite Forall_forall in S0.
  destruct (S0 src (nth_error_In _ _ E)). auto.
Qed.
Lemma C52_rendered_lemma text g ms e : o_imports (p_opts P) <> ImportInline -> reach P (g, ms) -> smallFiles g -> In e (g_errors g) ->
  exists r msg, toReport text g e = Some r /\ errorText r = Some msg.
Proof.
  intros N R S0 I. pose proof (C52_errors_good g ms N R) as H. rewrite Forall_forall in H. specialize (H e I).
  destruct e; cbn in *; try (do 2 eexists; split; reflexivity).
  all: pose proof H as (src & E & _); destruct (small_good _ _ _ _ S0 H E) as (X1 & X2 & X3 & X4 & X5); rewrite E; cbn [option_map]; eexists.
  all: edestruct (C09_lemma src) as (t & T); [exact X1|exact X2|exact X3|exact X4|exact X5|]; exists t; split; [reflexivity|exact T].
Qed.
Lemma messages_total s sp inner : hd_error (src_lines s) = Some 0%nat -> (sp_start sp <= sp_end sp)%nat -> (sp_end sp <= length (src_content s))%nat ->
  Z.of_nat (length (src_content s)) < 2147483647 -> Z.of_nat (length (src_lines s)) < 2147483648 -> exists ms, toMessages (Located s sp inner) = Some ms.
Proof.
  intros H1 H2 H3 H4 H5. destruct (C09_lemma s sp inner H1 H2 H3 H4 H5) as (t & T).
  destruct (fullLine_spec s sp) as (l & ls & E & En & Hle & Hnx & Ef); auto; [lia|].
  pose proof (untilLF_len (skipn (sp_start sp) (src_content s))) as Hu. rewrite skipn_length in Hu.
  unfold toMessages. rewrite E, Ef. cbn [errorText]. rewrite T. cbn [sp_start sp_end]. rewrite slice_ok by lia. eauto.
Qed.
Lemma esbuild_total text g es : smallFiles g ->
  Forall (fun e => match e with EParse s sp _ => good g s sp | ETransform s r => good g s (rp_sp r) | _ => True end) es ->
  exists rs ms, toReports text g es = Some rs /\ toEsbuild rs = Some ms.
Proof.
  intros S0. induction 1 as [|e es H _ (rs & ms & IH1 & IH2)]; [exists [], []; auto|].
  assert (X : exists r m, toReport text g e = Some r /\ toMessages r = Some m).
  { destruct e; cbn in *; try (do 2 eexists; split; reflexivity).
    all: pose proof H as (src & E & _); destruct (small_good _ _ _ _ S0 H E) as (X1 & X2 & X3 & X4 & X5); rewrite E; cbn [option_map].
    - edestruct (C09_lemma src) as (t & T); [exact X1|exact X2|exact X3|exact X4|exact X5|]. do 2 eexists. split; [reflexivity|]. cbn. rewrite T. reflexivity.
    - edestruct (messages_total src) as (t & T); [exact X1|exact X2|exact X3|exact X4|exact X5|]. do 2 eexists. split; [reflexivity|]. exact T. }
  destruct X as (r & m & E1 & E2). exists (r :: rs). eexists. cbn. rewrite E1, IH1, E2, IH2. split; reflexivity.
Qed.
Lemma C46_total_lemma text path g fs : o_imports (p_opts P) <> ImportInline -> reach P (g, Finished fs) -> smallFiles g -> onLoad text path g fs <> None.
Proof.
  intros N R S0. destruct (esbuild_total text g (g_errors g) S0 (C52_errors_good g _ N R)) as (rs & ms & E1 & E2). unfold onLoad.
  destruct (g_errors g); [destruct (lookup path fs); discriminate|]. rewrite E1, E2. discriminate.
Qed.
Lemma C46_answer_lemma text path g fs : p_entries P = [path] -> p_abs P path = Some path -> o_imports (p_opts P) = ImportPassthrough -> ~ leads P path path ->
  reach P (g, Finished fs) -> smallFiles g ->
  match onLoad text path g fs with
  | Some (LoadContents css) => g_errors g = [] /\ compiled P path css
  | Some (LoadErrors ms) => g_errors g <> [] /\ ms <> []
  | Some LoadMissing | None => False
  end.
Proof.
  intros E1 E2 E3 E4 R S0. pose proof (C46_lemma P text path g fs E1 E2 E3 E4 R) as H. pose proof (C46_total_lemma text path g fs ltac:(congruence) R S0) as T.
  destruct (onLoad text path g fs) as [[]|]; auto.
Qed.
End WithProject.

(** * Examples *)
#[local] Existing Instance asciiOnly.
#[local] Existing Instance milli.
(** A file that inlines a longer one. *)
Definition shortTree : list (bytes * bytes) := [(B "/a", B "@import ""/b"";"); (B "/b", B "a{b:c}a{b:c}a{b:c}a{b:var(--x)}")].
Definition shortProject : project := CompileSamples.simple [B "/a"] shortTree inlineOpts.
Definition sg : glob := fst (greedy shortProject false 300 start).
Definition sfs : files := outputs (greedy shortProject false 300 start).
Definition se : cerror := nth 1 (g_errors sg) (EAbs []).
Definition sr : perror := match toReport noText sg se with Some r => r | None => Plain [] end.
Lemma C52_inline_refuted_lemma : exists P g fs e r,
  reachApart P (g, Finished fs) /\ smallFiles g /\ In e (g_errors g) /\ ~ pointsIn g e /\ toReport noText g e = Some r /\ errorText r = None /\
  forall path, onLoad noText path g fs = None.
Proof.
  exists shortProject, sg, sfs, se, sr.
  split; [apply (greedy_apart_finished shortProject false 300 start); [constructor|vm_compute; reflexivity]|].
  assert (S0 : map (fun src => (length (src_content src), length (src_lines src))) (g_srcs sg) = [(13, 1); (31, 1)]%nat) by (vm_compute; reflexivity).
  split.
  { unfold smallFiles. destruct (g_srcs sg) as [|s1 [|s2 [|]]]; try discriminate S0. cbn [map] in S0. injection S0 as A1 A2 A3 A4.
    constructor; [rewrite A1, A2; split; lia|]. constructor; [rewrite A3, A4; split; lia|constructor]. }
  split; [unfold se; apply nth_In; vm_compute; lia|].
  assert (E : exists m, se = ETransform 0%nat (mkReport true (mkSpan 22 30) m)) by (eexists; vm_compute; reflexivity). destruct E as (m & E).
  split.
  { rewrite E. unfold pointsIn. intros (src & H1 & _ & H2). cbn [rp_sp sp_end] in H2. revert S0 H1. generalize (g_srcs sg). intros l S0 H1. destruct l as [|s1 [|s2 [|]]]; try discriminate S0. cbn [nth_error] in H1. injection H1 as <-.
    cbn [map] in S0. injection S0 as A1 A2 A3 A4. lia. }
  split; [vm_compute; reflexivity|]. split; [vm_compute; reflexivity|].
  assert (O : (match g_errors sg with [] => false | _ => match toReports noText sg (g_errors sg) with Some es => match toEsbuild es with None => true | _ => false end | None => false end end) = true)
    by (vm_compute; reflexivity).
  clear E S0. intros path. unfold onLoad. destruct (g_errors sg); [discriminate O|]. destruct (toReports noText sg _) as [es|]; [|discriminate O]. destruct (toEsbuild es); [discriminate O|reflexivity].
Qed.
(** The tree of a file with one node of each kind the exceptions concern. *)
Definition text51 : bytes := B "a,b{c:url(x) f(1;}@media (1px<width<2px){}".
Definition flat51 (text : bytes) : list anode := match flat 30 (NdSheet (nodes48 text)) with Some vs => vs | None => [] end.
Lemma C51_tree_example_lemma : exists ss lines vs, parse 0 200 text51 = ParseOk ss lines /\ preorder kids (NdSheet (ss_nodes ss)) vs /\ length (spansOf vs) = 20%nat.
Proof.
  destruct (parse 0 200 text51) as [ss lines| | |] eqn:E; [|vm_compute in E; discriminate..].
  assert (N : ss_nodes ss = nodes48 text51) by (unfold nodes48; rewrite E; reflexivity).
  exists ss, lines, (flat51 text51). split; [reflexivity|]. rewrite N. split; [apply (WalkProofs.flat_ok 30); vm_compute; reflexivity|]. vm_compute. reflexivity.
Qed.
Definition reports51 (ss : stylesheet) : list span := match transform allOpts None 100 ss with TOk _ t => map rp_sp (t_reports t) | _ => [] end.
Lemma C52_reports_example_lemma : exists ss lines vs ss' t r, parse 0 200 varContent = ParseOk ss lines /\ preorder kids (NdSheet (ss_nodes ss)) vs /\
  transform allOpts None 100 ss = TOk ss' t /\ t_reports t = [r] /\ rp_sp r = mkSpan 18 26.
Proof.
  destruct (parse 0 200 varContent) as [ss lines| | |] eqn:E; [|vm_compute in E; discriminate..].
  assert (N : ss_nodes ss = nodes48 varContent) by (unfold nodes48; rewrite E; reflexivity).
  assert (R : match parse 0 200 varContent with ParseOk ss _ => reports51 ss | _ => [] end = [mkSpan 18 26]) by (vm_compute; reflexivity). rewrite E in R.
  unfold reports51 in R. destruct (transform allOpts None 100 ss) as [ss' t| |] eqn:Tr; try discriminate R. destruct (t_reports t) as [|r [|]] eqn:Et; try discriminate R. injection R as R.
  exists ss, lines, (flat51 varContent), ss', t, r. split; [reflexivity|]. rewrite N. split; [apply (WalkProofs.flat_ok 30); vm_compute; reflexivity|]. auto.
Qed.
Definition vg : glob := fst (greedy varProject false 200 start).
Lemma C52_errors_example_lemma : o_imports (p_opts varProject) <> ImportInline /\
  exists g fs r, reach varProject (g, Finished fs) /\ smallFiles g /\ g_errors g = [ETransform 0%nat r].
Proof.
  split; [discriminate|]. exists vg. do 2 eexists. split; [apply (greedy_finished varProject false 200 start); [constructor|vm_compute; reflexivity]|].
  split; [|vm_compute; reflexivity].
  assert (S0 : map (fun src => (length (src_content src), length (src_lines src))) (g_srcs vg) = [(27, 3)]%nat) by (vm_compute; reflexivity).
  revert S0. unfold smallFiles. generalize (g_srcs vg). intros l S0. destruct l as [|s1 [|]]; try discriminate. cbn [map] in S0. injection S0 as A1 A2.
  constructor; [rewrite A1, A2; split; lia|constructor].
Qed.
