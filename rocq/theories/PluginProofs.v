(** Proofs on the esbuild plugin. *)
From Verif Require Import Bytes Utf8 Source Lexer Ast BytesFacts LexSpec SourceSpec SourceProofs Parser Printer Transformer Resolver Compile CompileSpec CompileSteps CompileOne CompileRefs
  Plugin PluginSpec Samples TransSamples CompileSamples CompileWitness CompileExamples.

Lemma lines_len content : (length (lineStarts content) <= S (length content))%nat.
Proof.
  assert (H : forall s o, (length (linesIn o s) <= length s)%nat).
  { induction s as [|b s IH]; intros o; cbn; [lia|]. destruct (Byte.eqb b LF); cbn; specialize (IH (S o)); lia. }
  unfold lineStarts. cbn [length]. specialize (H content 0%nat). lia.
Qed.
Lemma message_ok e : wellPointed e -> exists ms, toMessages e = Some ms /\ rendered e ms.
Proof.
  intros W. assert (T : exists text, errorText e = Some text).
  { destruct e as [s sp inner|s sp inner|text]; cbn in *; [| |eauto].
    all: destruct W as (W1 & W2 & W3 & W4); apply C09_lemma; auto; rewrite W1; [reflexivity|pose proof (lines_len (src_content s)); lia]. }
  destruct T as (text & T). destruct e as [s sp inner|s sp inner|text0].
  - destruct W as (W1 & W2 & W3 & W4). pose proof (lines_len (src_content s)) as L.
    destruct (fullLine_spec s sp) as (l & ls & E & En & Hle & Hnx & Ef); rewrite ?W1; auto; [lia|lia|].
    rewrite W1 in En, Hnx.
    pose proof (position_table (src_content s) (sp_start sp) l ls ltac:(lia) En Hle Hnx) as Ep. pose proof (lineOf_table (src_content s) (sp_start sp) l ls ltac:(lia) En Hle Hnx) as El.
    pose proof (position_before (src_content s) (sp_start sp)) as Eb. rewrite Ep in Eb. cbn [snd] in Eb.
    pose proof (untilLF_len (skipn (sp_start sp) (src_content s))) as Hu. rewrite skipn_length in Hu.
    unfold toMessages. rewrite E, Ef, T. cbn [sp_start sp_end]. rewrite slice_ok by lia. eexists. split; [reflexivity|]. exists text. split; [exact T|].
    cbv zeta. rewrite Ep. cbn [snd]. rewrite El. unfold sub. repeat f_equal.
    + lia.
    + rewrite firstn_length_le; [lia|]. rewrite skipn_length. lia.
  - exists [mkMessage text None]. unfold toMessages. rewrite T. split; auto. exists text. auto.
  - exists [mkMessage text None]. unfold toMessages. rewrite T. split; auto. exists text. auto.
Qed.
Lemma C41_lemma es : Forall wellPointed es -> exists mss, toEsbuild es = Some (concat mss) /\ Forall2 rendered es mss.
Proof.
  induction 1 as [|e es He _ (mss & IH1 & IH2)]; [exists []; auto|]. destruct (message_ok e He) as (ms & E & R).
  exists (ms :: mss). cbn. rewrite E, IH1. auto.
Qed.
Lemma toEsbuild_nonempty es ms : toEsbuild es = Some ms -> es <> [] -> ms <> [].
Proof.
  destruct es as [|e es]; [congruence|]. intros H _. cbn in H. destruct (toMessages e) as [m|] eqn:E; [|discriminate]. destruct (toEsbuild es); [|discriminate].
  inversion H; subst. destruct e; cbn in E; repeat match type of E with match ?x with _ => _ end = _ => destruct x as [|]; try discriminate | (let (_, _) := ?x in _) = _ => destruct x end;
    try (inversion E; subst; discriminate); destruct (lineAndCol s sp) as [[? ?]|]; try discriminate; destruct (fullLine s sp); try discriminate;
    destruct (locationErrorString s sp inner); try discriminate; destruct (slice _ _ _); inversion E; subst; discriminate.
Qed.
Section WithProject.
Context {U : UnicodeDigits} {FO : FloatOps}.
Variable P : project.
Variable text : cerror -> bytes.
Lemma reports_ok g es : Forall (errOk P g) es -> exists rs, toReports text g es = Some rs /\ length rs = length es.
Proof.
  induction 1 as [|e es He _ (rs & IH & L)]; [exists []; auto|]. assert (E : exists r, toReport text g e = Some r).
  { destruct e; cbn in *; eauto; destruct He as (f & src & -> & _); cbn; eauto. }
  destruct E as (r & E). exists (r :: rs). cbn. rewrite E, IH. cbn. auto.
Qed.
(** Every execution that ends gives the plugin an answer: errors, or the
    output, unless rendering an error panics. *)
Lemma onLoad_cases path g fs : reach P (g, Finished fs) ->
  match onLoad text path g fs with
  | Some (LoadErrors ms) => g_errors g <> [] /\ ms <> []
  | Some (LoadContents css) => g_errors g = [] /\ lookup path fs = Some css
  | Some LoadMissing => g_errors g = [] /\ lookup path fs = None
  | None => exists rs, toReports text g (g_errors g) = Some rs /\ toEsbuild rs = None
  end.
Proof.
  intros R. apply reach_ok in R as (G & _). cbn [fst] in G. destruct (reports_ok g _ (go_errors _ _ G)) as (rs & E & L). unfold onLoad.
  destruct (g_errors g) as [|e es] eqn:Ee; [destruct (lookup path fs); auto|]. rewrite E. destruct (toEsbuild rs) as [ms|] eqn:Em; cbn [option_map].
  - split; [discriminate|]. eapply toEsbuild_nonempty; eauto. intros ->. discriminate.
  - exists rs. auto.
Qed.
(** With one entry that does not import itself. *)
Lemma C46_lemma path g fs : p_entries P = [path] -> p_abs P path = Some path -> o_imports (p_opts P) = ImportPassthrough -> ~ leads P path path ->
  reach P (g, Finished fs) ->
  match onLoad text path g fs with
  | Some (LoadContents css) => g_errors g = [] /\ compiled P path css
  | Some (LoadErrors ms) => g_errors g <> [] /\ ms <> []
  | Some LoadMissing => False
  | None => exists rs, toReports text g (g_errors g) = Some rs /\ toEsbuild rs = None
  end.
Proof.
  intros E1 E2 E3 E4 R. pose proof (onLoad_cases path g fs R) as H.
  assert (Ac : forall a, p_abs P path = Some a -> ~ leads P a a) by (intros a X; rewrite E2 in X; injection X as <-; exact E4).
  pose proof (C36_lemma P path E1 E3 Ac g fs R) as C.
  destruct (onLoad text path g fs) as [[ms|css|]|]; auto.
  - destruct H as (H1 & H2). split; auto. apply C in H2. tauto.
  - destruct H as (H1 & H2). apply (errors_lemma P path E1 E3 Ac g fs R); auto. destruct fs as [|[k v] fs]; auto. exfalso.
    assert (X : lookup k ((k, v) :: fs) = Some v) by (cbn; rewrite beq_refl; auto). pose proof X as Y. apply C in Y as (Y & _). rewrite E2 in Y. injection Y as <-. congruence.
Qed.
End WithProject.

(** A use of an undefined variable in the third line. *)
Definition varContent : bytes := B "a{b:c}" ++ [LF] ++ B "a{b:c}" ++ [LF] ++ B "a{b:var(--x)}".
Definition varProject : project := simple [B "/a"] [(B "/a", varContent)] allOpts.
Definition badProject : project := simple [B "/a"] [(B "/a", B "a{b:c}}")] allOpts.
#[local] Existing Instance asciiOnly.
#[local] Existing Instance milli.
Definition noText (e : cerror) : bytes := [].
Definition afterAll (P : project) : glob * mstate := greedy P false 200 start.
Definition pluginErrors (P : project) : list perror := match toReports noText (fst (afterAll P)) (g_errors (fst (afterAll P))) with Some es => es | None => [] end.
Definition pluginMessages (P : project) : list message := match toEsbuild (pluginErrors P) with Some ms => ms | None => [] end.
Lemma C41_refuted_lemma : exists P path g fs es s sp inner m1 m2 l,
  reachApart P (g, Finished fs) /\ p_entries P = [path] /\ toReports noText g (g_errors g) = Some es /\
  es = [Located s sp inner] /\ pointed s sp /\ toEsbuild es = Some [m1; m2] /\ m_loc m1 = Some l /\ m_loc m2 = None /\ lineOfError s sp = 3 /\ l_line l = 14.
Proof.
  exists varProject, (B "/a"). do 9 eexists. split; [apply (greedy_apart_finished varProject false 200 start); [constructor|vm_compute; reflexivity]|].
  split; [reflexivity|]. split; [vm_compute; reflexivity|]. split; [reflexivity|].
  split; [unfold pointed; cbn; repeat split; try (vm_compute; reflexivity); vm_compute; lia|].
  split; [vm_compute; reflexivity|]. split; [reflexivity|]. split; [reflexivity|]. split; vm_compute; reflexivity.
Qed.
Lemma C41_syntax_lemma : exists P path g fs es s sp inner m,
  reachApart P (g, Finished fs) /\ p_entries P = [path] /\ toReports noText g (g_errors g) = Some es /\
  es = [Syntax s sp inner] /\ pointed s sp /\ toEsbuild es = Some [m] /\ m_loc m = None.
Proof.
  exists badProject, (B "/a"). do 7 eexists. split; [apply (greedy_apart_finished badProject false 200 start); [constructor|vm_compute; reflexivity]|].
  split; [reflexivity|]. split; [vm_compute; reflexivity|]. split; [reflexivity|].
  split; [unfold pointed; cbn; repeat split; try (vm_compute; reflexivity); vm_compute; lia|].
  split; [vm_compute; reflexivity|]. reflexivity.
Qed.

Lemma C46_example_lemma : exists g fs css, reach dag (g, Finished fs) /\ onLoad noText (B "/a") g fs = Some (LoadContents css).
Proof.
  do 3 eexists. split; [apply (greedy_finished dag false 300 start); [constructor|vm_compute; reflexivity]|]. vm_compute. reflexivity.
Qed.
