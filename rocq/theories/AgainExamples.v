(** Projects for C57. *)
From Verif Require Import Bytes Utf8 Source Lexer Ast BytesFacts Parser ParseRerun Printer PrinterSpec Transformer TransSpec Resolver Compile CompileSpec CompileSteps CompileEnd
  InlineSpec InlineRefs InlineProofs OutputSpec TwiceSpec TwiceFiles AgainSpec Samples TransSamples CompileSamples CompileWitness OutputExamples TwiceExamples.
#[local] Existing Instance asciiOnly.
#[local] Existing Instance milli.

Definition single (f c : bytes) (o : topts) : project := simple [f] [(f, c)] o.
Definition outText (P : project) : bytes := TwiceExamples.outOf P.
Lemma single_run f c o : finished (greedy (single f c o) true 200 start) = true -> outputs (greedy (single f c o) true 200 start) = [(f, outText (single f c o))] ->
  exists g, reach (single f c o) (g, Finished [(f, outText (single f c o))]).
Proof. intros F O. exists (fst (greedy (single f c o) true 200 start)). rewrite <- O. apply greedy_finished; [constructor|exact F]. Qed.
Lemma importless_compute out : parse 0 200 out <> ParseTimeout -> importsIn out = [] -> importless out.
Proof.
  intros T E run n ss lines Hp. pose proof (CompileEnd.parse_agree 0 200 run n out T) as X. rewrite Hp in X. specialize (X ltac:(discriminate)). unfold importsIn in E.
  destruct (parse 0 200 out) as [ss0 l0| | |]; try discriminate. injection X as -> _. cbn [sheetOfRun ss_imports]. destruct (ss_imports ss0); [reflexivity|discriminate].
Qed.
Lemma single_compiles P f c o : p_opts P = o -> compiles P (single f c o) f f c.
Proof. intros <-. repeat split. cbn. rewrite beq_refl. reflexivity. Qed.
Lemma single_plain f c o p : plainb o c = true -> plainFile (single f c o) p.
Proof. intros H. apply plainb_file. cbn. rewrite H. reflexivity. Qed.
Lemma single_alone f c o : parse 0 200 c <> ParseTimeout -> importsIn c = [] -> forall a b, ~ leads (single f c o) a b.
Proof.
  intros T E a b L. apply first_edge in L as (h & spec & rel & (content & run & n & ss & lines & R & Hp & J) & _).
  apply lookup_In in R as [R|[]]. injection R as <- <-. rewrite (importless_compute c T E _ _ _ _ Hp) in J. exact J.
Qed.
(** Texts that differ before any map comment. *)
Definition marker : bytes := firstn 4 (mapComment []).
Lemma differ_at out out' i : nth_error out i <> nth_error out' i -> forallb (fun j => negb (hasPrefix marker (skipn j out))) (seq 0 (S i)) = true -> ~ sameText out out'.
Proof.
  intros N H (css & m & m' & E & E'). rewrite forallb_forall in H. assert (L : (length css <= i)%nat).
  { destruct (Nat.le_gt_cases (length css) i) as [L|L]; [exact L|]. exfalso. apply N. subst out out'. rewrite !nth_error_app1 by exact L. reflexivity. }
  specialize (H (length css) ltac:(apply in_seq; lia)). subst out. rewrite skipn_app, skipn_all, Nat.sub_diag in H. discriminate.
Qed.

(** Nothing is left to do after one pass. *)
Definition calm : bytes := B ":root { --v: 2px } a:any-link > b, i { c: var(--v) calc(2px * 3); d: var(--w) } @media (height > 5px) { a { b: c } }".
Definition calmProject : project := single (B "/a") calm allOpts.
Definition calmAgain : project := single (B "/b") (outText calmProject) allOpts.
Lemma calm_settled f : settledRules calmProject f.
Proof.
  intros content run n ss lines R Hp. eapply (settled_compute calmProject f); [|exact R|exact Hp]. clear. intros content R. apply lookup_In in R as [R|[]]; injection R as <- <-; (split; [vm_compute; discriminate|]).
  let l := eval vm_compute in (sheetOf calm) in replace (sheetOf calm) with l by (vm_compute; reflexivity).
  split; [|repeat constructor]. repeat (apply Forall_cons); try apply Forall_nil; try (cbn; intros; discriminate); cbn [settledNode r_decls]; repeat apply Forall_cons; try apply Forall_nil; cbn; repeat apply Forall_cons; try apply Forall_nil; first [settled | fixed].
Qed.
Lemma C57_sample_lemma : p_entries calmProject = [B "/a"] /\ o_imports (p_opts calmProject) = ImportPassthrough /\ decimals (p_opts calmProject) /\
  (forall f, ~ leads calmProject f f /\ plainFile calmProject f /\ settledRules calmProject f) /\ importless (outText calmProject) /\
  compiles calmProject calmAgain (B "/b") (B "/b") (outText calmProject) /\
  (exists g, reach calmProject (g, Finished [(B "/a", outText calmProject)])) /\ (exists g, reach calmAgain (g, Finished [(B "/b", outText calmAgain)])) /\
  (exists rest rest', outText calmProject = B "a:visited > b,a:link > b,i{c:2px 6px;d:var(--w)}@media (min-height:5.001px){a{b:c}}" ++ rest /\
    outText calmAgain = B "a:visited > b,a:link > b,i{c:2px 6px;d:var(--w)}@media (min-height:5.001px){a{b:c}}" ++ rest').
Proof.
  split; [reflexivity|]. split; [reflexivity|]. split; [apply milli_decimals|]. split.
  { intros f. split; [apply single_alone; [vm_compute; discriminate|vm_compute; reflexivity]|]. split; [apply single_plain; vm_compute; reflexivity|apply calm_settled]. }
  split; [apply importless_compute; [vm_compute; discriminate|vm_compute; reflexivity]|]. split; [apply single_compiles; reflexivity|].
  split; [apply single_run; vm_compute; reflexivity|]. split; [apply single_run; vm_compute; reflexivity|].
  eexists _, _. split; vm_compute; reflexivity.
Qed.
(** A range in a definition is left for a second pass. *)
Definition mixedAgain : project := single (B "/b") (outText mixedProject) allOpts.
Lemma C57_settled_refuted_lemma : exists P P' g out g' out', p_entries P = [B "/a"] /\ o_imports (p_opts P) = ImportPassthrough /\ decimals (p_opts P) /\
  (forall f, ~ leads P f f /\ plainFile P f) /\ importless out /\ compiles P P' (B "/b") (B "/b") out /\
  reach P (g, Finished [(B "/a", out)]) /\ reach P' (g', Finished [(B "/b", out')]) /\ ~ sameText out out'.
Proof.
  destruct (single_run (B "/a") mixed allOpts) as (g & R); [vm_compute; reflexivity|vm_compute; reflexivity|].
  destruct (single_run (B "/b") (outText mixedProject) allOpts) as (g' & R'); [vm_compute; reflexivity|vm_compute; reflexivity|].
  exists mixedProject, mixedAgain, g, (outText mixedProject), g', (outText mixedAgain). split; [reflexivity|]. split; [reflexivity|]. split; [apply milli_decimals|]. split.
  { intros f. split; [|apply mixed_plain]. intros L. apply first_edge in L as [h X]. exact (mixed_alone _ _ X). }
  split; [apply importless_compute; [vm_compute; discriminate|vm_compute; reflexivity]|]. split; [apply single_compiles; reflexivity|]. split; [exact R|]. split; [exact R'|].
  apply (differ_at _ _ 53); vm_compute; [discriminate|reflexivity].
Qed.
(** An @import is written twice each time. *)
Definition importing : bytes := B "@import ""/x"";a{b:c}".
Definition doubled : project := single (B "/a") importing allOpts.
Definition doubledAgain : project := single (B "/b") (outText doubled) allOpts.
Lemma doubled_settled f : settledRules doubled f.
Proof.
  intros content run n ss lines R Hp. eapply (settled_compute doubled f); [|exact R|exact Hp]. clear. intros content R. apply lookup_In in R as [R|[]]; injection R as <- <-; (split; [vm_compute; discriminate|]).
  let l := eval vm_compute in (sheetOf importing) in replace (sheetOf importing) with l by (vm_compute; reflexivity).
  split; repeat constructor; try (cbn; intros; discriminate); try settled.
Qed.
Lemma C57_imports_refuted_lemma : exists P P' g out g' out', p_entries P = [B "/a"] /\ o_imports (p_opts P) = ImportPassthrough /\ decimals (p_opts P) /\
  (forall f, ~ leads P f f /\ plainFile P f /\ settledRules P f) /\ compiles P P' (B "/b") (B "/b") out /\
  reach P (g, Finished [(B "/a", out)]) /\ reach P' (g', Finished [(B "/b", out')]) /\ ~ sameText out out'.
Proof.
  destruct (single_run (B "/a") importing allOpts) as (g & R); [vm_compute; reflexivity|vm_compute; reflexivity|].
  destruct (single_run (B "/b") (outText doubled) allOpts) as (g' & R'); [vm_compute; reflexivity|vm_compute; reflexivity|].
  exists doubled, doubledAgain, g, (outText doubled), g', (outText doubledAgain). split; [reflexivity|]. split; [reflexivity|]. split; [apply milli_decimals|]. split.
  { intros f. split; [|split; [apply single_plain; vm_compute; reflexivity|apply doubled_settled]].
    assert (X : forall a b, edge doubled a b -> a = B "/a" /\ b = B "/x").
    { intros a b (spec & rel & I & R2 & A). pose proof I as (c & _ & _ & _ & _ & Rd & _). change (Some spec = Some rel) in R2. change (Some rel = Some b) in A. injection R2 as <-. injection A as <-.
      apply lookup_In in Rd as [Rd|[]]; injection Rd as <- <-. split; [reflexivity|]. apply (imports_compute doubled _ _ importing) in I; [|reflexivity|vm_compute; discriminate].
      replace (importsIn _) with [B "/x"] in I by (vm_compute; reflexivity). destruct I as [<-|[]]. reflexivity. }
    assert (Y : forall a b, leads doubled a b -> a = B "/a" /\ b = B "/x"). { induction 1 as [h H|h k _ IH H]; [apply X; exact H|]. destruct IH as [-> _]. split; [reflexivity|]. apply X in H. apply H. }
    intros L. apply Y in L as [-> E]. discriminate. }
  split; [apply single_compiles; reflexivity|]. split; [exact R|]. split; [exact R'|].
  apply (differ_at _ _ 27); vm_compute; [discriminate|reflexivity].
Qed.
(** Inlined. *)
Definition pairY : bytes := B ":root {--v:2px}p{q:var(--v);r:calc(2px*3)}a:any-link{b:var(--w)}@media (width<=9px){s{t:u}}".
Definition pairAgain : project := single (B "/b") (outText (pair pairY)) inlineOpts.
Lemma pairY_settled : settledChain (pair pairY) (B "/a").
Proof.
  assert (H : forall f, settledFile (pair pairY) f).
  { intros f. apply settled_compute. intros content R. apply lookup_In in R as [R|[R|[]]]; injection R as <- <-; (split; [vm_compute; discriminate|]).
    - let l := eval vm_compute in (sheetOf pairA) in replace (sheetOf pairA) with l by (vm_compute; reflexivity). split; repeat constructor; try (cbn; intros; discriminate); try settled.
    - let l := eval vm_compute in (sheetOf pairY) in replace (sheetOf pairY) with l by (vm_compute; reflexivity).
      split; [|repeat constructor]. repeat (apply Forall_cons); try apply Forall_nil; try (cbn; intros; discriminate); cbn [settledNode r_decls]; repeat apply Forall_cons; try apply Forall_nil; cbn; repeat apply Forall_cons; try apply Forall_nil; first [settled | fixed]. }
  split; [apply H|]. intros g _. apply H.
Qed.
Lemma C57_inline_sample_lemma : p_entries (pair pairY) = [B "/a"] /\ o_imports (p_opts (pair pairY)) = ImportInline /\ oneImportEach (pair pairY) /\ decimals (p_opts (pair pairY)) /\
  (forall f, plainFile (pair pairY) f) /\ settledChain (pair pairY) (B "/a") /\ importless (outText (pair pairY)) /\ compiles (pair pairY) pairAgain (B "/b") (B "/b") (outText (pair pairY)) /\
  (exists g, reach (pair pairY) (g, Finished [(B "/a", outText (pair pairY))])) /\ (exists g, reach pairAgain (g, Finished [(B "/b", outText pairAgain)])) /\
  exists rest, outText (pair pairY) = B "p{q:2px;r:6px}a:visited,a:link{b:var(--w)}@media (max-width:9px){s{t:u}}d{e:f}" ++ rest.
Proof.
  split; [reflexivity|]. split; [reflexivity|]. split; [apply pair_one; vm_compute; [discriminate|reflexivity]|]. split; [apply milli_decimals|].
  split; [intros f; apply plainb_file; vm_compute; reflexivity|]. split; [exact pairY_settled|]. split; [apply importless_compute; [vm_compute; discriminate|vm_compute; reflexivity]|].
  split; [apply single_compiles; reflexivity|]. split.
  { exists (fst (greedy (pair pairY) true 200 start)). replace (Finished _) with (Finished (outputs (greedy (pair pairY) true 200 start))) by (vm_compute; reflexivity). apply greedy_finished; [constructor|vm_compute; reflexivity]. }
  split; [apply single_run; vm_compute; reflexivity|]. eexists. vm_compute. reflexivity.
Qed.
(** A sum that is not computed, because the units differ: it is written without
    spaces, and read back as a product. *)
Definition summing : bytes := B "a{b:calc(1px - 2em * 3)}".
Definition summed : project := single (B "/a") summing allOpts.
Definition summedAgain : project := single (B "/b") (outText summed) allOpts.
Lemma summed_settled f : settledRules summed f.
Proof.
  intros content run n ss lines R Hp. eapply (settled_compute summed f); [|exact R|exact Hp]. clear. intros content R. apply lookup_In in R as [R|[]]; injection R as <- <-; (split; [vm_compute; discriminate|]).
  let l := eval vm_compute in (sheetOf summing) in replace (sheetOf summing) with l by (vm_compute; reflexivity).
  split; [|repeat constructor]. repeat (apply Forall_cons); try apply Forall_nil. cbn [settledNode r_decls]. repeat apply Forall_cons; try apply Forall_nil; cbn; repeat apply Forall_cons; try apply Forall_nil; first [settled | fixed].
Qed.
Lemma C57_sums_refuted_lemma : exists P P' g out g' out', p_entries P = [B "/a"] /\ o_imports (p_opts P) = ImportPassthrough /\ decimals (p_opts P) /\
  (forall f, ~ leads P f f /\ settledRules P f) /\ importless out /\ compiles P P' (B "/b") (B "/b") out /\
  reach P (g, Finished [(B "/a", out)]) /\ reach P' (g', Finished [(B "/b", out')]) /\
  (exists rest rest', out = B "a{b:calc(1px-2em*3)}" ++ rest /\ out' = B "a{b:3px-2em}" ++ rest') /\ ~ sameText out out'.
Proof.
  destruct (single_run (B "/a") summing allOpts) as (g & R); [vm_compute; reflexivity|vm_compute; reflexivity|].
  destruct (single_run (B "/b") (outText summed) allOpts) as (g' & R'); [vm_compute; reflexivity|vm_compute; reflexivity|].
  exists summed, summedAgain, g, (outText summed), g', (outText summedAgain). split; [reflexivity|]. split; [reflexivity|]. split; [apply milli_decimals|]. split.
  { intros f. split; [apply single_alone; [vm_compute; discriminate|vm_compute; reflexivity]|apply summed_settled]. }
  split; [apply importless_compute; [vm_compute; discriminate|vm_compute; reflexivity]|]. split; [apply single_compiles; reflexivity|]. split; [exact R|]. split; [exact R'|].
  split; [exists (skipn 20 (outText summed)), (skipn 12 (outText summedAgain)); split; vm_compute; reflexivity|].
  apply (differ_at _ _ 4); vm_compute; [discriminate|reflexivity].
Qed.
