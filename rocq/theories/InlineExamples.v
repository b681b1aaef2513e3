(** Projects that meet the hypotheses of C53. *)
From Verif Require Import Bytes Utf8 Source Lexer Ast BytesFacts Parser ParseRerun Printer Transformer Resolver Compile CompileSpec CompileSteps CompileEnd
  InlineSpec InlineRefs InlineProofs InlineReturns Samples TransSamples CompileSamples CompileWitness.
#[local] Existing Instance asciiOnly.
#[local] Existing Instance milli.

Definition rowA : bytes := B "a{b:c}@import ""/x"";d{e:var(--v)}".
Definition rowX : bytes := B ":root {--v:2px}@import ""/y"";p{q:var(--v)}".
Definition rowY : bytes := B "@import ""/gone"";x{y:z}".
Definition rowTree : list (bytes * bytes) := [(B "/a", rowA); (B "/x", rowX); (B "/y", rowY)].
Definition row : project := simple [B "/a"] rowTree inlineOpts.
Definition place (f : bytes) : nat := if beq f (B "/a") then 3 else if beq f (B "/x") then 2 else if beq f (B "/y") then 1 else 0.
Lemma row_edge f g : edge row f g -> (place g < place f)%nat.
Proof.
  intros (spec & rel & I & R2 & A). pose proof I as (c & _ & _ & _ & _ & R & _).
  change (Some spec = Some rel) in R2. change (Some rel = Some g) in A. injection R2 as <-. injection A as <-.
  apply lookup_In in R as [R|[R|[R|[]]]]; injection R as <- <-.
  - apply (imports_compute row _ _ rowA) in I; [|reflexivity|vm_compute; discriminate].
    replace (importsIn _) with [B "/x"] in I by (vm_compute; reflexivity). destruct I as [<-|[]]; vm_compute; lia.
  - apply (imports_compute row _ _ rowX) in I; [|reflexivity|vm_compute; discriminate].
    replace (importsIn _) with [B "/y"] in I by (vm_compute; reflexivity). destruct I as [<-|[]]; vm_compute; lia.
  - apply (imports_compute row _ _ rowY) in I; [|reflexivity|vm_compute; discriminate].
    replace (importsIn _) with [B "/gone"] in I by (vm_compute; reflexivity). destruct I as [<-|[]]; vm_compute; lia.
Qed.
Lemma row_leads f g : leads row f g -> (place g < place f)%nat.
Proof. induction 1 as [g H|g h _ IH H]; apply row_edge in H; lia. Qed.
Lemma row_one : oneImportEach row.
Proof.
  intros f _. split; [intros H; apply row_leads in H; lia|]. intros c run n ss lines R Hp.
  assert (L : forall k, parse 0 200 c <> ParseTimeout -> length (importsIn c) = k -> length (ss_imports ss) = k).
  { intros k E0 <-. pose proof (CompileEnd.parse_agree 0 200 run n c E0) as E. rewrite Hp in E. specialize (E ltac:(discriminate)). unfold importsIn.
    destruct (parse 0 200 c) as [ss0 l0| | |]; try discriminate. injection E as -> ->. cbn. rewrite !map_length. reflexivity. }
  apply lookup_In in R as [R|[R|[R|[]]]]; injection R as <- <-;
    (rewrite (L 1%nat); [lia|vm_compute; discriminate|vm_compute; reflexivity]).
Qed.
Lemma row_grounded f : grounded row f.
Proof.
  unfold grounded. assert (H : forall k f, (place f < k)%nat -> Acc (fun g f => edge row f g) f).
  { induction k as [|k IH]; intros f0 L; [lia|]. constructor. intros g E. apply row_edge in E. apply IH. lia. }
  apply (H (S (place f))). lia.
Qed.
Lemma row_returns f : parserReturns row f.
Proof. intros content R. exists 200%nat. apply lookup_In in R as [R|[R|[R|[]]]]; injection R as <- <-; vm_compute; discriminate. Qed.
Lemma C53_example_lemma : p_entries row = [B "/a"] /\ o_imports (p_opts row) = ImportInline /\ oneImportEach row /\
  exists g out rest, reach row (g, Finished [(B "/a", out)]) /\ out = B "a{b:c}@import ""/gone"";x{y:z}p{q:2px}d{e:var(--v)}" ++ rest.
Proof.
  split; [reflexivity|]. split; [reflexivity|]. split; [exact row_one|].
  exists (fst (greedy row true 200 start)).
  exists (match outputs (greedy row true 200 start) with [(_, out)] => out | _ => [] end). eexists. split.
  - replace (Finished _) with (Finished (outputs (greedy row true 200 start))) by (vm_compute; reflexivity).
    apply greedy_finished; [constructor|vm_compute; reflexivity].
  - vm_compute. reflexivity.
Qed.
(** The same entry when the imported file is missing. *)
Definition lone : project := simple [B "/a"] [(B "/a", rowA)] inlineOpts.
Lemma lone_read f c : p_read lone f = Some c -> p_read row f = Some c.
Proof. intros R. apply lookup_In in R as [R|[]]. injection R as <- <-. reflexivity. Qed.
Lemma lone_edge f g : edge lone f g -> edge row f g.
Proof. intros (spec & rel & (c & run & n & ss & lines & R & H) & X). exists spec, rel. split; [|exact X]. exists c, run, n, ss, lines. split; [apply lone_read; exact R|exact H]. Qed.
Lemma lone_leads f g : leads lone f g -> leads row f g.
Proof. induction 1 as [g H|g h _ IH H]; [apply leadsEdge|eapply leadsStep; [exact IH|]]; apply lone_edge; exact H. Qed.
Lemma lone_one : oneImportEach lone.
Proof.
  intros f _. split; [intros H; apply lone_leads, row_leads in H; lia|]. intros c run n ss lines R Hp.
  assert (I : involved row (B "/a")) by (exists (B "/a"), (B "/a"); split; [left; reflexivity|]; split; [reflexivity|left; reflexivity]).
  pose proof (lookup_In _ _ _ R) as [E|[]]. injection E as <- <-. eapply (proj2 (row_one _ I)); [reflexivity|exact Hp].
Qed.
Lemma C33_example_lemma : p_opts lone = p_opts row /\ p_entries lone = p_entries row /\ oneImportEach lone /\ p_read lone (B "/a") = p_read row (B "/a") /\
  exists g out rest, reach lone (g, Finished [(B "/a", out)]) /\ out = B "a{b:c}@import ""/x"";d{e:var(--v)}" ++ rest.
Proof.
  split; [reflexivity|]. split; [reflexivity|]. split; [exact lone_one|]. split; [reflexivity|].
  exists (fst (greedy lone true 200 start)).
  exists (match outputs (greedy lone true 200 start) with [(_, out)] => out | _ => [] end). eexists. split.
  - replace (Finished _) with (Finished (outputs (greedy lone true 200 start))) by (vm_compute; reflexivity).
    apply greedy_finished; [constructor|vm_compute; reflexivity].
  - vm_compute. reflexivity.
Qed.

(** An entry that comes to something, and one that does not: its @import leads
    to a file that crashes the transformer. *)
Lemma row_result_lemma : p_entries row = [B "/a"] /\ o_imports (p_opts row) = ImportInline /\
  forall p, p_abs row (B "/a") = Some p -> exists nds, inlined row 0 p (Some nds).
Proof.
  split; [reflexivity|]. split; [reflexivity|]. intros p E. change (Some (B "/a") = Some p) in E. injection E as <-.
  destruct C53_example_lemma as (_ & _ & _ & g & out & rest & R & _).
  assert (L : lookup (B "/a") [(B "/a", out)] = Some out) by reflexivity.
  apply (C53_lemma row eq_refl row_one (B "/a") eq_refl _ _ R) in L as (_ & c & n & ss & lines & nds & _ & _ & H & _). eauto.
Qed.
Definition brokenRow : project := simple [B "/a"] [(B "/a", B "@import ""/x"";"); (B "/x", B "@media{}")] inlineOpts.
Lemma broken_edge f g : edge brokenRow f g -> f = B "/a" /\ g = B "/x".
Proof.
  intros (spec & rel & H & R2 & A). pose proof H as (c & _ & _ & _ & _ & R & _).
  change (Some spec = Some rel) in R2. change (Some rel = Some g) in A. injection R2 as <-. injection A as <-.
  apply lookup_In in R as [R|[R|[]]]; injection R as <- <-.
  - apply (imports_compute brokenRow _ _ (B "@import ""/x"";")) in H; [|reflexivity|vm_compute; discriminate].
    replace (importsIn _) with [B "/x"] in H by (vm_compute; reflexivity). destruct H as [<-|[]]. auto.
  - apply (imports_compute brokenRow _ _ (B "@media{}")) in H; [|reflexivity|vm_compute; discriminate].
    replace (importsIn _) with (@nil bytes) in H by (vm_compute; reflexivity). destruct H.
Qed.
Lemma broken_one : oneImportEach brokenRow.
Proof.
  intros f _. split.
  - intros H. assert (X : forall g, leads brokenRow f g -> f = B "/a" /\ g = B "/x").
    { induction 1 as [g H'|g h _ IH H']; apply broken_edge in H'; [auto|]. destruct IH as [-> ->], H' as [_ ->]. auto. }
    destruct (X _ H) as [-> E]. discriminate.
  - intros c run n ss lines R Hp.
    assert (L : forall k, parse 0 200 c <> ParseTimeout -> length (importsIn c) = k -> length (ss_imports ss) = k).
    { intros k E0 <-. pose proof (CompileEnd.parse_agree 0 200 run n c E0) as E. rewrite Hp in E. specialize (E ltac:(discriminate)). unfold importsIn.
      destruct (parse 0 200 c) as [ss0 l0| | |]; try discriminate. injection E as -> ->. cbn. rewrite !map_length. reflexivity. }
    apply lookup_In in R as [R|[R|[]]]; injection R as <- <-;
      [rewrite (L 1%nat); [lia|vm_compute; discriminate|vm_compute; reflexivity]|rewrite (L 0%nat); [lia|vm_compute; discriminate|vm_compute; reflexivity]].
Qed.
Lemma broken_import d : ~ exists r, inlined brokenRow d (B "/x") r.
Proof.
  intros (r & H). rewrite <- (Nat.add_0_r d) in H. inversion H as [? ? R|? ? c n sp msg lines R Hp|? ? c n ss lines m k ss' t R Hp M T]; subst.
  - discriminate.
  - change (Some (B "@media{}") = Some c) in R. injection R as <-.
    assert (E : parse 0 200 (B "@media{}") <> ParseTimeout) by (vm_compute; discriminate).
    pose proof (CompileEnd.parse_agree 0 200 (d + 0) n _ E) as A. rewrite Hp in A. specialize (A ltac:(discriminate)).
    destruct (parse 0 200 (B "@media{}")) eqn:X; vm_compute in X; discriminate.
  - change (Some (B "@media{}") = Some c) in R. injection R as <-.
    assert (E : parse 0 200 (B "@media{}") <> ParseTimeout) by (vm_compute; discriminate).
    pose proof (CompileEnd.parse_agree 0 200 (d + 0) n _ E) as A. rewrite Hp in A. specialize (A ltac:(discriminate)).
    destruct (parse 0 200 (B "@media{}")) as [s1 l1| | |] eqn:Y; vm_compute in Y; try discriminate.
    injection Y as <- <-. injection A as -> ->. cbn [ss_nodes sheetOfRun] in *.
    unfold transform in T. destruct k as [|k]; cbn in T; discriminate.
Qed.
Lemma broken_result_lemma : p_entries brokenRow = [B "/a"] /\ o_imports (p_opts brokenRow) = ImportInline /\ oneImportEach brokenRow /\
  ~ exists r, inlined brokenRow 0 (B "/a") r.
Proof.
  split; [reflexivity|]. split; [reflexivity|]. split; [exact broken_one|]. intros H.
  apply (broken_import 1). apply (comes_edge brokenRow 0 (B "/a")); [exact H|]. exists (B "/x"), (B "/x"). split; [|split; reflexivity].
  eexists (B "@import ""/x"";"), 0%nat, 200%nat, _, _. split; [reflexivity|]. split; [vm_compute; reflexivity|]. left. reflexivity.
Qed.
