(** Stylesheets and projects for C56. *)
From Verif Require Import Bytes Utf8 Source Lexer Ast BytesFacts Parser ParseRerun Printer PrinterSpec Transformer TransSpec Resolver Compile CompileSpec CompileSteps CompileEnd
  InlineSpec InlineRefs InlineProofs TwiceSpec TwiceFiles Samples TransSamples CompileSamples CompileWitness.
#[local] Existing Instance asciiOnly.
#[local] Existing Instance milli.

(** Two passes over a text. *)
Definition passes (content : bytes) : option (bytes * bytes) :=
  match parse 0 200 content with
  | ParseOk ss _ =>
    match transform inlineOpts (Some []) 200 ss with
    | TOk s1 _ =>
      match transform inlineOpts (Some []) 200 s1 with
      | TOk s2 _ => match print None (ss_nodes s1), print None (ss_nodes s2) with Some a, Some b => Some (a, b) | _, _ => None end
      | _ => None
      end
    | _ => None
    end
  | _ => None
  end.
Definition differ (content one two : bytes) : Prop := exists ss lines s1 t1 s2 t2, parse 0 200 content = ParseOk ss lines /\
  transform inlineOpts (Some []) 200 ss = TOk s1 t1 /\ transform inlineOpts (Some []) 200 s1 = TOk s2 t2 /\
  print None (ss_nodes s1) = Some one /\ print None (ss_nodes s2) = Some two /\ one <> two.
Lemma passes_differ content one two : passes content = Some (one, two) -> one <> two -> differ content one two.
Proof.
  unfold passes, differ. intros H N. destruct (parse 0 200 content) as [ss lines| | |]; try discriminate. destruct (transform inlineOpts (Some []) 200 ss) as [s1 t1| |] eqn:E1; try discriminate.
  destruct (transform inlineOpts (Some []) 200 s1) as [s2 t2| |] eqn:E2; try discriminate. destruct (print None (ss_nodes s1)) as [a|] eqn:P1; [|discriminate].
  destruct (print None (ss_nodes s2)) as [b|] eqn:P2; [|discriminate]. injection H as <- <-. exists ss, lines, s1, t1, s2, t2. auto 10.
Qed.
Definition againCalc : bytes := B ":root {--x:calc(1px + 2px)}a{b:var(--x)}".
Definition againFallback : bytes := B "a{b:var(--x,calc(1px + 1px))}".
Definition againMedia : bytes := B "@custom-media --w (width<=9px);@media (--w){a{b:c}}".
Lemma C56_twice_refuted_lemma : differ againCalc (B "a{b:calc(1px+2px)}") (B "a{b:3px}") /\
  differ againFallback (B "a{b:calc(1px+1px)}") (B "a{b:2px}") /\
  differ againMedia (B "@media (width<=9px){a{b:c}}") (B "@media (max-width:9px){a{b:c}}").
Proof. repeat split; apply passes_differ; solve [vm_compute; reflexivity|discriminate]. Qed.

(** The @import of /a is its first rule. *)
Definition pairA : bytes := B "@import ""/x"";d{e:f}".
Definition pairX : bytes := B "@import ""/gone"";:root {--v:2px}p{q:var(--v);r:calc(1px + 2px)}a:any-link{b:var(--w)}@media (width<=9px){s{t:u}}".
Definition pair (x : bytes) : project := simple [B "/a"] [(B "/a", pairA); (B "/x", x)] inlineOpts.
Definition rank (f : bytes) : nat := if beq f (B "/a") then 2 else if beq f (B "/x") then 1 else 0.
Section Pair.
Variable x : bytes.
Hypothesis Hx : parse 0 200 x <> ParseTimeout.
Hypothesis Ix : match importsIn x with [] => true | [s] => beq s (B "/gone") | _ => false end = true.
Lemma pair_edge f g : edge (pair x) f g -> (rank g < rank f)%nat.
Proof.
  intros (spec & rel & I & R2 & A). pose proof I as (c & _ & _ & _ & _ & R & _).
  change (Some spec = Some rel) in R2. change (Some rel = Some g) in A. injection R2 as <-. injection A as <-.
  apply lookup_In in R as [R|[R|[]]]; injection R as <- <-.
  - apply (imports_compute (pair x) _ _ pairA) in I; [|reflexivity|vm_compute; discriminate].
    replace (importsIn _) with [B "/x"] in I by (vm_compute; reflexivity). destruct I as [<-|[]]; vm_compute; lia.
  - apply (imports_compute (pair x) _ _ x) in I; [|reflexivity|exact Hx]. destruct (importsIn x) as [|s [|]]; [destruct I| |discriminate Ix].
    apply beq_eq in Ix. subst s. destruct I as [<-|[]]; vm_compute; lia.
Qed.
Lemma pair_leads f g : leads (pair x) f g -> (rank g < rank f)%nat.
Proof. induction 1 as [g H|g h _ IH H]; apply pair_edge in H; lia. Qed.
Lemma pair_one : oneImportEach (pair x).
Proof.
  intros f _. split; [intros H; apply pair_leads in H; lia|]. intros c run n ss lines R Hp.
  assert (L : parse 0 200 c <> ParseTimeout -> length (ss_imports ss) = length (importsIn c)).
  { intros E0. pose proof (CompileEnd.parse_agree 0 200 run n c E0) as E. rewrite Hp in E. specialize (E ltac:(discriminate)). unfold importsIn.
    destruct (parse 0 200 c) as [ss0 l0| | |]; try discriminate. injection E as -> ->. cbn. rewrite !map_length. reflexivity. }
  apply lookup_In in R as [R|[R|[]]]; injection R as <- <-.
  - rewrite L; [|vm_compute; discriminate]. replace (importsIn pairA) with [B "/x"] by (vm_compute; reflexivity). cbn. lia.
  - rewrite (L Hx). destruct (importsIn x) as [|s [|]]; [cbn; lia|cbn; lia|discriminate Ix].
Qed.
End Pair.
Definition startsAs (P : project) (f text : bytes) : Prop := exists g out rest, reach P (g, Finished [(f, out)]) /\ out = text ++ rest.
Definition outOf (P : project) : bytes := match outputs (greedy P true 200 start) with [(_, out)] => out | _ => [] end.
Lemma starts_compute P f text : finished (greedy P true 200 start) = true -> outputs (greedy P true 200 start) = [(f, outOf P)] -> firstn (length text) (outOf P) = text -> startsAs P f text.
Proof.
  intros F O E. exists (fst (greedy P true 200 start)), (outOf P), (skipn (length text) (outOf P)). split; [|rewrite <- E at 1; symmetry; apply firstn_skipn].
  rewrite <- O. apply greedy_finished; [constructor|exact F].
Qed.
Lemma pair_hyps x : x = pairX \/ x = againCalc -> o_imports (p_opts (pair x)) = ImportInline /\ oneImportEach (pair x) /\ p_entries (pair x) = [B "/a"] /\ edge (pair x) (B "/a") (B "/x").
Proof.
  intros H. split; [reflexivity|]. split; [destruct H as [->| ->]; apply pair_one; (vm_compute; first [discriminate|reflexivity])|]. split; [reflexivity|].
  exists (B "/x"), (B "/x"). split; [|split; reflexivity]. destruct (parse 0 200 pairA) as [ss lines| | |] eqn:E; try (vm_compute in E; discriminate).
  exists pairA, 0%nat, 200%nat, ss, lines. split; [reflexivity|]. split; [exact E|]. vm_compute in E. injection E as <- _. left. reflexivity.
Qed.
(** Settled files, by computation. *)
Definition sheetOf (content : bytes) : list node := match parse 0 200 content with ParseOk ss _ => ss_nodes ss | _ => [] end.
Lemma settled_compute P f : (forall content, p_read P f = Some content -> parse 0 200 content <> ParseTimeout /\
  Forall (settledNode (p_opts P)) (sheetOf content) /\ Forall (fun nd => isImport nd = false) (tl (sheetOf content))) -> settledFile P f.
Proof.
  intros H content run n ss lines R Hp. destruct (H content R) as (T & F1 & F2). pose proof (CompileEnd.parse_agree 0 200 run n content T) as E. rewrite Hp in E. specialize (E ltac:(discriminate)).
  unfold sheetOf in *. destruct (parse 0 200 content) as [ss0 l0| | |]; try discriminate. injection E as -> _. cbn [sheetOfRun ss_nodes]. split.
  - apply Forall_map. eapply Forall_impl; [|exact F1]. intros [r|a]; exact (fun y => y).
  - destruct (ss_nodes ss0) as [|nd l]; [constructor|]. cbn [map tl] in *. apply Forall_map. eapply Forall_impl; [|exact F2]. intros [r|a]; exact (fun y => y).
Qed.
Ltac fixed := first [exact I | split; intros; [vm_compute in *; discriminate|cbn; lia]].
Ltac settled := first [left; fixed | right; left; split; [reflexivity|cbn; repeat split; vm_compute; discriminate]].
Lemma pair_settled : settledChain (pair pairX) (B "/a").
Proof.
  assert (H : forall f, settledFile (pair pairX) f).
  { intros f. apply settled_compute. intros content R. apply lookup_In in R as [R|[R|[]]]; injection R as <- <-; (split; [vm_compute; discriminate|]).
    - let l := eval vm_compute in (sheetOf pairA) in replace (sheetOf pairA) with l by (vm_compute; reflexivity). split; repeat constructor; try (cbn; intros; discriminate); try settled.
    - let l := eval vm_compute in (sheetOf pairX) in replace (sheetOf pairX) with l by (vm_compute; reflexivity).
      split; [|repeat constructor]. repeat (apply Forall_cons); try apply Forall_nil; try (cbn; intros; discriminate); cbn [settledNode r_decls]; repeat apply Forall_cons; try apply Forall_nil; cbn; repeat apply Forall_cons; try apply Forall_nil; first [settled | fixed]. }
  split; [apply H|]. intros g _. apply H.
Qed.
Lemma C56_sample_lemma : settledChain (pair pairX) (B "/a") /\ (o_imports (p_opts (pair pairX)) = ImportInline /\ oneImportEach (pair pairX) /\ p_entries (pair pairX) = [B "/a"] /\
  edge (pair pairX) (B "/a") (B "/x")) /\
  startsAs (pair pairX) (B "/a") (B "@import ""/gone"";p{q:2px;r:3px}a:visited,a:link{b:var(--w)}@media (max-width:9px){s{t:u}}d{e:f}") /\
  startsAs (entryOnly (pair pairX) (B "/x")) (B "/x") (B "@import ""/gone"";p{q:2px;r:3px}a:visited,a:link{b:var(--w)}@media (max-width:9px){s{t:u}}").
Proof.
  split; [exact pair_settled|]. split; [apply pair_hyps; auto|]. split; (apply starts_compute; [vm_compute; reflexivity|vm_compute; reflexivity|vm_compute; reflexivity]).
Qed.
Lemma C56_inlined_refuted_lemma : (o_imports (p_opts (pair againCalc)) = ImportInline /\ oneImportEach (pair againCalc) /\ p_entries (pair againCalc) = [B "/a"] /\
  edge (pair againCalc) (B "/a") (B "/x")) /\
  startsAs (pair againCalc) (B "/a") (B "a{b:3px}d{e:f}") /\
  startsAs (entryOnly (pair againCalc) (B "/x")) (B "/x") (B "a{b:calc(1px+2px)}").
Proof.
  split; [apply pair_hyps; auto|]. split; (apply starts_compute; [vm_compute; reflexivity|vm_compute; reflexivity|vm_compute; reflexivity]).
Qed.
