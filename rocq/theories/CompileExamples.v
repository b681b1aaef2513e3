(** Projects that meet the hypotheses of the theorems on the compilation. *)
From Verif Require Import Bytes Utf8 Source Lexer Ast BytesFacts Parser Printer Transformer Resolver Compile CompileSpec CompileSteps CompileEnd
  Samples TransSamples CompileSamples CompileWitness.
#[local] Existing Instance asciiOnly.
#[local] Existing Instance milli.

(** /a imports /x and /y, /x imports /y. *)
Definition dagTree : list (bytes * bytes) :=
  [(B "/a", B "@import ""/x"";@import ""/y"";a{b:c}"); (B "/x", B "@import ""/y"";p{q:r}"); (B "/y", B "x{y:z}")].
Definition dag : project := simple [B "/a"] dagTree noOpts.
Definition rank (f : bytes) : nat := if beq f (B "/a") then 2 else if beq f (B "/x") then 1 else 0.
Lemma dag_edge es o f g : edge (simple es dagTree o) f g -> (rank g < rank f)%nat.
Proof.
  set (Q := simple es dagTree o).
  intros (spec & rel & I & R2 & A). pose proof I as (c & _ & _ & _ & _ & R & _).
  change (Some spec = Some rel) in R2. change (Some rel = Some g) in A. injection R2 as <-. injection A as <-.
  apply lookup_In in R as [R|[R|[R|[]]]]; injection R as <- <-.
  - apply (imports_compute Q _ _ (B "@import ""/x"";@import ""/y"";a{b:c}")) in I; [|reflexivity|vm_compute; discriminate].
    replace (importsIn _) with [B "/x"; B "/y"] in I by (vm_compute; reflexivity). destruct I as [<-|[<-|[]]]; vm_compute; lia.
  - apply (imports_compute Q _ _ (B "@import ""/y"";p{q:r}")) in I; [|reflexivity|vm_compute; discriminate].
    replace (importsIn _) with [B "/y"] in I by (vm_compute; reflexivity). destruct I as [<-|[]]; vm_compute; lia.
  - apply (imports_compute Q _ _ (B "x{y:z}")) in I; [|reflexivity|vm_compute; discriminate].
    replace (importsIn _) with (@nil bytes) in I by (vm_compute; reflexivity). destruct I.
Qed.
Lemma dag_leads es o f g : leads (simple es dagTree o) f g -> (rank g < rank f)%nat.
Proof. induction 1 as [g H|g h _ IH H]; apply dag_edge in H; lia. Qed.
Lemma dag_acyclic es o f : ~ leads (simple es dagTree o) f f.
Proof. intros H. apply dag_leads in H. lia. Qed.
Lemma dag_grounded es o f : grounded (simple es dagTree o) f.
Proof.
  unfold grounded. assert (H : forall k f, (rank f < k)%nat -> Acc (fun g f => edge (simple es dagTree o) f g) f).
  { induction k as [|k IH]; intros f0 L; [lia|]. constructor. intros g E. apply dag_edge in E. apply IH. lia. }
  apply (H (S (rank f))). lia.
Qed.
Lemma dag_returns es o f : parserReturns (simple es dagTree o) f.
Proof. intros content R. exists 200%nat. apply lookup_In in R as [R|[R|[R|[]]]]; injection R as <- <-; vm_compute; discriminate. Qed.
Lemma C36_example_lemma : exists out g fs, compiled dag (B "/a") out /\ reach dag (g, Finished fs) /\ lookup (B "/a") fs = Some out.
Proof.
  do 3 eexists. split; [apply compile1_compiled; vm_compute; reflexivity|].
  split; [apply (greedy_finished dag false 300 start); [constructor|vm_compute; reflexivity]|]. vm_compute. reflexivity.
Qed.
Definition manyEntries : project := simple [B "/a"; B "/x"] dagTree followOpts.
Lemma C37_example_lemma : exists g fs, reachApart manyEntries (g, Finished fs) /\ g_next g = 3%nat /\ length (g_sources g) = 3%nat /\ length fs = 3%nat.
Proof.
  do 2 eexists. split; [apply (greedy_apart_finished manyEntries true 400 start); [constructor|vm_compute; reflexivity]|]. vm_compute. repeat split; reflexivity.
Qed.
Definition processedb (o : topts) (n : nat) (c : bytes) : bool :=
  match parse 0 n c with
  | ParseOk ss _ => match transform o None n ss with TOk _ _ => true | _ => false end
  | ParseErr _ _ _ => true
  | ParseCrash | ParseTimeout => false
  end.
Lemma processedb_spec P n f : (forall c, p_read P f = Some c -> processedb (p_opts P) n c = true) -> processed P f.
Proof.
  intros H c R. specialize (H c R). exists n. unfold processedb in H. destruct (parse 0 n c) as [ss L| | |]; auto; try discriminate.
  destruct (transform (p_opts P) None n ss) as [ss' t| |] eqn:E; try discriminate. exists n, ss', t. exact E.
Qed.
Lemma dag_processed es o f : o = noOpts \/ o = followOpts -> processed (simple es dagTree o) f.
Proof.
  intros Ho. apply (processedb_spec _ 200). intros c R. cbn [simple p_opts].
  apply lookup_In in R as [R|[R|[R|[]]]]; injection R as <- <-; destruct Ho as [-> | ->]; vm_compute; reflexivity.
Qed.
Lemma many_entries_example : o_imports (p_opts manyEntries) <> ImportInline /\ (forall f, processed manyEntries f /\ grounded manyEntries f).
Proof. split; [discriminate|]. intros f. split; [apply dag_processed; auto|apply dag_grounded]. Qed.
(** Both /a and /x have their outputs, and so does /y. *)
Lemma C35_example_lemma : exists g fs, reachApart manyEntries (g, Finished fs) /\ length fs = 3%nat /\
  p_entries manyEntries = [B "/a"] ++ [B "/x"] /\ exists out, compiled manyEntries (B "/x") out /\ lookup (B "/x") fs = Some out.
Proof.
  do 2 eexists. split; [apply (greedy_apart_finished manyEntries true 400 start); [constructor|vm_compute; reflexivity]|].
  split; [vm_compute; reflexivity|split; [reflexivity|]]. eexists. split; [apply compile1_compiled; vm_compute; reflexivity|vm_compute; reflexivity].
Qed.
(** The output of /x with the entries /a and /x, and with /x alone. *)
Lemma C43_example_lemma : exists g fs g' fs' out out', reachApart manyEntries (g, Finished fs) /\
  reachApart (mkProject [B "/x"] (p_abs manyEntries) (p_read manyEntries) (p_resolve manyEntries) (p_opts manyEntries)) (g', Finished fs') /\
  lookup (B "/x") fs = Some out /\ lookup (B "/x") fs' = Some out'.
Proof.
  do 6 eexists. split; [apply (greedy_apart_finished manyEntries true 400 start); [constructor|vm_compute; reflexivity]|].
  split; [apply (greedy_apart_finished (mkProject [B "/x"] _ _ _ _) true 400 start); [constructor|vm_compute; reflexivity]|].
  split; vm_compute; reflexivity.
Qed.
