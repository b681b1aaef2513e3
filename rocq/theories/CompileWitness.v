(** Counterexamples for the compilation of several files. *)
From Verif Require Import Bytes Utf8 Source Lexer Ast BytesFacts Parser ParseMono ParserSpec ParseRerun Printer Transformer Resolver Compile CompileSpec CompileSteps CompileOne CompileEnd
  Samples TransSamples CompileSamples.
#[local] Existing Instance asciiOnly.
#[local] Existing Instance milli.

Definition inlineOpts : topts := mkOpts ImportInline true true true true true.
Definition followOpts : topts := mkOpts ImportFollow false false false false false.
Definition outputs (s : glob * mstate) : files := match snd s with Finished fs => fs | _ => [] end.
Definition finished (s : glob * mstate) : bool := match snd s with Finished _ => true | _ => false end.
Lemma finished_eq s : finished s = true -> s = (fst s, Finished (outputs s)).
Proof. destruct s as [g [| | |]]; cbn; try discriminate. auto. Qed.
Lemma greedy_finished P last k s : reach P s -> finished (greedy P last k s) = true -> reach P (fst (greedy P last k s), Finished (outputs (greedy P last k s))).
Proof. intros H E. rewrite <- (finished_eq _ E). apply greedy_reach. auto. Qed.
Lemma greedy_apart_finished P last k s : reachApart P s -> finished (greedy P last k s) = true ->
  reachApart P (fst (greedy P last k s), Finished (outputs (greedy P last k s))).
Proof. intros H E. rewrite <- (finished_eq _ E). apply greedy_apart. auto. Qed.
(** The state after a schedule. *)
Definition after (P : project) (paths : list (list nat)) : glob * mstate :=
  match runPaths P 200 paths start with Some s => s | None => (g0, Crashed) end.
Definition allowed (P : project) (paths : list (list nat)) : bool := match runPaths P 200 paths start with Some _ => true | None => false end.
Lemma after_reach P paths : allowed P paths = true -> reach P (after P paths).
Proof.
  unfold allowed, after. destruct (runPaths P 200 paths start) as [s|] eqn:E; [|discriminate]. intros _. eapply paths_reach; [|exact E]. constructor.
Qed.
(** [compiled] by computation. *)
Definition compile1 (P : project) (f : bytes) : option bytes :=
  match p_read P f with
  | None => None
  | Some content =>
    match parse 0 200 content with
    | ParseOk ss lines =>
      match transform (p_opts P) None 200 ss with
      | TOk ss' _ => print (Some (mkSource f content lines)) (ss_nodes ss')
      | _ => None
      end
    | _ => None
    end
  end.
Lemma compile1_compiled P f out : compile1 P f = Some out -> compiled P f out.
Proof.
  unfold compile1, compiled. destruct (p_read P f) as [content|]; [|discriminate]. destruct (parse 0 200 content) as [ss lines| | |] eqn:E1; try discriminate.
  destruct (transform (p_opts P) None 200 ss) as [ss' t| |] eqn:E2; try discriminate. intros H. exists content, 200%nat, 200%nat, ss, lines, ss', t. auto.
Qed.

Lemma lookup_In {A} k (v : A) l : lookup k l = Some v -> In (k, v) l.
Proof.
  induction l as [|[k' v'] l IH]; cbn [lookup]; [discriminate|]. destruct (beq k k') eqn:E; [|right; auto]. apply beq_eq in E. subst. intros H. injection H as ->. left. reflexivity.
Qed.
(** The imports of a file, by computation. *)
Definition importsIn (content : bytes) : list bytes := match parse 0 200 content with ParseOk ss _ => map fst (ss_imports ss) | _ => [] end.
Lemma imports_compute P f spec content : imports P f spec -> p_read P f = Some content -> parse 0 200 content <> ParseTimeout -> In spec (importsIn content).
Proof.
  intros (c & run & n & ss & lines & R & Pr & I) Hc E0. assert (c = content) by congruence. subst c.
  pose proof (parse_agree 0 200 run n content E0) as E. rewrite Pr in E. specialize (E ltac:(discriminate)). unfold importsIn.
  destruct (parse 0 200 content) as [ss0 l0| | |]; try discriminate. injection E as -> ->.
  unfold sheetOfRun in I. cbn [ss_imports] in I. rewrite map_map in I. erewrite map_ext in I; [exact I|]. intros [? ?]. reflexivity.
Qed.

(** * Two entries *)
Definition two : project := simple [B "/a"; B "/b"] [(B "/a", B "x{y:z}"); (B "/b", B "p{q:r}")] noOpts.
(** Both goroutines read the variable e after the loop has ended. *)
Lemma C35_loop_lemma : exists P g fs e out, reachApart P (g, Finished fs) /\
  In e (p_entries P) /\ p_abs P e = Some e /\ compiled P e out /\ lookup e fs = None.
Proof.
  exists two. do 2 eexists. exists (B "/a"). eexists. split; [apply (greedy_apart_finished two false 100 start); [constructor|vm_compute; reflexivity]|].
  split; [left; reflexivity|]. split; [reflexivity|]. split; [apply compile1_compiled; vm_compute; reflexivity|vm_compute; reflexivity].
Qed.
(** Each goroutine reads its own entry, then both take index 0. *)
Definition overlap : list (list nat) := [[]; [0]; []; [1]; [0]; [0]; [0]; [1]; [1]; [1]]%nat.
Lemma C37_refuted_lemma : exists P g m p q i, reach P (g, m) /\ p <> q /\ lookup p (g_sources g) = Some i /\ lookup q (g_sources g) = Some i.
Proof.
  exists two, (fst (after two overlap)), (snd (after two overlap)), (B "/a"), (B "/b"), 0%nat. split; [|split; [discriminate|split; vm_compute; reflexivity]].
  rewrite <- surjective_pairing. apply after_reach. vm_compute. reflexivity.
Qed.
Lemma C35_race_lemma : exists P g, reach P (g, Finished []) /\
  (forall e, In e (p_entries P) -> p_abs P e = Some e /\ exists out, compiled P e out) /\ p_entries P <> [].
Proof.
  exists two. eexists. split; [|split; [|discriminate]].
  - replace (Finished []) with (Finished (outputs (greedy two false 100 (after two overlap)))) by (vm_compute; reflexivity).
    apply greedy_finished; [apply after_reach|]; vm_compute; reflexivity.
  - intros e [<-|[<-|[]]]; (split; [reflexivity|]); eexists; apply compile1_compiled; vm_compute; reflexivity.
Qed.
(** One entry listed twice: the second goroutine finds the index before the
    first has stored the source. *)
Definition same : project := simple [B "/a"; B "/a"] [(B "/a", B "x{y:z}")] noOpts.
Lemma C45_refuted_lemma : exists P g, reach P (g, Crashed) /\ forall f, involved P f -> exists out, compiled P f out.
Proof.
  exists same, (fst (after same (overlap ++ [[1]])%nat)). split.
  - replace Crashed with (snd (after same (overlap ++ [[1]])%nat)) by (vm_compute; reflexivity). rewrite <- surjective_pairing. apply after_reach. vm_compute. reflexivity.
  - assert (N : forall f g, ~ edge same f g).
    { intros f g (spec & rel & I & _). pose proof I as (c & _ & _ & _ & _ & R & _). apply lookup_In in R as [R|[]]. injection R as <- <-.
      apply (imports_compute same _ _ (B "x{y:z}")) in I; [|reflexivity|vm_compute; discriminate]. vm_compute in I. exact I. }
    intros f (e & a & He & Ha & Hf). assert (a = B "/a") by (change (Some e = Some a) in Ha; injection Ha as <-; destruct He as [<-|[<-|[]]]; reflexivity). subst a.
    assert (f = B "/a"). { destruct Hf as [->|L]; auto. exfalso. destruct L; eapply N; eauto. } subst f.
    eexists. apply compile1_compiled. vm_compute. reflexivity.
Qed.

(** * A file that imports itself *)
Definition self : project := simple [B "/a"] [(B "/a", B "@import ""/a"";@import ""/x"";"); (B "/x", B "p{q:r}")] noOpts.
(** The first goroutine of the loop reads imp before, or after, the second is
    started. *)
Definition early : list (list nat) := [[]] ++ times 12 [0%nat] ++ [[0; 0]]%nat.
Lemma C36_refuted_lemma : exists P e g1 fs1 g2 fs2 out1 out2, p_entries P = [e] /\ o_imports (p_opts P) = ImportPassthrough /\
  reachApart P (g1, Finished fs1) /\ reach P (g2, Finished fs2) /\ lookup e fs1 = Some out1 /\ lookup e fs2 = Some out2 /\ out1 <> out2.
Proof.
  exists self, (B "/a"). do 6 eexists. split; [reflexivity|]. split; [reflexivity|].
  split; [apply (greedy_apart_finished self false 200 start); [constructor|vm_compute; reflexivity]|].
  split; [apply (greedy_finished self false 200 (after self early)); [apply after_reach|]; vm_compute; reflexivity|].
  split; [vm_compute; reflexivity|]. split; [vm_compute; reflexivity|]. vm_compute. discriminate.
Qed.
(** ... and nothing else: no result under any schedule. *)
Definition ring : project := simple [B "/a"] [(B "/a", B "@import ""/b"";"); (B "/b", B "@import ""/a"";x{y:z}")] noOpts.
Definition onRing (f : bytes) : Prop := f = B "/a" \/ f = B "/b".
Lemma C34_ring_lemma : trap ring onRing /\ p_entries ring <> [] /\ forall e, In e (p_entries ring) -> exists a, p_abs ring e = Some a /\ onRing a.
Proof.
  split; [|split; [discriminate|]].
  - intros f [->| ->].
    + exists (B "@import ""/b"";"), 200%nat. do 2 eexists. split; [reflexivity|]. split; [vm_compute; reflexivity|]. split; [discriminate|].
      intros spec [<-|[]]. exists (B "/b"), (B "/b"). split; [reflexivity|]. split; [reflexivity|]. right. reflexivity.
    + exists (B "@import ""/a"";x{y:z}"), 200%nat. do 2 eexists. split; [reflexivity|]. split; [vm_compute; reflexivity|]. split; [discriminate|].
      intros spec [<-|[]]. exists (B "/a"), (B "/a"). split; [reflexivity|]. split; [reflexivity|]. left. reflexivity.
  - intros e [<-|[]]. exists (B "/a"). split; [reflexivity|]. left. reflexivity.
Qed.

(** * Inlining *)
(** /x is imported by both entries, which define --v differently. *)
Definition xTree : list (bytes * bytes) :=
  [(B "/a", B "@import ""/x"";"); (B "/b", B ":root {--v:2px}@import ""/x"";"); (B "/x", B "p{q:var(--v)}")].
Lemma C43_refuted_lemma : exists entries entries' l o e g1 fs1 g2 fs2 out1 out2,
  In e entries /\ incl entries entries' /\
  reachApart (simple entries l o) (g1, Finished fs1) /\ reachApart (simple entries' l o) (g2, Finished fs2) /\
  lookup e fs1 = Some out1 /\ lookup e fs2 = Some out2 /\ out1 <> out2.
Proof.
  exists [B "/a"], [B "/a"; B "/b"], xTree, inlineOpts, (B "/a"). do 6 eexists.
  split; [left; reflexivity|]. split; [intros x [<-|[]]; left; reflexivity|].
  split; [apply (greedy_apart_finished _ true 200 start); [constructor|vm_compute; reflexivity]|].
  split; [apply (greedy_apart_finished _ true 200 start); [constructor|vm_compute; reflexivity]|].
  split; [vm_compute; reflexivity|]. split; [vm_compute; reflexivity|]. vm_compute. discriminate.
Qed.
(** The definition is in the imported file, the use in the importing one. *)
Definition yTree : list (bytes * bytes) :=
  [(B "/a", B "@import ""/x"";p{q:var(--v)}@media (--m){r{s:t}}"); (B "/x", B ":root {--v:2px}@custom-media --m (width>=1px);")].
Lemma C33_refuted_lemma : exists g out rest,
  reachApart (simple [B "/a"] yTree inlineOpts) (g, Finished [(B "/a", out)]) /\ out = B "p{q:var(--v)}@media (--m){r{s:t}}" ++ rest.
Proof.
  exists (fst (greedy (simple [B "/a"] yTree inlineOpts) true 200 start)).
  exists (match outputs (greedy (simple [B "/a"] yTree inlineOpts) true 200 start) with [(_, out)] => out | _ => [] end). eexists. split.
  - replace (Finished _) with (Finished (outputs (greedy (simple [B "/a"] yTree inlineOpts) true 200 start))) by (vm_compute; reflexivity).
    apply greedy_apart_finished; [constructor|vm_compute; reflexivity].
  - vm_compute. reflexivity.
Qed.

(** * Files without circles that never end *)
(** /a imports /b; both get index 0, whose source is /a's. *)
Definition chain : project := simple [B "/a"; B "/b"] [(B "/a", B "@import ""/b"";"); (B "/b", B "x{y:z}")] noOpts.
Definition confused : list (list nat) := overlap ++ [[1]; [0]; [1]; [1]]%nat.
Definition contentA : bytes := B "@import ""/b"";".
Record lost (g : glob) : Prop := {
  lo_src : lookup (B "/b") (g_sources g) = Some 0%nat;
  lo_by : ilookup 0 (g_byIndex g) = Some 1%nat;
  lo_asts : g_asts g = [];
  lo_srcs : exists ls, nth_error (g_srcs g) 1 = Some (mkSource (B "/a") contentA ls) }.
Inductive turning : gor -> Prop :=
| tuCalled : turning (InFrame (Called (B "/b") false))
| tuHas out : turning (InFrame (HasIndex 0 out))
| tuLooking : turning (InFrame (Looking 0))
| tuNot : turning (InFrame (NotParsed 0))
| tuSource : turning (InFrame (HasSource 0 1%nat))
| tuLoop0 rs p : turning (InLoop 0 1%nat rs [(B "/b", p)] 0 [] [])
| tuLoop1 rs p : turning (InLoop 0 1%nat rs [(B "/b", p)] 1 [] [Fresh])
| tuLoop rs p kid : turning kid -> turning (InLoop 0 1%nat rs [(B "/b", p)] 1 [] [kid]).
Lemma parseA run : exists ss lines p, parse run 200 contentA = ParseOk ss lines /\ ss_imports ss = [(B "/b", p)].
Proof.
  rewrite (C12_rerun_lemma 0 run 200 contentA). destruct (parse 0 200 contentA) as [ss lines| | |] eqn:E; vm_compute in E; try discriminate.
  injection E as <- <-. cbn. do 3 eexists. split; reflexivity.
Qed.
Lemma turn t : turning t -> forall g, lost g -> exists path g' t', stepG chain 200 path g t = Some (Go g' t') /\ lost g' /\ turning t'.
Proof.
  induction 1; intros g L; pose proof L as L0; destruct L as [L1 L2 L3 (ls & L4)].
  - exists [], g, (InFrame (HasIndex 0 false)). cbn [stepG frameStep chain simple p_abs]. rewrite L1. split; [reflexivity|split; [auto|constructor]].
  - exists []. do 2 eexists. split; [reflexivity|split; [|constructor]]. destruct out; constructor; cbn -[nth_error]; eauto.
  - exists [], g, (InFrame (NotParsed 0)). cbn. rewrite L3. split; [reflexivity|split; [auto|constructor]].
  - exists [], g, (InFrame (HasSource 0 1%nat)). cbn. rewrite L2. split; [reflexivity|split; [auto|constructor]].
  - destruct (parseA (g_runs g)) as (ss & lines & p & E1 & E2). exists []. do 2 eexists. cbn [stepG frameStep]. rewrite L4. cbn [src_content]. rewrite E1.
    split; [reflexivity|split].
    + constructor; cbn -[nth_error upd]; auto. rewrite nth_upd, L4. cbn. eauto.
    + rewrite E2. constructor.
  - exists []. do 2 eexists. split; [reflexivity|split; [auto|constructor]].
  - exists [0%nat], g. eexists. cbn [stepG]. change (nth_error [Fresh] 0) with (Some Fresh). change (current 1 [(B "/b", p)]) with (Some (B "/b", p)).
    cbv beta iota. rewrite L4. cbn [chain simple p_resolve]. split; [reflexivity|split; [auto|]].
    apply tuLoop. constructor.
  - destruct (IHturning g L0) as (path & g' & t' & E & L' & T'). exists (0%nat :: path), g'. eexists. cbn [stepG].
    change (nth_error [kid] 0) with (Some kid). change (current 1 [(B "/b", p)]) with (Some (B "/b", p)). cbv beta iota. rewrite E.
    split; [|split; [exact L'|apply (tuLoop rs p); exact T']]. destruct H; reflexivity.
Qed.
Lemma runs_paths P paths : forall s s' k, runs P k start s -> runPaths P 200 paths s = Some s' -> exists k', runs P k' start s'.
Proof.
  induction paths as [|p paths IH]; intros s s' k R E; cbn [runPaths] in E; [injection E as <-; eauto|].
  destruct (stepM P 200 p s) as [s1|] eqn:Es; [|discriminate]. eapply IH; [|exact E]. eapply rsCons; [exact R|]. exists 200%nat, p. exact Es.
Qed.
Definition firstTwo (m : mstate) : option (gor * gor) := match m with Running 2 [x; y] => Some (x, y) | _ => None end.
Lemma confused_lost : lost (fst (after chain confused)).
Proof. constructor; try (vm_compute; reflexivity). eexists. vm_compute. reflexivity. Qed.
Lemma confused_two : exists x, firstTwo (snd (after chain confused)) = Some (x, InFrame (HasIndex 0 true)).
Proof. eexists. vm_compute. reflexivity. Qed.
Lemma confused_start : exists k g kid0 kid1, runs chain k start (g, Running 2 [kid0; kid1]) /\ lost g /\ turning kid1.
Proof.
  assert (A : allowed chain confused = true) by (vm_compute; reflexivity). pose proof confused_lost as L. destruct confused_two as (x & T).
  unfold allowed, after in *. destruct (runPaths chain 200 confused start) as [[g m]|] eqn:E; [|discriminate]. cbn [fst snd] in *.
  destruct (runs_paths chain confused start _ 0 ltac:(constructor) E) as (k & R).
  destruct m as [[|[|[|k2]]] [|kid0 [|kid1 [|]]]| | |]; try discriminate T. injection T as -> ->. exists k, g. do 2 eexists. split; [exact R|]. split; [exact L|]. constructor.
Qed.
Lemma importsA : importsIn contentA = [B "/b"].
Proof. vm_compute. reflexivity. Qed.
Lemma C34_race_lemma : exists P, (forall f, involved P f -> parserReturns P f) /\ (forall f, involved P f -> grounded P f) /\ forall k, exists s, runs P k start s.
Proof.
  exists chain.
  assert (Ed : forall f g, edge chain f g -> f = B "/a" /\ g = B "/b").
  { intros f g (spec & rel & I & R2 & A). pose proof I as (c & _ & _ & _ & _ & R & _). apply lookup_In in R as [R|[R|[]]]; injection R as <- <-.
    - apply (imports_compute chain _ _ contentA) in I; [|reflexivity|vm_compute; discriminate]. rewrite importsA in I.
      destruct I as [<-|[]]. cbn [chain simple p_abs p_resolve] in R2, A. split; congruence.
    - apply (imports_compute chain _ _ (B "x{y:z}")) in I; [|reflexivity|vm_compute; discriminate]. vm_compute in I. destruct I. }
  split; [|split].
  - intros f _ content R. exists 200%nat. apply lookup_In in R as [R|[R|[]]]; injection R as <- <-; vm_compute; discriminate.
  - assert (Gb : grounded chain (B "/b")) by (constructor; intros g E; apply Ed in E as [E _]; discriminate).
    intros f _. constructor. intros g E. apply Ed in E as [_ ->]. exact Gb.
  - pose proof confused_start as St.
    assert (More : forall g kid0 kid1 k0, lost g -> turning kid1 -> runs chain k0 start (g, Running 2 [kid0; kid1]) ->
       forall j, exists g' kid1', runs chain (j + k0) start (g', Running 2 [kid0; kid1']) /\ lost g' /\ turning kid1').
    { intros g kid0 kid1 k0 L T R j. induction j as [|j (g1 & t1 & R1 & L1 & T1)]; [eauto|].
      destruct (turn t1 T1 g1 L1) as (path & g' & t' & E & L' & T'). exists g', t'. split; [|auto]. cbn [Nat.add]. eapply rsCons; [exact R1|].
      exists 200%nat, (1%nat :: path). cbn [stepM nth_error]. rewrite E. destruct T1; reflexivity. }
    assert (Prefix : forall k s, runs chain k start s -> forall j, (j <= k)%nat -> exists s', runs chain j start s').
    { induction k as [|k IH]; intros s R j Hj; [exists s; replace j with 0%nat by lia; exact R|].
      destruct (Nat.eq_dec j (S k)) as [->|]; [exists s; exact R|]. inversion R; subst. eapply IH; [eassumption|lia]. }
    destruct St as (k0 & g & kid0 & kid1 & R & L & T). intros k. destruct (More _ _ _ _ L T R k) as (g' & t' & R' & _). eapply Prefix; [exact R'|]. lia.
Qed.
