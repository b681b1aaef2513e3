(** One entry file, imports passed through: C36. *)
From Verif Require Import Bytes Utf8 Source Lexer Ast BytesFacts Parser ParseMono Printer Transformer TransSpec TransProofs TransMedia TransInline
  Resolver Compile CompileSpec CompileSteps.

Section WithFloats.
Context {FO : FloatOps}.
Variable o : topts.
Lemma le_nodes_none : forall n k ns, (n <= k)%nat -> le (transformNodes o None n ns) (transformNodes o None k ns).
Proof.
  intros n k ns H. destruct n as [|n]; [apply le_timeout|]. destruct k as [|k]; [lia|].
  induction ns as [|nd r IH]; [rewrite !nodes_nil; apply le_ret|]. rewrite !nodes_cons.
  apply le_bind; [|intros; apply le_bind; [exact IH|intros; apply le_ret]].
  destruct nd as [q|a]; cbn [oneNode].
  - repeat first [apply le_rule; lia|le1].
  - repeat first [apply le_addCustom|apply le_mqs|le1].
Qed.
Lemma transform_agree n k ss a b t u : transform o None n ss = TOk a t -> transform o None k ss = TOk b u -> a = b.
Proof.
  unfold transform. intros H1 H2.
  destruct (transformNodes o None n (ss_nodes ss) _) as [x t1| |] eqn:E1; try discriminate.
  destruct (transformNodes o None k (ss_nodes ss) _) as [y t2| |] eqn:E2; try discriminate.
  inversion H1; inversion H2; subst.
  destruct (le_nodes_none n (max n k) (ss_nodes ss) ltac:(lia) _ _ (conj eq_refl eq_refl) _ _ E1) as (u1 & F1 & _).
  destruct (le_nodes_none k (max n k) (ss_nodes ss) ltac:(lia) _ _ (conj eq_refl eq_refl) _ _ E2) as (u2 & F2 & _).
  congruence.
Qed.
(** Only the nodes listed are written to. *)
Lemma refs_frame n rs h t rs' h' t' : transformRefs o None n rs h t = TOk (rs', h') t' ->
  forall r, ~ In r rs -> deref h' r = deref h r.
Proof.
  destruct n as [|n]; [discriminate|]. cbn [transformRefs]. revert h t rs' h' t'.
  induction rs as [|r rs IH]; intros h t rs' h' t' H r' Hr.
  - inversion H; subst. auto.
  - apply tbind_ok in H as ([here h1] & t1 & H1 & H). apply tbind_ok in H as ([more h2] & t2 & H2 & H). cbn [fst snd] in *. inversion H; subst. clear H.
    rewrite (IH _ _ _ _ _ H2 r') by (intros X; apply Hr; right; auto). assert (Hn : r' <> r) by (intros ->; apply Hr; left; auto).
    destruct (deref h r) as [[q|a]|]; [| |discriminate].
    + apply tbind_ok in H1 as (q' & t3 & _ & H). destruct q'; inversion H; subst; [apply deref_other|]; auto.
    + destruct (beq (ar_name a) (B "import")); [inversion H1; subst; auto|].
      destruct (beq (ar_name a) (B "custom-media")); [apply tbind_ok in H1 as (q' & t3 & _ & H); inversion H; subst; auto|].
      destruct (beq (ar_name a) (B "media")); [|inversion H1; subst; auto].
      destruct (ar_preludes a) as [|[| |[lsp qs]| |] pres]; try discriminate. apply tbind_ok in H1 as (q' & t3 & _ & H). inversion H; subst.
      apply deref_other; auto.
Qed.
Lemma refs_incl n rs h t rs' h' t' : transformRefs o None n rs h t = TOk (rs', h') t' -> incl rs' rs.
Proof.
  destruct n as [|n]; [discriminate|]. cbn [transformRefs]. revert h t rs' h' t'.
  induction rs as [|r rs IH]; intros h t rs' h' t' H.
  - inversion H; subst. intros ? [].
  - apply tbind_ok in H as ([here h1] & t1 & H1 & H). apply tbind_ok in H as ([more h2] & t2 & H2 & H). cbn [fst snd] in *. inversion H; subst. clear H.
    apply incl_app; [|apply incl_tl; eapply IH; eauto]. clear H2.
    assert (K1 : incl [r] (r :: rs)) by (intros x [<-|[]]; left; auto). assert (K2 : incl [r; r] (r :: rs)) by (intros x [<-|[<-|[]]]; left; auto).
    assert (K0 : incl [] (r :: rs)) by (intros x []).
    destruct (deref h r) as [[q|a]|]; [| |discriminate].
    + apply tbind_ok in H1 as (q' & t3 & _ & H). destruct q'; inversion H; subst; auto.
    + destruct (beq (ar_name a) (B "import")); [inversion H1; subst; auto|].
      destruct (beq (ar_name a) (B "custom-media")); [apply tbind_ok in H1 as (q' & t3 & _ & H); inversion H; subst; auto|].
      destruct (beq (ar_name a) (B "media")); [|inversion H1; subst; auto].
      destruct (ar_preludes a) as [|[| |[lsp qs]| |] pres]; try discriminate. apply tbind_ok in H1 as (q' & t3 & _ & H). inversion H; subst. auto.
Qed.
End WithFloats.

Section WithProject.
Context {U : UnicodeDigits} {FO : FloatOps}.
Variable P : project.
Lemma compiled_unique f x y : compiled P f x -> compiled P f y -> x = y.
Proof.
  intros (c1 & n1 & m1 & s1 & l1 & r1 & t1 & A1 & A2 & A3 & A4) (c2 & n2 & m2 & s2 & l2 & r2 & t2 & B1 & B2 & B3 & B4).
  assert (c1 = c2) by congruence. subst. assert (E : parse 0 n1 c2 = parse 0 n2 c2) by (apply parse_agree; congruence).
  rewrite A2, B2 in E. inversion E; subst. assert (r1 = r2) by (eapply transform_agree; eauto). subst. congruence.
Qed.

Section Entry.
Variable a : bytes.
Hypothesis passthrough : o_imports (p_opts P) = ImportPassthrough.
Hypothesis acyclic : ~ leads P a a.
(** The entry's source and nodes once it has been parsed. *)
Variables (src0 : source) (nds0 : list node).
Let rs0 := map (pair 0%nat) (seq 0 (length nds0)).

Definition sameFile (s t : source) : Prop := src_path s = src_path t /\ src_content s = src_content t.
Record shared (g : glob) : Prop := {
  sh_next : (1 <= g_next g)%nat;
  sh_runs : (1 <= g_runs g)%nat;
  sh_out : g_outputs g = [0%nat];
  sh_asts : ilookup 0 (g_asts g) = None;
  sh_by0 : ilookup 0 (g_byIndex g) = Some 0%nat;
  sh_src0 : nth_error (g_srcs g) 0 = Some src0;
  sh_heap : derefs (g_heap g) rs0 = Some nds0;
  sh_sources : forall p, lookup p (g_sources g) = Some 0%nat -> p = a;
  sh_by : forall i s, ilookup i (g_byIndex g) = Some s -> i <> 0%nat -> s <> 0%nat;
  sh_srcs : forall s src, nth_error (g_srcs g) s = Some src ->
    p_read P (src_path src) = Some (src_content src) /\ (s = 0%nat -> src_path src = a) /\ (s <> 0%nat -> leads P a (src_path src)) }.
Definition grows (g g' : glob) : Prop := forall s src, nth_error (g_srcs g) s = Some src ->
  exists src', nth_error (g_srcs g') s = Some src' /\ sameFile src src'.
Lemma grows_same g g' : g_srcs g' = g_srcs g -> grows g g'.
Proof. intros E s src H. exists src. rewrite E. split; auto. split; auto. Qed.
Lemma grows_trans g1 g2 g3 : grows g1 g2 -> grows g2 g3 -> grows g1 g3.
Proof.
  intros H1 H2 s src H. destruct (H1 _ _ H) as (x & Hx & S1 & S2). destruct (H2 _ _ Hx) as (y & Hy & S3 & S4).
  exists y. split; auto. split; congruence.
Qed.

Definition frameOk (f : frame) : Prop :=
  match f with
  | Called file out => out = false /\ forall b, p_abs P file = Some b -> leads P a b
  | Missed file abs out => out = false /\ leads P a abs
  | ReadIn abs content out => out = false /\ leads P a abs /\ p_read P abs = Some content
  | Indexed i abs content out => out = false /\ i <> 0%nat /\ leads P a abs /\ p_read P abs = Some content
  | Stored i out => out = false /\ i <> 0%nat
  | Counted i tmp out => out = false /\ i <> 0%nat /\ (1 <= tmp)%nat
  | HasIndex i out => out = false /\ i <> 0%nat
  | Looking i | NotParsed i => i <> 0%nat
  | HasSource i s => i <> 0%nat /\ s <> 0%nat
  | Transformed i rs => i <> 0%nat
  end.
(** Resolving the specifiers of [imps] from the source [s] stays below [a]. *)
Definition below (g : glob) (s : sref) (imps : list (bytes * ptr)) : Prop :=
  exists src, nth_error (g_srcs g) s = Some src /\
  forall spec rel b, In spec (map fst imps) -> p_resolve P spec (fpDir (src_path src)) = Some rel -> p_abs P rel = Some b -> leads P a b.
Inductive ok (g : glob) : gor -> Prop :=
| okFresh : ok g Fresh
| okFrame f : frameOk f -> ok g (InFrame f)
| okLoop i s rs imps k repl kids : i <> 0%nat -> s <> 0%nat -> Forall (fun r => fst r <> 0%nat) rs -> below g s imps ->
    Forall (ok g) kids -> ok g (InLoop i s rs imps k repl kids)
| okBack ret : ok g (Back ret)
| okDone : ok g Done.
Lemma below_grows g g' s imps : grows g g' -> below g s imps -> below g' s imps.
Proof. intros G (src & H1 & H2). destruct (G _ _ H1) as (src' & H3 & E & _). exists src'. split; auto. rewrite <- E. auto. Qed.
Lemma ok_grows g g' (G : grows g g') : forall t, ok g t -> ok g' t.
Proof.
  fix IH 2. intros t [| f Hf|i s rs imps k repl kids H1 H2 H3 H4 H5| |]; constructor; auto; [eapply below_grows; eauto|].
  clear H4. induction H5; constructor; auto.
Qed.

Lemma shared_addError g e : shared g -> shared (addError g e).
Proof. intros []; constructor; auto. Qed.
Lemma current_in {A} k (l : list A) x : current k l = Some x -> In x l.
Proof. destruct k; [discriminate|]. apply nth_error_In. Qed.
Lemma notFollow : follow P = false. Proof. unfold follow. rewrite passthrough. auto. Qed.

Lemma lookup_cons {A} p q (x : A) m : lookup p ((q, x) :: m) = if beq p q then Some x else lookup p m.
Proof. reflexivity. Qed.
Lemma nth_app_last {A} (l : list A) x s y : nth_error (l ++ [x]) s = Some y -> nth_error l s = Some y \/ s = length l /\ y = x.
Proof.
  intros H. destruct (Nat.lt_ge_cases s (length l)).
  - rewrite nth_error_app1 in H; auto.
  - rewrite nth_error_app2 in H; auto. right. destruct (s - length l)%nat eqn:E; cbn in H; [|destruct n; discriminate]. inversion H. split; auto. lia.
Qed.
(** A step of a goroutine below the entry's. *)
Lemma frame_ok n g f g' t' : shared g -> frameOk f -> frameStep P n g f = Some (Go g' t') -> shared g' /\ grows g g' /\ ok g' t'.
Proof.
  intros Sh Hf H. destruct f as [file out|file abs out|abs content out|i abs content out|i out|i tmp out|i out|i|i|i s|i rs]; cbn [frameStep frameOk] in *.
  - destruct Hf as [-> Hf]. destruct (p_abs P file) as [abs|] eqn:Ea.
    + destruct (lookup abs (g_sources g)) as [i|] eqn:El; inversion H; subst; (split; [auto|split; [apply grows_same; auto|]]); constructor; cbn.
      * split; auto. intros ->. apply (sh_sources _ Sh) in El. subst. apply acyclic. auto.
      * auto.
    + inversion H; subst. split; [apply shared_addError; auto|split; [apply grows_same; auto|constructor]].
  - destruct Hf as [-> Hf]. destruct (p_read P abs) as [content|] eqn:Er; inversion H; subst.
    + split; [auto|split; [apply grows_same; auto|]]. constructor. cbn. auto.
    + split; [apply shared_addError; auto|split; [apply grows_same; auto|constructor]].
  - destruct Hf as (-> & Hf & Hr). inversion H; subst. pose proof (sh_next _ Sh). split; [|split; [apply grows_same; auto|constructor; cbn; repeat split; auto; lia]].
    destruct Sh; constructor; cbn -[nth_error]; auto. intros p. destruct (beq p abs) eqn:E; auto. intros [=E1]. lia.
  - destruct Hf as (-> & Hi & Hf & Hr). inversion H; subst.
    assert (L : (1 <= length (g_srcs g))%nat). { pose proof (sh_src0 _ Sh) as X. destruct (g_srcs g); [discriminate|cbn; lia]. }
    split; [|split; [|constructor; cbn; auto]].
    + destruct Sh; constructor; cbn -[nth_error]; auto.
      * destruct i; [tauto|]. auto.
      * rewrite nth_error_app1; auto.
      * intros j s. destruct (j =? i)%nat eqn:E; [|eauto]. intros [=<-] _. lia.
      * intros s src Hs. apply nth_app_last in Hs as [Hs|[-> ->]]; auto. cbn. repeat split; auto. lia.
    + intros s src Hs. exists src. split; [|split; auto]. cbn. rewrite nth_error_app1; auto. apply nth_error_Some. congruence.
  - destruct Hf as (-> & Hi). inversion H; subst. split; [auto|split; [apply grows_same; auto|constructor; cbn; repeat split; auto; apply (sh_next _ Sh)]].
  - destruct Hf as (-> & Hi & Ht). inversion H; subst. split; [|split; [apply grows_same; auto|constructor; cbn; auto]].
    destruct Sh; constructor; cbn -[nth_error]; auto with arith.
  - destruct Hf as (-> & Hi). inversion H; subst. split; [auto|split; [apply grows_same; auto|constructor; cbn; auto]].
  - destruct (ilookup i (g_asts g)); inversion H; subst; (split; [auto|split; [apply grows_same; auto|constructor; cbn; auto]]).
  - destruct (ilookup i (g_byIndex g)) eqn:E; inversion H; subst; (split; [auto|split; [apply grows_same; auto|constructor; cbn; auto]]).
    split; auto. eapply (sh_by _ Sh); eauto.
  - destruct Hf as (Hi & Hs). destruct (nth_error (g_srcs g) s) as [src|] eqn:Es; [|discriminate].
    set (read := fun lines => mkG (g_sources g) (g_next g) (g_byIndex g) (g_asts g) (g_outputs g) (g_errors g)
        (upd s (mkSource (src_path src) (src_content src) (src_lines src ++ lines)) (g_srcs g)) (g_heap g) (S (g_runs g))) in *.
    assert (Gr : forall lines, grows g (read lines)).
    { intros lines s1 src1 H1. unfold read. cbn. rewrite nth_upd. destruct (s1 =? s)%nat eqn:E.
      - apply Nat.eqb_eq in E. subst. rewrite Es in *. inversion H1; subst. eexists. split; [reflexivity|split; auto].
      - exists src1. split; auto. split; auto. }
    assert (Sr : forall lines, shared (read lines)).
    { intros lines. destruct Sh; constructor; cbn -[nth_error]; auto.
      - rewrite nth_upd. destruct s; [tauto|]. auto.
      - intros s1 src1. rewrite nth_upd. destruct (s1 =? s)%nat eqn:E; [|apply sh_srcs0]. apply Nat.eqb_eq in E. subst. rewrite Es. cbn. intros [=<-]. cbn.
        apply sh_srcs0 in Es. tauto. }
    destruct (parse (g_runs g) n (src_content src)) as [ss lines|sp msg lines| |] eqn:Ep; try discriminate; inversion H; subst.
    + pose proof (sh_runs _ Sh) as Hr. split; [|split].
      * destruct (Sr lines); constructor; cbn; auto. rewrite <- sh_heap0. apply derefs_ext. intros r Hi'. apply deref_alloc_other.
        apply in_map_iff in Hi' as (x & <- & _). cbn. lia.
      * exact (Gr lines).
      * constructor; auto.
        -- rewrite alloc_refs. rewrite Forall_forall. intros r Hi'. apply in_map_iff in Hi' as (x & <- & _). cbn. lia.
        -- destruct (Gr lines _ _ Es) as (src' & H1 & E1 & _). exists src'. split; [exact H1|]. rewrite <- E1.
           intros spec rel b Hi' Hrs Hab. apply (sh_srcs _ Sh) in Es as (R1 & _ & R3). eapply leadsStep; [apply R3; auto|].
           exists spec, rel. split; auto. exists (src_content src), (g_runs g), n, ss, lines. auto.
    + split; [apply shared_addError; exact (Sr lines)|split; [exact (Gr lines)|constructor]].
  - inversion H; subst. split; [|split; [apply grows_same; auto|constructor]]. destruct Sh; constructor; cbn -[nth_error]; auto. destruct i; [tauto|]. auto.
Qed.
Lemma transform_ok n g i s rs repl g' t' : shared g -> i <> 0%nat -> Forall (fun r => fst r <> 0%nat) rs ->
  transformStep P n g i s rs repl = Some (Go g' t') -> shared g' /\ grows g g' /\ ok g' t'.
Proof.
  intros Sh Hi Hr H. unfold transformStep in H. rewrite passthrough in H.
  destruct (transformRefs _ _ _ _ _ _) as [[rs' h] t| |] eqn:E; inversion H; subst.
  split; [|split; [apply grows_same; auto|constructor; auto]]. destruct Sh; constructor; cbn -[nth_error]; auto.
  rewrite <- sh_heap0. apply derefs_ext. intros r Hi'. eapply refs_frame; eauto. intros X. rewrite Forall_forall in Hr. apply (Hr r X).
  apply in_map_iff in Hi' as (x & <- & _). auto.
Qed.
Lemma gstep_ok g t g' t' : gstep P g t g' t' -> shared g -> ok g t -> shared g' /\ grows g g' /\ ok g' t'.
Proof.
  intros H. induction H; intros Sh Ht; inversion Ht; subst.
  - eapply frame_ok; eauto.
  - split; [auto|split; [apply grows_same; auto|]]. constructor; auto. apply Forall_app. split; auto. constructor; [constructor|constructor].
  - eapply transform_ok; [exact Sh| | |exact H1]; auto.
  - split; [auto|split; [apply grows_same; auto|]]. constructor; auto. apply Forall_app in H13 as [F1 F2]. inversion F2; subst.
    apply Forall_app. split; auto. constructor; auto. constructor. cbn. rewrite notFollow. split; auto. intros c Hc.
    destruct H12 as (src' & E & Hb). rewrite E in H0. inversion H0; subst. eapply Hb; eauto. apply in_map_iff. exists (spec, at_). split; auto.
    eapply current_in; eauto.
  - split; [apply shared_addError; auto|split; [apply grows_same; auto|]]. apply (ok_grows g); [apply grows_same; auto|].
    constructor; auto. apply Forall_app in H13 as [F1 F2]. inversion F2; subst. apply Forall_app. split; auto. constructor; auto. constructor.
  - split; [auto|split; [apply grows_same; auto|]]. constructor; auto. apply Forall_app in H11 as [F1 F2]. inversion F2; subst.
    apply Forall_app. split; auto. constructor; auto. constructor.
  - match goal with F : Forall (ok g) (_ ++ _) |- _ => apply Forall_app in F as [F1 F2] end. inversion F2; subst.
    destruct IHgstep as (S1 & G1 & O1); auto. split; [auto|split; auto].
    apply (ok_grows _ _ G1) in Ht. inversion Ht; subst. constructor; auto.
    match goal with F : Forall (ok g') (_ ++ _) |- _ => apply Forall_app in F as [F3 F4] end. inversion F4; subst.
    apply Forall_app. auto.
Qed.
End Entry.

(** ** The whole execution *)
Section Run.
Variable e : bytes.
Hypothesis oneEntry : p_entries P = [e].
Hypothesis passthrough : o_imports (p_opts P) = ImportPassthrough.
Hypothesis acyclic : forall a, p_abs P e = Some a -> ~ leads P a a.

Definition nothing (g : glob) : Prop :=
  (g_outputs g = [] \/ g_outputs g = [0%nat] /\ ilookup 0 (g_asts g) = None) /\ g_errors g <> [] /\ forall a out, p_abs P e = Some a -> ~ compiled P a out.
Definition something (g : glob) (rs : list nref) : Prop := exists a content n m ss lines ss' t,
  p_abs P e = Some a /\ p_read P a = Some content /\ parse 0 n content = ParseOk ss lines /\ transform (p_opts P) None m ss = TOk ss' t /\
  nth_error (g_srcs g) 0 = Some (mkSource a content lines) /\ derefs (g_heap g) rs = Some (ss_nodes ss') /\
  g_outputs g = [0%nat] /\ ilookup 0 (g_byIndex g) = Some 0%nat.
Definition gOne (a content : bytes) (next : nat) (outs : list nat) : glob :=
  mkG [(a, 0%nat)] next [(0, 0)]%nat [] outs [] [mkSource a content []] [] 0.
Inductive root : glob -> gor -> Prop :=
| rFresh : root g0 Fresh
| rCalled : root g0 (InFrame (Called e true))
| rMissed a : p_abs P e = Some a -> root g0 (InFrame (Missed e a true))
| rRead a content : p_abs P e = Some a -> p_read P a = Some content -> root g0 (InFrame (ReadIn a content true))
| rIndexed a content : p_abs P e = Some a -> p_read P a = Some content ->
    root (mkG [(a, 0%nat)] 0 [] [] [] [] [] [] 0) (InFrame (Indexed 0 a content true))
| rStored a content : p_abs P e = Some a -> p_read P a = Some content -> root (gOne a content 0 []) (InFrame (Stored 0 true))
| rCounted a content : p_abs P e = Some a -> p_read P a = Some content -> root (gOne a content 0 []) (InFrame (Counted 0 0 true))
| rHas a content : p_abs P e = Some a -> p_read P a = Some content -> root (gOne a content 1 []) (InFrame (HasIndex 0 true))
| rLooking a content : p_abs P e = Some a -> p_read P a = Some content -> root (gOne a content 1 [0%nat]) (InFrame (Looking 0))
| rNotParsed a content : p_abs P e = Some a -> p_read P a = Some content -> root (gOne a content 1 [0%nat]) (InFrame (NotParsed 0))
| rSource a content : p_abs P e = Some a -> p_read P a = Some content -> root (gOne a content 1 [0%nat]) (InFrame (HasSource 0 0%nat))
| rLoop g a content n ss lines k repl kids : p_abs P e = Some a -> p_read P a = Some content -> parse 0 n content = ParseOk ss lines ->
    shared a (mkSource a content lines) (ss_nodes ss) g -> below a g 0%nat (ss_imports ss) -> Forall (ok a g) kids ->
    root g (InLoop 0 0%nat (map (pair 0%nat) (seq 0 (length (ss_nodes ss)))) (ss_imports ss) k repl kids)
| rTransformed g rs : something g rs -> root g (InFrame (Transformed 0 rs))
| rBack g rs : something g rs -> ilookup 0 (g_asts g) = Some rs -> root g (Back (Some rs))
| rNone g : nothing g -> root g (Back None)
| rDone g rs : something g rs -> ilookup 0 (g_asts g) = Some rs -> root g Done
| rNothing g : nothing g -> root g Done.

Lemma root_step g t g' t' : gstep P g t g' t' -> root g t -> root g' t'.
Proof.
  intros H R. inversion R; subst; inversion H; subst;
    try match goal with E : [] = _ ++ _ :: _ |- _ => destruct (app_cons_not_nil _ _ _ E) end;
    try match goal with E : frameStep _ _ _ _ = _ |- _ => rename E into F; cbn [frameStep] in F end.
  - destruct (p_abs P e) as [a|] eqn:Ea; inversion F; subst; [constructor; auto|]. constructor. split; [left; auto|split; [discriminate|]]. congruence.
  - destruct (p_read P a) as [content|] eqn:Er; inversion F; subst; [constructor; auto|]. constructor. split; [left; auto|split; [discriminate|]].
    intros a' out E (c & ? & ? & ? & ? & ? & ? & E1 & _). congruence.
  - inversion F; subst. constructor; auto.
  - inversion F; subst. exact (rStored a content H0 H1).
  - inversion F; subst. apply rCounted; auto.
  - inversion F; subst. exact (rHas a content H0 H1).
  - inversion F; subst. exact (rLooking a content H0 H1).
  - inversion F; subst. apply rNotParsed; auto.
  - inversion F; subst. apply rSource; auto.
  - cbn [g_srcs gOne nth_error] in F. cbn [src_content src_path src_lines app] in F. change (g_runs (gOne a content 1 [0%nat])) with 0%nat in F.
    destruct (parse 0 n content) as [ss lines|sp msg lines| |] eqn:Ep; try discriminate; inversion F; subst; clear F.
    + rewrite alloc_refs. eapply rLoop; eauto.
      * constructor; cbn -[nth_error]; auto.
        -- rewrite app_nil_r. rewrite <- (alloc_refs 0 0 (ss_nodes ss)). pose proof (derefs_alloc 0 0 (ss_nodes ss) []) as X. rewrite app_nil_r in X. exact X.
        -- intros p. destruct (beq p a) eqn:E; [|discriminate]. intros _. apply beq_eq. auto.
        -- intros i s. destruct (i =? 0)%nat eqn:E; [|discriminate]. apply Nat.eqb_eq in E. tauto.
        -- intros [|s] src; [|destruct s; discriminate]. intros [=<-]. cbn. repeat split; auto. tauto.
      * exists (mkSource a content lines). split; [reflexivity|]. cbn. intros spec rel b Hi Hr Hb. apply leadsEdge. exists spec, rel. split; auto.
        exists content, 0%nat, n, ss, lines. auto.
    + constructor. split; [right; auto|split; [discriminate|]]. intros a' out Ea' (c & n' & m & ss & lines' & ss' & t & E1 & E2 & _).
      assert (c = content) by congruence. subst. assert (X : parse 0 n content = parse 0 n' content) by (apply parse_agree; congruence). congruence.
  - eapply rLoop; eauto. apply Forall_app. split; auto. constructor; constructor.
  - match goal with S : shared _ _ _ _ |- _ => rename S into Sh end. match goal with E : transformStep _ _ _ _ _ _ _ = _ |- _ => rename E into T end.
    unfold transformStep in T. rewrite passthrough in T.
    destruct (transformRefs _ _ _ _ _ _) as [[rs' h] t| |] eqn:E; inversion T; subst.
    destruct (refs_none _ _ _ _ _ _ _ _ (ss_nodes ss) E) as (ns' & N1 & N2 & N3 & _).
    { rewrite <- (alloc_refs 0 0 (ss_nodes ss)). apply alloc_nodup. }
    { apply (sh_heap _ _ _ _ Sh). }
    constructor. exists a, content, n, n0, ss, lines, (mkSheet ns' (ss_imports ss)), t. repeat split; auto.
    + unfold transform, initState. rewrite passthrough. rewrite N1. reflexivity.
    + apply (sh_src0 _ _ _ _ Sh).
    + apply (sh_out _ _ _ _ Sh).
    + apply (sh_by0 _ _ _ _ Sh).
  - eapply rLoop; eauto. match goal with F : Forall _ (_ ++ _) |- _ => apply Forall_app in F as [F1 F2] end. inversion F2; subst.
    apply Forall_app. split; auto. constructor; auto. constructor. cbn. rewrite notFollow by auto. split; auto. intros c Hc.
    match goal with B : below _ _ _ _ |- _ => destruct B as (src' & E & Hb) end.
    assert (src' = src) by congruence. subst. eapply Hb; eauto. apply in_map_iff. exists (spec, at_). split; auto. eapply current_in; eauto.
  - eapply rLoop; eauto.
    + apply shared_addError. auto.
    + match goal with F : Forall _ (_ ++ _) |- _ => apply Forall_app in F as [F1 F2] end. inversion F2; subst.
      assert (G : grows g (addError g (EResolve spec))) by (apply grows_same; auto).
      apply Forall_app. split; [eapply Forall_impl; [|exact F1]; intros; eapply ok_grows; eauto|].
      constructor; [constructor|]. eapply Forall_impl; [|match goal with F : Forall _ b |- _ => exact F end]. intros; eapply ok_grows; eauto.
  - eapply rLoop; eauto. match goal with F : Forall _ (_ ++ _) |- _ => apply Forall_app in F as [F1 F2] end. inversion F2; subst.
    apply Forall_app. split; auto. constructor; auto. constructor.
  - match goal with F : Forall _ (_ ++ _) |- _ => apply Forall_app in F as [F1 F2] end. inversion F2; subst.
    match goal with G : gstep _ _ _ _ _, S : shared _ _ _ _, K : ok _ _ _ |- _ =>
      destruct (gstep_ok a passthrough (acyclic _ H0) _ _ _ _ _ _ G S K) as (S1 & G1 & O1) end.
    eapply rLoop; eauto; [eapply below_grows; eauto|].
    apply Forall_app. split; [eapply Forall_impl; [|exact F1]; intros; eapply ok_grows; eauto|].
    constructor; auto. eapply Forall_impl; [|match goal with F : Forall _ b |- _ => exact F end]. intros; eapply ok_grows; eauto.
  - inversion F; subst. apply rBack; auto.
Qed.

Definition right_ (fs : files) : Prop := forall p out, lookup p fs = Some out <-> p_abs P e = Some p /\ compiled P p out.
Inductive inv : glob * mstate -> Prop :=
| iStart : inv (g0, Running 0 [])
| iRoot g t : root g t -> inv (g, Running 1 [t])
| iSome g rs : something g rs -> ilookup 0 (g_asts g) = Some rs -> inv (g, Printing [0%nat] [])
| iNone g : nothing g -> inv (g, Printing (g_outputs g) [])
| iPrinted g out : right_ out -> (out = [] -> g_errors g <> []) -> inv (g, Printing [] out)
| iEnd g out : right_ out -> (out = [] -> g_errors g <> []) -> inv (g, Finished out)
| iCrash g : inv (g, Crashed).
Lemma right_nothing g : nothing g -> right_ [].
Proof. intros (_ & _ & H) p out. split; [discriminate|]. intros [E C]. destruct (H _ _ E C). Qed.
Lemma single {A} (a : list A) x b y : [y] = a ++ x :: b -> a = [] /\ b = [] /\ x = y.
Proof. destruct a as [|z [|w a]]; cbn; intros H; inversion H; auto. Qed.
Lemma inv_step s s' : mstep P s s' -> inv s -> inv s'.
Proof.
  intros H I. inversion I; subst; inversion H; subst;
    try match goal with E : [] = _ ++ _ :: _ |- _ => destruct (app_cons_not_nil _ _ _ E) end;
    try match goal with E : _ ++ _ :: _ = [] |- _ => symmetry in E; destruct (app_cons_not_nil _ _ _ E) end;
    try match goal with E : [_] = _ ++ _ :: _ |- _ => apply single in E as (-> & -> & E); subst end;
    try match goal with E : _ ++ _ :: _ = [_] |- _ => symmetry in E; apply single in E as (-> & -> & E); subst end;
    try (constructor; fail).
  - apply iRoot. constructor.
  - rewrite oneEntry in *. cbn in *. lia.
  - rewrite oneEntry in *. cbn in *. lia.
  - match goal with D : forallb _ _ = true |- _ => cbn in D; destruct t; try discriminate end.
    match goal with R : root _ Done |- _ => inversion R; subst end.
    + match goal with S : something _ _ |- _ => pose proof S as S' end. destruct S' as (a & c & n & m & ss & ls & ss' & t & _ & _ & _ & _ & _ & _ & -> & _).
      eapply iSome; eauto.
    + apply iNone; auto.
  - match goal with C : current _ _ = _ |- _ => rewrite oneEntry in C; cbn in C; inversion C; subst end. apply iRoot. 
    match goal with R : root _ Fresh |- _ => inversion R; subst end. constructor.
  - apply iRoot. match goal with R : root _ (Back _) |- _ => inversion R; subst end; [eapply rDone; eauto|apply rNothing; auto].
  - apply iRoot. eapply root_step; eauto.
  - match goal with S : something _ _ |- _ => destruct S as (a & c & n & m & ss & ls & ss' & t & A1 & A2 & A3 & A4 & A5 & A6 & A7 & A8) end.
    unfold printOne. match goal with E : ilookup 0 (g_asts g) = _ |- _ => rewrite A8, E, A5, A6 end.
    assert (C : forall out, compiled P a out <-> print (Some (mkSource a c ls)) (ss_nodes ss') = Some out).
    { intros out. split.
      - intros (c2 & n2 & m2 & s2 & l2 & r2 & t2 & B1 & B2 & B3 & B4). assert (c2 = c) by congruence. subst.
        assert (X : parse 0 n c = parse 0 n2 c) by (apply parse_agree; congruence). rewrite A3, B2 in X. inversion X; subst.
        assert (ss' = r2) by (eapply transform_agree; eauto). subst. auto.
      - intros Hp. exists c, n, m, ss, ls, ss', t. auto. }
    destruct (print _ _) as [css|] eqn:Ep; cbn [fst snd]; apply iPrinted; try discriminate.
    + intros p out. cbn. destruct (beq p a) eqn:E.
      * apply beq_eq in E. subst. split.
        -- intros [=<-]. split; auto. apply C. auto.
        -- intros [_ Hc]. apply C in Hc. congruence.
      * split; [discriminate|]. intros [Hp _]. assert (p = a) by congruence. subst. rewrite beq_refl in E. discriminate.
    + intros p out. split; [discriminate|]. intros [Hp Hc]. assert (p = a) by congruence. subst. apply C in Hc. discriminate.
    + intros _ X. cbn in X. apply app_eq_nil in X as [_ X]. discriminate.
  - match goal with N : nothing _ |- _ => pose proof (right_nothing _ N) as R; destruct N as [[X0|[X1 X2]] [X3 _]] end.
    + match goal with E : _ ++ _ :: _ = g_outputs _ |- _ => rewrite X0 in E; symmetry in E; destruct (app_cons_not_nil _ _ _ E) end.
    + match goal with E : _ ++ _ :: _ = g_outputs _ |- _ => rewrite X1 in E; symmetry in E; apply single in E as (-> & -> & E); subst end.
      unfold printOne. rewrite X2. destruct (ilookup 0 (g_byIndex g)); apply iPrinted; auto.
  - match goal with N : nothing _ |- _ => pose proof (right_nothing _ N) as R; destruct N as [_ [X3 _]] end. apply iEnd; auto.
  - apply iEnd; auto.
Qed.
Lemma inv_reach s : reach P s -> inv s.
Proof. induction 1; [constructor|]. eapply inv_step; eauto. apply step_mstep. auto. Qed.
Lemma C36_lemma g fs : reach P (g, Finished fs) -> forall p out, lookup p fs = Some out <-> p_abs P e = Some p /\ compiled P p out.
Proof. intros H. apply inv_reach in H. inversion H; subst. auto. Qed.
(** No output without an error. *)
Lemma errors_lemma g fs : reach P (g, Finished fs) -> fs = [] -> g_errors g <> [].
Proof. intros H. apply inv_reach in H. inversion H; subst. auto. Qed.
End Run.
End WithProject.
