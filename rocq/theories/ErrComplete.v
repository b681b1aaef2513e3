(** What the last entry leads to by last @imports is reported: C59. *)
From Verif Require Import Bytes Utf8 Source Lexer Ast Parser ParseMono ParserSpec ParseRerun Printer Transformer TransSpec TransProofs TransRerun TransInline
  Resolver Compile CompileSpec CompileSteps CompileOne CompileCalm CompileRefs CompileEnd CompileMany ErrSpec ErrSound.

Section WithProject.
Context {U : UnicodeDigits} {FO : FloatOps}.
Variable P : project.
Hypothesis notInline : o_imports (p_opts P) <> ImportInline.
Let o := p_opts P.

(** * More fuel, same reports *)
Definition lq {A} (m1 m2 : TM A) : Prop := forall t a u, m1 t = TOk a u -> m2 t = TOk a u.
Lemma lq_refl {A} (m : TM A) : lq m m. Proof. intros t a u H. exact H. Qed.
Lemma lq_timeout {A} (m : TM A) : lq ttimeout m. Proof. intros t a u H. discriminate. Qed.
Lemma lq_bind {A C} (m1 m2 : TM A) (k1 k2 : A -> TM C) : lq m1 m2 -> (forall a, lq (k1 a) (k2 a)) -> lq (tbind m1 k1) (tbind m2 k2).
Proof.
  intros Hm Hk t x u H. apply tbind_ok in H as (a & t1 & H1 & H2). eapply tbind_intro; [apply Hm; exact H1|apply Hk; exact H2].
Qed.
Ltac lq1 := first
  [ apply lq_refl | apply lq_timeout | assumption | apply lq_bind; [|intros]
  | match goal with
    | |- lq (if ?b then _ else _) _ => destruct b
    | |- lq (match ?b with _ => _ end) _ => destruct b
    end ].
Lemma lq_value : forall n k v, (n <= k)%nat -> lq (transformValue o n v) (transformValue o k v).
Proof.
  intros n. induction n as [|n IH]; intros k v Hk; [apply lq_timeout|]. destruct k as [|k]; [lia|].
  assert (IH' : forall v, lq (transformValue o n v) (transformValue o k v)) by (intros; apply IH; lia).
  cbn [transformValue]. destruct v; try apply lq_refl. repeat first [apply IH'|lq1].
Qed.
Lemma lq_values : forall n k vs, (n <= k)%nat -> lq (transformValues o n vs) (transformValues o k vs).
Proof. intros n k vs H. induction vs; cbn [transformValues]; repeat first [apply lq_value; exact H|lq1]. Qed.
Lemma lq_decls : forall n k ds, (n <= k)%nat -> lq (transformDecls o n ds) (transformDecls o k ds).
Proof. intros n k ds H. induction ds; cbn [transformDecls]; repeat first [apply lq_values; exact H|lq1]. Qed.
Lemma lq_rule : forall n k r, (n <= k)%nat -> lq (transformRule o n r) (transformRule o k r).
Proof. intros n k r H. unfold transformRule. repeat first [apply lq_decls; exact H|lq1]. Qed.
Lemma lq_nodes : forall n k ns, (n <= k)%nat -> lq (transformNodes o None n ns) (transformNodes o None k ns).
Proof.
  intros n k ns H. destruct n as [|n]; [apply lq_timeout|]. destruct k as [|k]; [lia|].
  induction ns as [|nd r IH]; [rewrite !nodes_nil; apply lq_refl|]. rewrite !nodes_cons.
  apply lq_bind; [|intros; apply lq_bind; [exact IH|intros; apply lq_refl]].
  destruct nd as [q|a]; cbn [oneNode]; repeat first [apply lq_rule; lia|lq1].
Qed.

(** * Requests and their answers *)
(** A call of parseFile, an @import of the file at [a], what is below the file
    at [a] once its source is there. *)
Inductive req := RFile (file : bytes) | RImport (a spec : bytes) | RPath (a : bytes).
Inductive answered (g : glob) : req -> Prop :=
| anNoAbs file : p_abs P file = None -> In (EAbs file) (g_errors g) -> answered g (RFile file)
| anNoRead file a : p_abs P file = Some a -> p_read P a = None -> In (ERead file) (g_errors g) -> answered g (RFile file)
| anFile file a : p_abs P file = Some a -> answered g (RPath a) -> answered g (RFile file)
| anNoResolve a spec : p_resolve P spec (fpDir a) = None -> In (EResolve spec) (g_errors g) -> answered g (RImport a spec)
| anResolve a spec rel : p_resolve P spec (fpDir a) = Some rel -> answered g (RFile rel) -> answered g (RImport a spec)
| anErr a s content n sp msg L : names g s a -> p_read P a = Some content -> parse 0 n content = ParseErr sp msg L ->
    In (EParse s sp msg) (g_errors g) -> answered g (RPath a)
| anOk a s content n ss L m ss' t : names g s a -> p_read P a = Some content -> parse 0 n content = ParseOk ss L ->
    transform o None m ss = TOk ss' t -> (forall r, In r (t_reports t) -> In (ETransform s r) (g_errors g)) ->
    (forall l spec at_, ss_imports ss = l ++ [(spec, at_)] -> answered g (RImport a spec)) -> answered g (RPath a).

(** What steps keep. *)
Definition moves (g g' : glob) : Prop := sameKept g g' /\ incl (g_errors g) (g_errors g').
Lemma names_moves g g' s a : moves g g' -> names g s a -> names g' s a.
Proof. intros ((K & _) & _) (src & H1 & H2). destruct (K _ _ H1) as (src' & X1 & X2 & X3). exists src'. split; congruence. Qed.
Lemma answered_moves g g' r : moves g g' -> answered g r -> answered g' r.
Proof.
  intros K H. pose proof (proj2 K) as Ei. induction H.
  - apply anNoAbs; auto.
  - eapply anNoRead; eauto.
  - eapply anFile; eauto.
  - apply anNoResolve; auto.
  - eapply anResolve; eauto.
  - eapply anErr; eauto. eapply names_moves; eauto.
  - eapply anOk; eauto. eapply names_moves; eauto.
Qed.

(** * What a goroutine is doing for a request *)
Definition indexOf (f : frame) : option nat :=
  match f with Stored i _ | Counted i _ _ | HasIndex i _ | Looking i | NotParsed i => Some i | _ => None end.
Inductive serves (g : glob) : req -> gor -> Prop :=
| svFresh a spec : serves g (RImport a spec) Fresh
| svCalled file out : serves g (RFile file) (InFrame (Called file out))
| svMissed file a out : p_abs P file = Some a -> serves g (RFile file) (InFrame (Missed file a out))
| svRead file a c out : p_abs P file = Some a -> serves g (RFile file) (InFrame (ReadIn a c out))
| svIndexed file a i c out : p_abs P file = Some a -> serves g (RFile file) (InFrame (Indexed i a c out))
| svIndex file a i f : p_abs P file = Some a -> pathIs g i a -> indexOf f = Some i -> serves g (RFile file) (InFrame f)
| svSource file a i s : p_abs P file = Some a -> pathIs g i a -> ilookup i (g_byIndex g) = Some s -> serves g (RFile file) (InFrame (HasSource i s))
| svLoop file a i s src n ss L rs imps k repl kids : p_abs P file = Some a -> ilookup i (g_byIndex g) = Some s ->
    nth_error (g_srcs g) s = Some src -> src_path src = a -> parse 0 n (src_content src) = ParseOk ss L -> map fst imps = map fst (ss_imports ss) ->
    Forall (fun kid => exists r, serves g r kid) kids ->
    (forall l kid l' spec at_, kids = l ++ [kid] -> length kids = length imps -> imps = l' ++ [(spec, at_)] -> serves g (RImport a spec) kid) ->
    serves g (RFile file) (InLoop i s rs imps k repl kids)
| svTransformed file a i rs : p_abs P file = Some a -> pathIs g i a -> answered g (RPath a) -> serves g (RFile file) (InFrame (Transformed i rs))
| svBack file ret : answered g (RFile file) -> serves g (RFile file) (Back ret)
| svDone file : answered g (RFile file) -> serves g (RFile file) Done
| svImport a spec rel t : p_resolve P spec (fpDir a) = Some rel -> serves g (RFile rel) t -> serves g (RImport a spec) t
| svUnresolved a spec : p_resolve P spec (fpDir a) = None -> answered g (RImport a spec) -> serves g (RImport a spec) Done.

Lemma serves_moves g g' (K : moves g g') : forall r t, serves g r t -> serves g' r t.
Proof.
  fix IH 3. intros r t [ | | | | | |file a i s H1 H2 H3|file a i s src n ss L rs imps k repl kids H1 H2 H3 H4 H5 H6 H7 H8| | | | | ].
  - constructor.
  - constructor.
  - constructor; auto.
  - constructor; auto.
  - constructor; auto.
  - eapply svIndex; eauto. eapply pathIs_kept; eauto. apply K.
  - eapply svSource; eauto; [eapply pathIs_kept; eauto; apply K|]. destruct K as ((_ & _ & K & _) & _). auto.
  - pose proof K as ((K1 & _ & K2 & _) & _). destruct (K1 _ _ H3) as (src' & X1 & X2 & X3).
    refine (svLoop g' file a i s src' n ss L rs imps k repl kids H1 (K2 _ _ H2) X1 _ _ H6 _ _).
    + congruence.
    + rewrite <- X3. exact H5.
    + clear H8. induction H7 as [|kid kids (r1 & Hr) _ IHk]; constructor; [|exact IHk]. exists r1. apply IH. exact Hr.
    + intros l kid l' spec at_ E1 E2 E3. apply IH. exact (H8 l kid l' spec at_ E1 E2 E3).
  - eapply svTransformed; eauto; [eapply pathIs_kept; eauto; apply K|eapply answered_moves; eauto].
  - constructor. eapply answered_moves; eauto.
  - constructor. eapply answered_moves; eauto.
  - eapply svImport; eauto.
  - apply svUnresolved; auto. eapply answered_moves; eauto.
Qed.
Lemma back_done g r ret : serves g r (Back ret) -> serves g r Done.
Proof.
  intros H. inversion H as [| | | | | | | | |file ret' A| |a spec rel t R S|]; subst; [constructor; auto|]. inversion S; subst. eapply svImport; eauto. constructor; auto.
Qed.
Lemma done_answered g a spec : serves g (RImport a spec) Done -> answered g (RImport a spec).
Proof.
  intros H. inversion H as [| | | | | | | | | | |? ? rel t R S|]; subst; auto. inversion S; subst. eapply anResolve; eauto.
Qed.
Definition astsAns (g : glob) : Prop := forall i rs, ilookup i (g_asts g) = Some rs -> exists a, pathIs g i a /\ answered g (RPath a).
Lemma asts_moves g g' : moves g g' -> g_asts g' = g_asts g -> astsAns g -> astsAns g'.
Proof.
  intros K E H i rs Hi. rewrite E in Hi. destruct (H _ _ Hi) as (a & H1 & H2). exists a. split; [eapply pathIs_kept; eauto; apply K|eapply answered_moves; eauto].
Qed.
Lemma pathIs_fun g i a a' : pathIs g i a -> pathIs g i a' -> a = a'.
Proof. intros (s & src & H1 & H2 & H3) (s' & src' & X1 & X2 & X3). congruence. Qed.
Lemma same_ok n n' c ss L ss' L' : parse 0 n c = ParseOk ss L -> parse 0 n' c = ParseOk ss' L' -> ss = ss' /\ L = L'.
Proof.
  intros H1 H2. pose proof (parse_agree 0 n 0 n' c) as H. rewrite H1, H2 in H. specialize (H ltac:(discriminate) ltac:(discriminate)).
  pose proof (parse_zero 0 n c) as Z. rewrite H1 in Z. rewrite <- Z in H. inversion H. auto.
Qed.

(** * Steps *)
Lemma frame_serves n g f g' t' A file : frameStep P n g f = Some (Go g' t') -> book P g A -> facts P g' t' -> moves g g' -> astsAns g ->
  serves g (RFile file) (InFrame f) -> serves g' (RFile file) t' /\ astsAns g'.
Proof.
  intros H Bk F' K As S.
  assert (Quiet : g_asts g' = g_asts g -> astsAns g') by (intros; eapply asts_moves; eauto).
  pose proof (proj2 K) as Ei.
  inversion S as [|? out|? a out Ea|? a c out Ea|? a i c out Ea|? a i f' Ea Pa Ex|? a i s Ea Pa Es| |? a i rs Ea Pa An| | | |]; subst; cbn [frameStep] in H.
  - destruct (p_abs P file) as [a|] eqn:Ea.
    + destruct (lookup a (g_sources g)) as [i|] eqn:El; inversion H; subst; (split; [|apply Quiet; reflexivity]).
      * eapply svIndex; eauto; [|reflexivity]. inversion F' as [|? Ff| | |]; subst. cbn in Ff. destruct Ff as (s & Hs). destruct (bk_by _ _ _ Bk _ _ Hs) as (src & X1 & X2 & X3).
        exists s, src. split; [auto|split; [auto|]]. eapply (bk_inj _ _ _ Bk); eauto.
      * constructor. auto.
    + inversion H; subst. split; [|apply Quiet; reflexivity]. constructor. apply anNoAbs; auto. cbn. apply in_app_iff. right. left. auto.
  - destruct (p_read P a) as [c|] eqn:Er; inversion H; subst; (split; [|apply Quiet; reflexivity]).
    + constructor. auto.
    + constructor. eapply anNoRead; eauto. cbn. apply in_app_iff. right. left. auto.
  - inversion H; subst. split; [|apply Quiet; reflexivity]. constructor. auto.
  - inversion H; subst. split; [|apply Quiet; reflexivity]. eapply svIndex; eauto; [|reflexivity].
    exists (length (g_srcs g)), (mkSource a c []). cbn. rewrite Nat.eqb_refl, nth_error_app2, Nat.sub_diag by lia. auto.
  - pose proof (pathIs_kept _ _ _ _ (proj1 K) Pa) as Pa'. destruct f; try discriminate; cbn in Ex; inversion Ex; subst; clear Ex; cbn [frameStep] in H.
    + inversion H; subst. split; [|apply Quiet; reflexivity]. eapply svIndex; eauto; reflexivity.
    + inversion H; subst. split; [|apply Quiet; reflexivity]. eapply svIndex; eauto; reflexivity.
    + inversion H; subst. split; [|apply Quiet; destruct out; reflexivity]. eapply svIndex; eauto; reflexivity.
    + destruct (ilookup i (g_asts g)) as [rs|] eqn:Ei1; inversion H; subst; (split; [|apply Quiet; reflexivity]).
      * destruct (As _ _ Ei1) as (a' & X1 & X2). pose proof (pathIs_fun _ _ _ _ Pa X1). subst a'. constructor. eapply anFile; eauto.
      * eapply svIndex; eauto; reflexivity.
    + destruct (ilookup i (g_byIndex g)) as [s|] eqn:Es; inversion H; subst. split; [|apply Quiet; reflexivity]. eapply svSource; eauto.
  - destruct Pa as (s' & src & X1 & X2 & X3). assert (s' = s) by congruence. subst s'. rewrite X2 in H.
    assert (Rd : p_read P a = Some (src_content src)).
    { destruct (bk_by _ _ _ Bk _ _ Es) as (src' & Y1 & Y2 & Y3). assert (src' = src) by congruence. subst. exact Y3. }
    destruct (parse (g_runs g) n (src_content src)) as [ss L|sp msg L| |] eqn:Ep; try discriminate; inversion H; subst; (split; [|apply Quiet; reflexivity]).
    + destruct (linesOf_ok _ _ _ _ _ Ep) as (ss0 & Ep0 & ->). eapply svLoop with (n := n) (ss := ss0) (L := L) (src := mkSource (src_path src) (src_content src) (src_lines src ++ L)); eauto.
      * cbn [g_srcs]. rewrite nth_upd, Nat.eqb_refl, X2. reflexivity.
      * cbn. rewrite map_map. apply map_ext. auto.
      * intros l kid l' spec at_ E. destruct l; discriminate.
    + apply linesOf_err in Ep. constructor. eapply anFile; eauto. eapply anErr with (s := s); eauto.
      * eapply names_moves; [exact K|]. exists src. auto.
      * cbn. apply in_app_iff. right. left. auto.
  - inversion H; subst. split; [constructor; eapply anFile; eauto; eapply answered_moves; eauto|].
    intros j rs' Hj. cbn in Hj. destruct (j =? i)%nat eqn:E.
    + apply Nat.eqb_eq in E. subst j. exists a. split; [exact (pathIs_kept _ _ _ _ (proj1 K) Pa)|eapply answered_moves; eauto].
    + destruct (As _ _ Hj) as (a' & Y1 & Y2). exists a'. split; [exact (pathIs_kept _ _ _ _ (proj1 K) Y1)|eapply answered_moves; eauto].
Qed.
Lemma transform_serves n g i s rs imps k repl kids g' t' A file : transformStep P n g i s rs repl = Some (Go g' t') -> book P g A ->
  length kids = k -> (length imps <= k)%nat -> (k <= length imps)%nat -> forallb isDone kids = true -> moves g g' -> astsAns g -> fresh g s rs ->
  serves g (RFile file) (InLoop i s rs imps k repl kids) -> serves g' (RFile file) t' /\ astsAns g'.
Proof.
  intros H Bk L1 L2 L3 D K As (src0 & n0 & ss0 & L0 & run & W0 & W1 & W2 & W3) S. rewrite (transform_none P notInline) in H.
  inversion S as [| | | | | | |? a ? ? src n1 ss L ? ? ? ? ? Ea Es Er Ex Ep Em Fk Fl| | | | |]; subst file0 i0 s0 rs0 imps0 k0 repl0 kids0.
  assert (src0 = src) by congruence. subst src0. destruct (same_ok _ _ _ _ _ _ _ W1 Ep) as [-> ->]. clear W1.
  assert (Nd : NoDup rs). { rewrite W2, <- alloc_refs. apply alloc_nodup. }
  destruct (transformRefs (p_opts P) None n rs (g_heap g) (initState (p_opts P) None)) as [[rs' h] t| |] eqn:E; inversion H; subst g' t'; clear H.
  destruct (refs_none _ _ _ _ _ _ _ _ _ E Nd W3) as (ns' & T1 & _ & _ & _). destruct (transform_of P _ _ _ _ _ T1) as (ss' & T5 & _).
  split; [|eapply asts_moves; eauto].
  assert (Rd : p_read P a = Some (src_content src)).
  { destruct (bk_by _ _ _ Bk _ _ Es) as (src' & Y1 & Y2 & Y3). assert (src' = src) by congruence. subst. exact Y3. }
  assert (Pa : pathIs g i a) by (exists s, src; auto).
  apply (svTransformed _ _ a); [exact Ea|exact (pathIs_kept _ _ _ _ (proj1 K) Pa)|].
  eapply anOk with (s := s); eauto.
  - eapply names_moves; [exact K|]. exists src. auto.
  - intros r Hr. cbn [g_errors]. apply in_app_iff. right. apply in_map. exact Hr.
  - intros l spec at_ El. eapply answered_moves; [exact K|]. apply done_answered.
    rewrite El, map_app in Em. cbn in Em.
    destruct imps as [|x imps0 _] using rev_ind; [destruct (map fst l); discriminate|]. rewrite map_app in Em. cbn in Em. apply app_inj_tail in Em as [_ Em]. destruct x as [spec' at']. cbn in Em. subst spec'.
    rewrite app_length in *. cbn in *.
    destruct kids as [|kid kids0 _] using rev_ind; [cbn in *; lia|].
    assert (kid = Done). { rewrite forallb_app in D. apply andb_true_iff in D as [_ D]. cbn in D. destruct kid; try discriminate. auto. }
    subst kid. eapply Fl; eauto. rewrite !app_length in *. cbn in *. lia.
Qed.
(** Replacing the goroutine in the middle. *)
Lemma last_mid {A} (a b : list A) x y l z : a ++ y :: b = l ++ [z] -> (b = [] /\ z = y /\ a ++ x :: b = l ++ [x]) \/ (exists l', a ++ x :: b = l' ++ [z]).
Proof.
  intros E. destruct b as [|c b _] using rev_ind.
  - left. apply app_inj_tail in E as [-> ->]. auto.
  - right. exists (a ++ x :: b). rewrite app_comm_cons, app_assoc in E. apply app_inj_tail in E as [_ ->]. rewrite app_comm_cons, app_assoc. reflexivity.
Qed.
Lemma current_last {A} k (imps : list A) x l y : current k imps = Some x -> k = length imps -> imps = l ++ [y] -> x = y.
Proof.
  intros C Ek ->. rewrite app_length in Ek. cbn in Ek. destruct k as [|k]; [discriminate|]. cbn in C. rewrite nth_error_app2 in C by lia.
  replace (k - length l)%nat with 0%nat in C by lia. cbn in C. congruence.
Qed.
Lemma mid_length {A} (a b : list A) x y : length (a ++ x :: b) = length (a ++ y :: b).
Proof. rewrite !app_length. reflexivity. Qed.
Lemma gstep_errors g t g' t' : gstep P g t g' t' -> incl (g_errors g) (g_errors g').
Proof.
  induction 1 as [n g f g' t' H|g i s rs imps k repl kids L|n g i s rs imps k repl kids g' t' L D H|g i s rs imps k repl a b spec at_ src rel C S R|g i s rs imps k repl a b spec at_ src C S R
    |g i s rs imps k repl a b ret spec at_ C|g i s rs imps k repl a b kid g' kid' H IH]; auto using incl_refl; try (apply incl_appl, incl_refl).
  - destruct f; cbn [frameStep] in H; repeat match type of H with context [match ?x with _ => _ end] => destruct x end; inversion H; subst; cbn; auto using incl_refl; apply incl_appl, incl_refl.
  - rewrite (transform_none P notInline) in H. destruct (transformRefs _ _ _ _ _ _) as [[rs' h] t| |]; inversion H; subst. cbn. apply incl_appl, incl_refl.
Qed.
Lemma gstep_serves g t g' t' : gstep P g t g' t' -> forall A file, book P g A -> facts P g' t' -> gorOk P g t -> good P g t -> moves g g' -> astsAns g ->
  serves g (RFile file) t -> serves g' (RFile file) t' /\ astsAns g'.
Proof.
  induction 1 as [n g f g' t' H|g i s rs imps k repl kids L|n g i s rs imps k repl kids g' t' L D H|g i s rs imps k repl a b spec at_ src rel C S R|g i s rs imps k repl a b spec at_ src C S R
    |g i s rs imps k repl a b ret spec at_ C|g i s rs imps k repl a b kid g' kid' H IH]; intros A file Bk F' Go Gd K As S0.
  - eapply frame_serves; eauto.
  - split; [|auto]. inversion S0; subst. eapply svLoop; eauto.
    + apply Forall_app. split; auto. constructor; [|constructor]. exists (RImport [] []). constructor.
    + intros l kid l' spec at_ E _ _. apply app_inj_tail in E as [_ <-]. constructor.
  - inversion Go as [| |? ? f ? ? ? ? ? G1 _ G3 _ G4 G5 _| | |]; subst. inversion Gd; subst. eapply (transform_serves n g i s rs imps (length kids)); eauto.
  - split; [|auto]. inversion Go as [| |? ? f ? ? ? ? ? G1 _ G3 _ G4 G5 _| | |]; subst.
    inversion S0 as [| | | | | | |? p ? ? src1 n1 ss Ls ? ? ? ? ? Ea Es Er Ex Ep Em Fk Fl| | | | |]; subst. assert (src1 = src) by congruence. subst src1.
    apply Forall_mid in Fk as (X1 & _ & X2). eapply svLoop; eauto.
    + apply Forall_mid. split; [auto|split; [|auto]]. exists (RFile rel). constructor.
    + intros l kid l' spec' at' E E2 E3. rewrite (mid_length a b _ Fresh) in E2. destruct (last_mid a b Fresh _ l kid E) as [(-> & -> & E')|(l1 & E')].
      * assert (EE : (spec, at_) = (spec', at')) by (eapply current_last; eauto). inversion EE; subst. eapply svImport; eauto. constructor.
      * eapply Fl; eauto.
  - split; [|eapply asts_moves; eauto]. inversion Go as [| |? ? f ? ? ? ? ? G1 _ G3 _ G4 G5 _| | |]; subst.
    apply (serves_moves _ _ K) in S0.
    inversion S0 as [| | | | | | |? p ? ? src1 n1 ss Ls ? ? ? ? ? Ea Es Er Ex Ep Em Fk Fl| | | | |]; subst. assert (src1 = src) by (cbn in Er; congruence). subst src1.
    assert (An : answered (addError g (EResolve spec)) (RImport (src_path src) spec)).
    { apply anNoResolve; auto. cbn. apply in_app_iff. right. left. auto. }
    apply Forall_mid in Fk as (X1 & _ & X2). eapply svLoop; eauto.
    + apply Forall_mid. split; [auto|split; [|auto]]. exists (RImport (src_path src) spec). apply svUnresolved; auto.
    + intros l kid l' spec' at' E E2 E3. rewrite (mid_length a b _ Fresh) in E2. destruct (last_mid a b Fresh _ l kid E) as [(-> & -> & E')|(l1 & E')].
      * assert (EE : (spec, at_) = (spec', at')) by (eapply current_last; eauto). inversion EE; subst. apply svUnresolved; auto.
      * eapply Fl; eauto.
  - split; [|auto]. inversion S0 as [| | | | | | |? p ? ? src1 n1 ss Ls ? ? ? ? ? Ea Es Er Ex Ep Em Fk Fl| | | | |]; subst.
    apply Forall_mid in Fk as (X1 & (r & X0) & X2). eapply svLoop; eauto.
    + apply Forall_mid. split; [auto|split; [|auto]]. exists r. eapply back_done; eauto.
    + intros l kid l' spec' at' E E2 E3. rewrite (mid_length a b _ (Back ret)) in E2. destruct (last_mid a b (Back ret) _ l kid E) as [(-> & -> & E')|(l1 & E')].
      * eapply back_done. eapply Fl; eauto.
      * eapply Fl; eauto.
  - inversion S0 as [| | | | | | |? p ? ? src1 n1 ss Ls ? ? ? ? ? Ea Es Er Ex Ep Em Fk Fl| | | | |]; subst.
    inversion Go as [| |? ? f ? ? ? ? ? G1 _ G3 _ G4 G5 Gk| | |]; subst. inversion Gd as [| |? ? ? ? ? ? ? D1 D2| |]; subst.
    inversion F' as [| |? ? ? ? ? ? ? F1 F2 F3 F4| |]; subst.
    apply Forall_mid in Gk as (_ & Gk & _). apply Forall_mid in D2 as (_ & D2 & _). apply Forall_mid in F4 as (_ & F4 & _).
    assert (Step : forall r, serves g r kid -> serves g' r kid' /\ astsAns g').
    { intros r Hr. destruct r as [fl|a1 spec|a1].
      - eapply IH; eauto.
      - inversion Hr as [| | | | | | | | | | |? ? rel ? R S|]; subst; try (inversion H; fail). destruct (IH _ _ Bk F4 Gk D2 K As S) as [Y1 Y2]. split; auto. eapply svImport; eauto.
      - inversion Hr. }
    apply Forall_mid in Fk as (X1 & (r & X0) & X2). destruct (Step _ X0) as [X0' As']. split; [|auto].
    assert (Kd : forall l, Forall (fun kid => exists r, serves g r kid) l -> Forall (fun kid => exists r, serves g' r kid) l).
    { intros l. apply Forall_impl. intros t (r1 & Hr). exists r1. eapply serves_moves; eauto. }
    pose proof K as ((K1 & _ & K2 & _) & _). destruct (K1 _ _ Er) as (src' & Y1 & Y2 & Y3).
    eapply svLoop with (src := src'); eauto; try congruence.
    + rewrite <- Y3. exact Ep.
    + apply Forall_mid. split; [auto|split; [|auto]]. eauto.
    + intros l kd l' spec' at' E E2 E3. rewrite (mid_length a b _ kid) in E2. destruct (last_mid a b kid _ l kd E) as [(-> & -> & E')|(l1 & E')].
      * apply Step. eapply Fl; eauto.
      * eapply serves_moves; [exact K|]. eapply Fl; eauto.
Qed.

(** * The whole program *)
Definition done (g : glob) : Prop := forall l e, p_entries P = l ++ [e] -> answered g (RFile e).
Definition servesS (s : glob * mstate) : Prop :=
  match snd s with
  | Running _ kids => astsAns (fst s) /\ Forall (fun kid => kid = Fresh \/ exists file, serves (fst s) (RFile file) kid) kids /\
      (forall l kid l' e, kids = l ++ [kid] -> length kids = length (p_entries P) -> p_entries P = l' ++ [e] -> kid = Fresh \/ serves (fst s) (RFile e) kid)
  | Printing _ _ | Finished _ => done (fst s)
  | Crashed => True
  end.
Lemma mstep_serves s s' : mstep P s s' -> calmS P s -> calmS P s' -> stateOk P s -> soundS P s -> sameKept (fst s) (fst s') -> servesS s -> servesS s'.
Proof.
  intros H Ca Ca' Ok So K M. destruct H as [g k kids L|g k kids L D|g k a b e C|g k a b ret|g k a b kid g' kid' H|g k kids|g a idx b out|g out]; unfold servesS in *; cbn [fst snd] in *; auto.
  - destruct M as (M1 & M2 & M3). split; [auto|split].
    + apply Forall_app. split; auto.
    + intros l kid l' e E _ _. apply app_inj_tail in E as [_ <-]. auto.
  - destruct M as (M1 & M2 & M3). destruct Ok as (_ & Ok1 & Ok2 & _). cbn in Ok1. subst k. intros l e E.
    destruct kids as [|kid kids0 _] using rev_ind; [rewrite E, app_length in L; cbn in L; lia|].
    assert (kid = Done). { rewrite forallb_app in D. apply andb_true_iff in D as [_ D]. cbn in D. destruct kid; try discriminate. auto. }
    subst kid. destruct (M3 kids0 Done l e eq_refl) as [X|X]; [lia|auto|discriminate|]. inversion X; auto.
  - destruct M as (M1 & M2 & M3). destruct Ok as (_ & Ok1 & Ok2 & _). cbn in Ok1. subst k. split; [auto|]. apply Forall_mid in M2 as (X1 & _ & X2). split.
    + apply Forall_mid. split; [auto|split; [|auto]]. right. exists e. constructor.
    + intros l kid l' e' E E2 E3. rewrite (mid_length a b _ Fresh) in E2. destruct (last_mid a b Fresh _ l kid E) as [(-> & -> & E')|(l1 & E')].
      * right. assert (EE : e = e') by (eapply current_last; eauto). subst. constructor.
      * eapply M3; eauto.
  - destruct M as (M1 & M2 & M3). split; [auto|]. apply Forall_mid in M2 as (X1 & [X0|(f & X0)] & X2); [discriminate|]. split.
    + apply Forall_mid. split; [auto|split; [|auto]]. right. exists f. eapply back_done; eauto.
    + intros l kid l' e' E E2 E3. rewrite (mid_length a b _ (Back ret)) in E2. destruct (last_mid a b (Back ret) _ l kid E) as [(-> & -> & E')|(l1 & E')].
      * right. destruct (M3 l (Back ret) l' e' E' E2 E3) as [Y|Y]; [discriminate|]. eapply back_done; eauto.
      * eapply M3; eauto.
  - destruct M as (M1 & M2 & M3). destruct Ca as [Ca|]; [|discriminate]. destruct Ca' as [Ca'|]; [|discriminate]. cbn [fst snd] in *. destruct Ca as (Bk & Fs & _). destruct Ca' as (_ & Fs' & _).
    destruct Ok as (_ & _ & _ & Gk). destruct So as (_ & Gd). cbn [fst snd] in *.
    apply Forall_mid in Fs' as (_ & Fk' & _). apply Forall_mid in Gk as (_ & Gk & _). apply Forall_mid in Gd as (_ & Gd & _).
    assert (Mv : moves g g') by (split; [exact K|eapply gstep_errors; eauto]).
    assert (Step : forall fl, serves g (RFile fl) kid -> serves g' (RFile fl) kid' /\ astsAns g') by (intros fl; eapply gstep_serves; eauto).
    apply Forall_mid in M2 as (X1 & [X0|(f & X0)] & X2); [subst; inversion H|]. destruct (Step _ X0) as [X0' As'].
    assert (Kd : forall t, (t = Fresh \/ exists file, serves g (RFile file) t) -> t = Fresh \/ exists file, serves g' (RFile file) t).
    { intros t [->|(r1 & Hr)]; auto. right. exists r1. eapply serves_moves; eauto. }
    split; [auto|split].
    + apply Forall_mid. split; [eapply Forall_impl; [|exact X1]; auto|split; [eauto|eapply Forall_impl; [|exact X2]; auto]].
    + intros l kd l' e' E E2 E3. rewrite (mid_length a b _ kid) in E2. destruct (last_mid a b kid _ l kd E) as [(-> & -> & E')|(l1 & E')].
      * right. destruct (M3 l kid l' e' E' E2 E3) as [Y|Y]; [subst; inversion H|]. apply Step. auto.
      * destruct (M3 l1 kd l' e' E' E2 E3) as [Y|Y]; [auto|]. right. eapply serves_moves; eauto.
  - intros l e E. eapply answered_moves; [|eapply M; eauto]. split; [exact K|]. unfold printOne.
    repeat match goal with |- context [match ?x with _ => _ end] => destruct x end; cbn; try apply incl_refl. apply incl_appl, incl_refl.
Qed.
Lemma sound_reach s : reach P s -> soundS P s.
Proof.
  induction 1 as [|s s' H IH St]; [|eapply mstep_sound; eauto; [apply step_mstep; exact St|apply reach_ok; exact H]].
  unfold soundS. cbn. split; [|constructor]. split; [intros i rs []|split; [split; constructor|constructor]].
Qed.
Lemma serves_reach s : reachApart P s -> servesS s.
Proof.
  induction 1 as [|s s' H IH A].
  - unfold servesS. cbn. split; [intros i rs E; discriminate|split; [constructor|]]. intros l kid l' e E. destruct l; discriminate.
  - assert (H' : reachApart P s') by (econstructor; eauto). destruct (calm_step_kept P s s' (calm_reach _ _ H) A) as (C' & K).
    apply (mstep_serves s s'); auto; [|apply calm_reach; auto|apply reach_ok, apart_reach; auto|apply sound_reach, apart_reach; auto].
    apply step_mstep. destruct A as (n & path & A & _). exists n, path. auto.
Qed.

(** * What the answers say *)
Lemma transform_reports n k ss a b t u : transform o None n ss = TOk a t -> transform o None k ss = TOk b u -> t_reports u = t_reports t.
Proof.
  unfold transform. intros H1 H2.
  destruct (transformNodes o None n (ss_nodes ss) _) as [x t1| |] eqn:E1; try discriminate.
  destruct (transformNodes o None k (ss_nodes ss) _) as [y t2| |] eqn:E2; try discriminate.
  inversion H1; inversion H2; subst.
  pose proof (lq_nodes n (max n k) (ss_nodes ss) ltac:(lia) _ _ _ E1). pose proof (lq_nodes k (max n k) (ss_nodes ss) ltac:(lia) _ _ _ E2). congruence.
Qed.
Lemma parsed_same n n' c o1 o2 : parse 0 n c = o1 -> parse 0 n' c = o2 -> o1 <> ParseTimeout -> o2 <> ParseTimeout -> o1 = o2.
Proof.
  intros H1 H2 N1 N2. pose proof (parse_agree 0 n 0 n' c) as H. rewrite H1, H2 in H. rewrite (H N1 N2).
  pose proof (parse_zero 0 n c) as Z. rewrite H1 in Z. exact Z.
Qed.
Lemma answered_reported g file : answered g (RFile file) -> reported P g file.
Proof.
  intros H. inversion H as [? Ea Hi|? a Ea Er Hi|? a Ea An| | | |]; subst.
  - split; [auto|]. intros a E. congruence.
  - split; [congruence|]. intros a' E. assert (a' = a) by congruence. subst a'. split; [auto|].
    split; [intros sp msg (c & n & L & X & _); congruence|split; [intros spec (c & n & ss & L & l & at_ & X & _); congruence|]].
    intros nds rs r (c & n & m & ss & L & ss' & t & X & _); congruence.
  - split; [congruence|]. intros a' E. assert (a' = a) by congruence. subst a'.
    inversion An as [| | | | |? s c n sp msg L Nm Er Ep Hi|? s c n ss L m ss' t Nm Er Ep Tr Hr Hl]; subst; (split; [congruence|]).
    + split; [|split].
      * intros sp' msg' (c' & n' & L' & X & Y). assert (c' = c) by congruence. subst c'.
        pose proof (parsed_same _ _ _ _ _ Ep Y ltac:(discriminate) ltac:(discriminate)) as Z. inversion Z; subst. eauto.
      * intros spec (c' & n' & ss & L' & l & at_ & X & Y & _). assert (c' = c) by congruence. subst c'.
        pose proof (parsed_same _ _ _ _ _ Ep Y ltac:(discriminate) ltac:(discriminate)). discriminate.
      * intros nds rs r (c' & n' & m & ss & L' & ss' & t & X & Y & _). assert (c' = c) by congruence. subst c'.
        pose proof (parsed_same _ _ _ _ _ Ep Y ltac:(discriminate) ltac:(discriminate)). discriminate.
    + split; [|split].
      * intros sp' msg' (c' & n' & L' & X & Y). assert (c' = c) by congruence. subst c'.
        pose proof (parsed_same _ _ _ _ _ Ep Y ltac:(discriminate) ltac:(discriminate)). discriminate.
      * intros spec (c' & n' & ss1 & L' & l & at_ & X & Y & Z) Rs. assert (c' = c) by congruence. subst c'.
        destruct (same_ok _ _ _ _ _ _ _ Ep Y) as [-> _]. specialize (Hl _ _ _ Z). inversion Hl; subst; congruence.
      * intros nds rs r (c' & n' & m' & ss1 & L' & ss1' & t1 & X & Y & Z & _ & ->) Hi. assert (c' = c) by congruence. subst c'.
        destruct (same_ok _ _ _ _ _ _ _ Ep Y) as [-> _]. exists s. split; auto. apply Hr.
        rewrite <- (transform_reports _ _ _ _ _ _ _ Tr Z). auto.
Qed.
Lemma asked_answered g fs file : reachApart P (g, Finished fs) -> asked P file -> answered g (RFile file).
Proof.
  intros H. apply serves_reach in H. unfold servesS in H. cbn in H. induction 1 as [l e E|file a spec rel _ IH Ea (c & n & ss & L & l & at_ & X & Y & Z) Rs]; [eapply H; eauto|].
  inversion IH as [|? a' Ea' Er|? a' Ea' An| | | |]; subst; try congruence. assert (a' = a) by congruence. subst a'.
  inversion An as [| | | | |? s c' n' sp msg L' Nm Er Ep Hi|? s c' n' ss1 L' m ss' t Nm Er Ep Tr Hr Hl]; subst; assert (c' = c) by congruence; subst c'.
  - pose proof (parsed_same _ _ _ _ _ Ep Y ltac:(discriminate) ltac:(discriminate)). discriminate.
  - destruct (same_ok _ _ _ _ _ _ _ Ep Y) as [-> _]. specialize (Hl _ _ _ Z). inversion Hl; subst; congruence.
Qed.
Lemma C59_reported_lemma g fs file : reachApart P (g, Finished fs) -> asked P file -> reported P g file.
Proof. intros H A. apply answered_reported. eapply asked_answered; eauto. Qed.
End WithProject.
