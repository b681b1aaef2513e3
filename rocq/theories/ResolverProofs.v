(** Proofs about the resolver. *)
From Verif Require Import Bytes BytesFacts Utf8 Resolver ResolverSpec.

Section R.
Variable wd : world.

Lemma isEmpty_nil a : isEmpty a = true <-> a = [].
Proof. destruct a; simpl; split; congruence. Qed.
Lemma isEmpty_cons a : isEmpty a = false <-> a <> [].
Proof. destruct a; simpl; split; congruence. Qed.

(** * One location *)
Lemma resolvePath_spec p q : resolvePath wd p = ROk q <-> answers wd p q.
Proof.
  unfold resolvePath, resolveAsDir, statEntry, wrapNil, answers. split.
  - destruct (w_stat wd p) eqn:S.
    + intro H; injection H as <-. left; constructor; auto.
    + destruct (w_read wd (fpJoin [p; B "package.json"])) eqn:R.
      * destruct (w_style wd b) as [style|] eqn:Y; [|discriminate].
        destruct (isEmpty style) eqn:E; [discriminate|]. apply isEmpty_cons in E.
        destruct (w_stat wd (fpJoin [p; style])) eqn:S2; try discriminate.
        -- intro H; injection H as <-. left; eapply StandsStyle; eauto.
        -- destruct (w_wrapNil wd); [|discriminate]. intro H; injection H as <-.
           right; split; auto. split; auto. eapply BrokenStyle; eauto.
      * destruct (w_stat wd (fpJoin [p; B "index.css"])) eqn:S2; try discriminate.
        -- intro H; injection H as <-. left; eapply StandsIndex; eauto.
        -- destruct (w_wrapNil wd); [|discriminate]. intro H; injection H as <-.
           right; split; auto. split; auto. eapply BrokenIndex; eauto.
    + destruct (w_stat wd (p ++ B ".css")) eqn:S2; try discriminate.
      intro H; injection H as <-. left; eapply StandsExt; eauto.
    + discriminate.
  - intros [H | (W & H & ->)]; destruct H as [S|S S2|js style S R Y N S2|S R S2] || destruct H as [js style S R Y N S2|S R S2];
      rewrite S; try rewrite R; try rewrite Y; try rewrite S2; try rewrite W;
      try (apply isEmpty_cons in N; rewrite N); reflexivity.
Qed.

Lemma resolvePath_err p : resolvePath wd p = RErr <-> forall q, ~ answers wd p q.
Proof.
  split.
  - intros H q A. apply resolvePath_spec in A. congruence.
  - intros H. destruct (resolvePath wd p) eqn:E; auto.
    apply resolvePath_spec in E. exfalso; eapply H; eauto.
Qed.

Lemma answers_file p q : answers wd p q -> w_stat wd q = StFile \/ (q = [] /\ w_wrapNil wd = true /\ brokenEntry wd p).
Proof. intros [H | (W & H & ->)]; [left; destruct H; auto | right; auto]. Qed.

(** * The chain of places *)
Lemma firstAnswer_nil q : ~ firstAnswer wd [] q.
Proof. intros (b & p & a & H & _). destruct b; discriminate. Qed.
Lemma firstAnswer_here p l q : answers wd p q -> firstAnswer wd (p :: l) q.
Proof. intro H; exists [], p, l. split; [reflexivity|]. split; [exact H|]. intros ? []. Qed.
Lemma firstAnswer_skip p l q : (forall q', ~ answers wd p q') -> firstAnswer wd (p :: l) q <-> firstAnswer wd l q.
Proof.
  intros N; split.
  - intros (b & p' & a & E & A & H). destruct b as [|x b]; simpl in E; injection E as -> ->.
    + exfalso; eapply N; eauto.
    + exists b, p', a. split; auto. split; auto. intros; apply H; simpl; auto.
  - intros (b & p' & a & -> & A & H). exists (p :: b), p', a. split; auto. split; auto.
    intros y [->|Y]; auto.
Qed.
Lemma answers_fun p q q' : answers wd p q -> answers wd p q' -> q = q'.
Proof. intros A B. apply resolvePath_spec in A, B. congruence. Qed.
Lemma firstAnswer_hit p l q q' : answers wd p q -> firstAnswer wd (p :: l) q' -> q = q'.
Proof.
  intros A (b & p' & a & E & A' & H). destruct b as [|x b]; simpl in E; injection E as -> ->.
  - eapply answers_fun; eauto.
  - exfalso. eapply H; [left; reflexivity | eauto].
Qed.

(** * Paths *)
Lemma splitSlash_name c : ~ In "/"%byte c -> forall r, splitSlash (c ++ "/"%byte :: r) = c :: splitSlash r.
Proof.
  induction c as [|x c IH]; intros N r.
  - reflexivity.
  - simpl in *. destruct (Byte.eqb x slash) eqn:E.
    + apply byte_eqb_eq in E. exfalso; auto.
    + rewrite IH by auto. reflexivity.
Qed.
Lemma splitSlash_single c : ~ In "/"%byte c -> splitSlash c = [c].
Proof.
  induction c as [|x c IH]; intros N; simpl in *; auto.
  destruct (Byte.eqb x slash) eqn:E; [apply byte_eqb_eq in E; exfalso; auto|].
  rewrite IH; auto.
Qed.
Lemma splitSlash_tail l : Forall normalName l -> forall x, ~ In "/"%byte x ->
  splitSlash (x ++ slashed l) = x :: l.
Proof.
  induction 1 as [|c l Hc Hl IH]; intros x Hx.
  - unfold slashed; simpl. rewrite app_nil_r. apply splitSlash_single; auto.
  - unfold slashed; simpl. rewrite splitSlash_name by auto.
    change (concat (map (cons "/"%byte) l)) with (slashed l). rewrite IH; auto. apply Hc.
Qed.
Lemma splitSlash_slashed l : Forall normalName l -> splitSlash (slashed l) = [] :: l.
Proof. intros H. apply (splitSlash_tail l H []). intros []. Qed.

Lemma splitSlash_cons p : exists h t, splitSlash p = h :: t.
Proof.
  destruct p as [|x p]; simpl; eauto. destruct (Byte.eqb x slash); eauto. destruct (splitSlash p); eauto.
Qed.
Lemma splitSlash_app_slash a b : splitSlash (a ++ "/"%byte :: b) = splitSlash a ++ splitSlash b.
Proof.
  induction a as [|x a IH]; simpl; auto.
  destruct (Byte.eqb x slash); simpl; [rewrite IH; reflexivity|].
  rewrite IH. destruct (splitSlash_cons a) as (h & t & ->). reflexivity.
Qed.

Lemma cleanComps_app r l1 : forall s l2, cleanComps r s (l1 ++ l2) = cleanComps r (cleanComps r s l1) l2.
Proof.
  induction l1 as [|c l1 IH]; intros; simpl; auto.
  destruct (isEmpty c || beq c (B ".")); auto.
  destruct (beq c (B "..")); auto.
  destruct s as [|t s]; auto. destruct (beq t (B "..")); auto.
Qed.
Lemma cleanComps_normal r l : Forall normalName l -> forall s, cleanComps r s l = rev l ++ s.
Proof.
  induction 1 as [|c l (H1 & H2 & H3 & _) Hl IH]; intros; auto.
  cbn [cleanComps rev]. apply isEmpty_cons in H1. apply beq_neq in H2, H3. rewrite H1, H2, H3.
  simpl orb. cbv iota. rewrite IH, <- app_assoc. reflexivity.
Qed.
Lemma cleanComps_empty r s l : cleanComps r s ([] :: l) = cleanComps r s l.
Proof. reflexivity. Qed.

Lemma joinSlash_slashed l : l <> [] -> slash :: joinSlash l = slashed l.
Proof.
  induction l as [|c l IH]; [congruence|]. intros _.
  destruct l as [|d l].
  - unfold slashed; simpl. rewrite app_nil_r. reflexivity.
  - change (joinSlash (c :: d :: l)) with (c ++ slash :: joinSlash (d :: l)).
    change (slashed (c :: d :: l)) with ((slash :: c) ++ slashed (d :: l)).
    rewrite <- IH by discriminate. reflexivity.
Qed.
Lemma render_dirString l : render true l = dirString l.
Proof. destruct l; [reflexivity|]. unfold render, dirString. apply joinSlash_slashed; discriminate. Qed.

Lemma slashed_app a b : slashed (a ++ b) = slashed a ++ slashed b.
Proof. unfold slashed. rewrite map_app, concat_app. reflexivity. Qed.
Lemma slashed_rooted c l x : isRooted (slashed (c :: l) ++ x) = true.
Proof. reflexivity. Qed.
Lemma splitSlash_slashed_tail l x : Forall normalName l -> l <> [] ->
  splitSlash (slashed l ++ "/"%byte :: x) = [] :: l ++ splitSlash x.
Proof. intros. rewrite splitSlash_app_slash, splitSlash_slashed by auto. reflexivity. Qed.

Lemma upToLastSlash_none s : existsb (fun b => Byte.eqb b slash) s = false -> upToLastSlash s = [].
Proof. destruct s; simpl; auto. intros ->. reflexivity. Qed.
Lemma upToLastSlash_app a c : ~ In "/"%byte c -> upToLastSlash (a ++ "/"%byte :: c) = a ++ ["/"%byte].
Proof.
  intros N. assert (forall s, existsb (fun b => Byte.eqb b slash) (s ++ "/"%byte :: c) = true) as X.
  { intros s. apply existsb_exists. exists "/"%byte. split; [apply in_or_app; simpl; auto | apply byte_eqb_eq; reflexivity]. }
  induction a as [|x a IH].
  - simpl. f_equal. apply upToLastSlash_none.
    destruct (existsb _ c) eqn:E; auto. apply existsb_exists in E as (y & Hy & E).
    apply byte_eqb_eq in E. subst. contradiction.
  - change ((x :: a) ++ "/"%byte :: c) with (x :: (a ++ "/"%byte :: c)).
    cbn [upToLastSlash]. pose proof (X (x :: a)) as Y.
    change ((x :: a) ++ "/"%byte :: c) with (x :: (a ++ "/"%byte :: c)) in Y. rewrite Y, IH. reflexivity.
Qed.

Lemma fpDir_dirString l c : Forall normalName (l ++ [c]) -> fpDir (dirString (l ++ [c])) = dirString l.
Proof.
  intros H. apply Forall_app in H as [Hl Hc]. inversion Hc as [|? ? (_ & _ & _ & N) _]; subst.
  unfold fpDir.
  assert (dirString (l ++ [c]) = slashed l ++ "/"%byte :: c) as ->.
  { assert (slashed (l ++ [c]) = slashed l ++ "/"%byte :: c) as E.
    { rewrite slashed_app. unfold slashed at 2; simpl. rewrite app_nil_r. reflexivity. }
    rewrite <- E. destruct l; reflexivity. }
  rewrite upToLastSlash_app by auto. unfold clean.
  assert (isRooted (slashed l ++ ["/"%byte]) = true) as -> by (destruct l; reflexivity).
  destruct l as [|d l].
  - reflexivity.
  - rewrite splitSlash_slashed_tail by (auto; discriminate).
    rewrite cleanComps_empty, cleanComps_app, (cleanComps_normal true (d :: l)) by auto.
    simpl splitSlash. rewrite cleanComps_empty. cbn [cleanComps].
    rewrite app_nil_r, rev_involutive, render_dirString. reflexivity.
Qed.

Lemma dirString_root l : Forall normalName l -> beq (dirString l) (B "/") = true <-> l = [].
Proof.
  intros H. rewrite beq_eq. split; [|intros ->; reflexivity].
  destruct l as [|c l]; auto. unfold dirString. intro E.
  inversion H as [|? ? (N & _) _]; subst. unfold slashed in E; simpl in E.
  injection E as E. destruct c; [congruence|discriminate].
Qed.

(** * The walk up the directories *)
Lemma ancestors_snoc l c : ancestors (l ++ [c]) = (l ++ [c]) :: ancestors l.
Proof. induction l as [|x l IH]; simpl; auto. rewrite IH. reflexivity. Qed.

Lemma walk_spec spec l : Forall normalName l -> forall fuel, (length l < fuel)%nat ->
  exists r, resolveFromNodeModules wd fuel spec (dirString l) = Some r /\
  forall q, r = ROk q <-> firstAnswer wd (map (moduleAt spec) (ancestors l)) q.
Proof.
  induction l as [|c l IH] using rev_ind; intros H fuel F.
  - destruct fuel; [simpl in F; lia|]. exists RErr. split; [reflexivity|].
    intro q; split; [discriminate | intro A; exfalso; eapply firstAnswer_nil; eauto].
  - rewrite app_length in F; simpl in F. destruct fuel as [|fuel]; [lia|].
    cbn [resolveFromNodeModules].
    destruct (beq (dirString (l ++ [c])) (B "/")) eqn:E.
    { apply dirString_root in E; auto. destruct l; discriminate. }
    rewrite ancestors_snoc. cbn [map]. fold (moduleAt spec (l ++ [c])).
    destruct (resolvePath wd (moduleAt spec (l ++ [c]))) as [p|] eqn:R.
    + eexists; split; [reflexivity|]. apply resolvePath_spec in R. intro q. split.
      * intros Q; injection Q as <-. apply firstAnswer_here; auto.
      * intros A. f_equal. eapply firstAnswer_hit; eauto.
    + rewrite fpDir_dirString by auto. apply Forall_app in H as [Hl _].
      destruct (IH Hl fuel ltac:(lia)) as (r & Hr & Q). exists r; split; auto.
      intro q. rewrite Q. rewrite firstAnswer_skip by (apply resolvePath_err; auto). reflexivity.
Qed.

Lemma relative_spec spec : isRelativeSpec spec = true <-> relative spec.
Proof.
  unfold isRelativeSpec, relative. rewrite !orb_true_iff, !hasPrefix_spec.
  split.
  - intros [[[r H]|[r H]]|[r H]]; exists r; auto.
  - intros [r [H|[H|H]]]; [left; right | left; left | right]; eauto.
Qed.

Lemma resolve_relative fuel base spec from q : relative spec ->
  (resolve wd fuel base spec from = Some (ROk q) <-> answers wd (fpJoin [from; spec]) q).
Proof.
  intros H. apply relative_spec in H. unfold resolve. rewrite H. rewrite <- resolvePath_spec.
  split; congruence.
Qed.

Lemma resolve_bare base spec l : ~ relative spec -> Forall normalName l ->
  forall fuel, (length l < fuel)%nat ->
  exists r, resolve wd fuel base spec (dirString l) = Some r /\
  forall q, r = ROk q <-> firstAnswer wd (places base spec l) q.
Proof.
  intros NR H fuel F. unfold resolve, places.
  destruct (isRelativeSpec spec) eqn:E; [apply relative_spec in E; contradiction|].
  destruct (isEmpty base); [apply walk_spec; auto|].
  destruct (resolvePath wd (fpJoin [base; spec])) eqn:R.
  - eexists; split; [reflexivity|]. apply resolvePath_spec in R. intro q; split.
    + intro Q; injection Q as <-. apply firstAnswer_here; auto.
    + intros A. f_equal. eapply firstAnswer_hit; eauto.
  - destruct (walk_spec spec l H fuel F) as (r & Hr & Q). exists r. split; auto.
    intro q. rewrite Q. simpl app. rewrite firstAnswer_skip by (apply resolvePath_err; auto). reflexivity.
Qed.

(** ** Which path a place is *)
Lemma B_node_modules : normalName (B "node_modules").
Proof.
  repeat split; try (intro; discriminate). intro H. 
  repeat (destruct H as [H|H]; [discriminate H|]). exact H.
Qed.

Lemma slashed_drop c l : slashed (c :: l) = "/"%byte :: (c ++ slashed l).
Proof. reflexivity. Qed.

Lemma moduleAt_path (spec : bytes) dir names : Forall normalName dir -> dir <> [] -> Forall normalName names -> names <> [] ->
  "/"%byte :: spec = slashed names ->
  moduleAt spec dir = slashed (dir ++ B "node_modules" :: names).
Proof.
  intros Hd Nd Hn Nn E. unfold moduleAt.
  assert (dirString dir = slashed dir) as -> by (destruct dir; [congruence|reflexivity]).
  cbn [fpJoin]. assert (isEmpty (slashed dir) = false) as -> by (destruct dir; [congruence|reflexivity]).
  assert (joinSlash [slashed dir; B "node_modules"; spec] = slashed (dir ++ B "node_modules" :: names)) as ->.
  { rewrite slashed_app, slashed_drop, <- E. reflexivity. }
  assert (Forall normalName (dir ++ B "node_modules" :: names)) as HF.
  { apply Forall_app; split; auto. constructor; auto. apply B_node_modules. }
  unfold clean. rewrite splitSlash_slashed by auto.
  rewrite cleanComps_empty, cleanComps_normal by auto.
  rewrite app_nil_r, rev_involutive.
  destruct dir as [|d dir]; [congruence|]. 
  change (isRooted (slashed ((d :: dir) ++ B "node_modules" :: names))) with true.
  rewrite render_dirString. reflexivity.
Qed.

(** ** Every answer *)
Lemma resolveFromNodeModules_answer spec fuel : forall dir q,
  resolveFromNodeModules wd fuel spec dir = Some (ROk q) -> exists p, answers wd p q.
Proof.
  induction fuel as [|fuel IH]; intros dir q; [discriminate|].
  cbn [resolveFromNodeModules]. destruct (beq dir (B "/")); [discriminate|].
  destruct (resolvePath wd _) eqn:R.
  - intro H; injection H as <-. apply resolvePath_spec in R. eauto.
  - apply IH.
Qed.

Lemma resolve_answer fuel base spec dir q :
  resolve wd fuel base spec dir = Some (ROk q) -> exists p, answers wd p q.
Proof.
  unfold resolve. destruct (isRelativeSpec spec).
  - intro H; injection H as H. apply resolvePath_spec in H. eauto.
  - destruct (isEmpty base); [apply resolveFromNodeModules_answer|].
    destruct (resolvePath wd _) eqn:R; [|apply resolveFromNodeModules_answer].
    intro H; injection H as <-. apply resolvePath_spec in R. eauto.
Qed.

Lemma C38_main fuel base spec dir q :
  resolve wd fuel base spec dir = Some (ROk q) ->
  w_stat wd q = StFile \/ (q = [] /\ w_wrapNil wd = true /\ exists p, brokenEntry wd p).
Proof.
  intro H. apply resolve_answer in H as [p A]. apply answers_file in A as [|(? & ? & ?)]; eauto.
Qed.

(** * Termination *)
Lemma splitSlash_names p : Forall (fun c => ~ In "/"%byte c) (splitSlash p).
Proof.
  induction p as [|x p IH]; simpl.
  - constructor; auto. 
  - destruct (Byte.eqb x slash) eqn:E.
    + constructor; auto.
    + destruct (splitSlash p) as [|h t]; constructor.
      * intros [->|[]]. discriminate E.
      * constructor.
      * inversion IH; subst. intros [->|H]; [discriminate E | auto].
      * inversion IH; auto.
Qed.
Lemma splitSlash_length p : (length (splitSlash p) <= S (length p))%nat.
Proof.
  induction p as [|x p IH]; simpl; auto.
  destruct (Byte.eqb x slash); simpl; [lia|].
  destruct (splitSlash p); simpl in *; lia.
Qed.

Lemma cleanComps_rooted l : Forall (fun c => ~ In "/"%byte c) l -> forall s, Forall normalName s ->
  Forall normalName (cleanComps true s l) /\ (length (cleanComps true s l) <= length s + length l)%nat.
Proof.
  induction 1 as [|c l Hc Hl IH]; intros s Hs; cbn [cleanComps length].
  - split; auto; lia.
  - destruct (isEmpty c) eqn:E1; [destruct (IH s Hs); simpl; split; auto; lia|].
    destruct (beq c (B ".")) eqn:E2; [destruct (IH s Hs); simpl; split; auto; lia|].
    simpl orb. cbv iota. destruct (beq c (B "..")) eqn:E3.
    + destruct s as [|t s]; [destruct (IH [] Hs); simpl in *; split; auto; lia|].
      inversion Hs as [|? ? (_ & _ & Nt & _) Hs']; subst.
      apply beq_neq in Nt. rewrite Nt. destruct (IH s Hs'); simpl; split; auto; lia.
    + destruct (IH (c :: s)) as [A L].
      * constructor; auto. apply isEmpty_cons in E1. apply beq_neq in E2, E3. repeat split; auto.
      * split; auto. cbn [length] in L. unfold bytes in *. lia.
Qed.

Lemma clean_rooted p : isRooted p = true ->
  exists l, clean p = dirString l /\ Forall normalName l /\ (length l <= S (length p))%nat.
Proof.
  intros H. unfold clean. rewrite H, render_dirString.
  destruct (cleanComps_rooted (splitSlash p) (splitSlash_names p) [] (Forall_nil _)) as [A L].
  eexists; split; [reflexivity|]. split; [apply Forall_rev; auto|].
  rewrite rev_length. pose proof (splitSlash_length p). cbn [length] in L. unfold bytes in *. lia.
Qed.

Lemma upToLastSlash_length p : (length (upToLastSlash p) <= length p)%nat.
Proof. induction p as [|c r IH]; auto. cbn [upToLastSlash]. destruct (existsb _ _); simpl; lia. Qed.

Lemma resolveFromNodeModules_rooted spec dir : isRooted dir = true ->
  exists r, forall fuel, (length dir + 3 <= fuel)%nat -> resolveFromNodeModules wd fuel spec dir = Some r.
Proof.
  intros H.
  assert (exists l, fpDir dir = dirString l /\ Forall normalName l /\ (length l <= S (length dir))%nat) as (l & E & Hl & L).
  { unfold fpDir. destruct (clean_rooted (upToLastSlash dir)) as (l & E & Hl & L).
    - destruct dir as [|c r]; [discriminate|]. unfold isRooted in H. cbn [upToLastSlash existsb]. rewrite H. simpl. exact H.
    - exists l; split; auto. split; auto. pose proof (upToLastSlash_length dir). lia. }
  destruct (walk_spec spec l Hl (length dir + 2) ltac:(lia)) as (r & Hr & Q).
  assert (forall fuel, (length dir + 3 <= fuel)%nat ->
    exists f, fuel = S f /\ resolveFromNodeModules wd f spec (dirString l) = Some r) as W.
  { intros fuel F. destruct fuel as [|f]; [lia|]. exists f. split; auto.
    destruct (walk_spec spec l Hl f ltac:(lia)) as (r' & Hr' & Q').
    rewrite Hr'. f_equal. destruct r as [q|], r' as [q'|]; auto.
    - apply Q', Q. reflexivity.
    - assert (RErr = ROk q) by (apply Q', Q; reflexivity). discriminate.
    - assert (RErr = ROk q') by (apply Q, Q'; reflexivity). discriminate. }
  destruct (beq dir (B "/")) eqn:R1; [|destruct (resolvePath wd (fpJoin [dir; B "node_modules"; spec])) as [p|] eqn:R2].
  - exists RErr. intros fuel F. destruct (W fuel F) as (f & -> & Hf). cbn [resolveFromNodeModules]. rewrite R1. reflexivity.
  - exists (ROk p). intros fuel F. destruct (W fuel F) as (f & -> & Hf). cbn [resolveFromNodeModules]. rewrite R1, R2. reflexivity.
  - exists r. intros fuel F. destruct (W fuel F) as (f & -> & Hf). cbn [resolveFromNodeModules]. rewrite R1, R2, E. exact Hf.
Qed.

Lemma C40_main base spec dir : isRooted dir = true \/ relative spec ->
  exists r, forall fuel, (length dir + 3 <= fuel)%nat -> resolve wd fuel base spec dir = Some r.
Proof.
  intros H. unfold resolve. destruct (isRelativeSpec spec) eqn:E; [eauto|].
  destruct H as [H|H]; [|apply relative_spec in H; congruence].
  destruct (resolveFromNodeModules_rooted spec dir H) as (r & Hr).
  destruct (isEmpty base); [eauto|].
  destruct (resolvePath wd _); eauto.
Qed.
End R.

(** A directory that is not rooted never becomes "/". *)
Lemma cleanComps_unrooted r l : Forall (fun c => ~ In "/"%byte c) l -> forall s,
  Forall (fun c => c <> [] /\ ~ In "/"%byte c) s ->
  Forall (fun c => c <> [] /\ ~ In "/"%byte c) (cleanComps r s l).
Proof.
  induction 1 as [|c l Hc Hl IH]; intros s Hs; cbn [cleanComps]; auto.
  destruct (isEmpty c) eqn:E1; [apply IH; auto|]. apply isEmpty_cons in E1.
  destruct (beq c (B ".")); [apply IH; auto|]. simpl orb. cbv iota.
  destruct (beq c (B "..")).
  - destruct s as [|t s]; [apply IH; destruct r; auto|].
    destruct (beq t (B "..")); [apply IH; auto|]. inversion Hs; auto.
  - apply IH; auto.
Qed.
Lemma clean_unrooted p : isRooted p = false -> isRooted (clean p) = false.
Proof.
  intros H. unfold clean. rewrite H.
  pose proof (cleanComps_unrooted false _ (splitSlash_names p) [] (Forall_nil _)) as F.
  apply Forall_rev in F. destruct (rev _) as [|c l]; [reflexivity|].
  inversion F as [|? ? (N & S) _]; subst. unfold render.
  destruct c as [|x c]; [congruence|].
  assert (Byte.eqb x slash = false).
  { destruct (Byte.eqb x slash) eqn:E; auto. apply byte_eqb_eq in E. subst. exfalso; apply S; simpl; auto. }
  destruct l; simpl; auto.
Qed.
Lemma fpDir_unrooted p : isRooted p = false -> isRooted (fpDir p) = false.
Proof.
  intros H. apply clean_unrooted. destruct p as [|c r]; auto. cbn [upToLastSlash].
  destruct (existsb _ _); auto.
Qed.
Lemma walk_unrooted wd spec : (forall p, resolvePath wd p = RErr) -> forall fuel dir, isRooted dir = false ->
  resolveFromNodeModules wd fuel spec dir = None.
Proof.
  intros N. induction fuel as [|fuel IH]; intros dir H; auto.
  cbn [resolveFromNodeModules]. destruct (beq dir (B "/")) eqn:E.
  { apply beq_eq in E. subst. discriminate. }
  rewrite N. apply IH, fpDir_unrooted; auto.
Qed.

(** * Witnesses *)
Definition noFiles (wn : bool) : world := mkWorld (fun _ => StNotExist) (fun _ => None) (fun _ => None) wn.
Lemma noFiles_err wn p : resolvePath (noFiles wn) p = RErr.
Proof. reflexivity. Qed.

(** node_modules/theme/index.css is a directory. *)
Definition dirWorld : world :=
  mkWorld (fun p => if beq p (B "/a/node_modules/theme") || beq p (B "/a/node_modules/theme/index.css")
                    then StDir else StNotExist)
          (fun _ => None) (fun _ => None) true.
Lemma dirWorld_resolves : resolve dirWorld 5 [] (B "theme") (B "/a") = Some (ROk []).
Proof. reflexivity. Qed.

(** Only /node_modules/theme.css exists. *)
Definition rootWorld : world :=
  mkWorld (fun p => if beq p (B "/node_modules/theme.css") then StFile else StNotExist)
          (fun _ => None) (fun _ => None) true.

(** theme.css in two node_modules directories and below the base URL. *)
Definition shadowWorld : world :=
  mkWorld (fun p => if bmem p [B "/a/node_modules/theme.css"; B "/a/b/node_modules/theme.css"; B "/srv/x.css"] then StFile else StNotExist)
          (fun _ => None) (fun _ => None) true.

Lemma C39_root_refuted : exists wd spec names q, ~ relative spec /\ Forall normalName names /\
  firstAnswer wd (placesWithRoot [] spec names) q /\
  forall fuel, resolve wd fuel [] spec (dirString names) <> Some (ROk q).
Proof.
  exists rootWorld, (B "theme"), [B "a"], (B "/node_modules/theme.css").
  split; [intros (r & [H|[H|H]]); discriminate H|].
  assert (Forall normalName [B "a"]) as N.
  { constructor; [|constructor]. repeat split; try (intro; discriminate). intros [H|[]]; discriminate. }
  split; auto. split.
  - exists [B "/a/node_modules/theme"], (B "/node_modules/theme"), [].
    split; [reflexivity|]. split.
    + left. apply (StandsExt rootWorld (B "/node_modules/theme")); reflexivity.
    + intros p' [<-|[]] q'. apply resolvePath_err. reflexivity.
  - intros fuel H. destruct fuel as [|[|fuel]]; discriminate H.
Qed.

Lemma C38_unbroken wd fuel base spec dir q : (forall p, ~ brokenEntry wd p) ->
  resolve wd fuel base spec dir = Some (ROk q) -> w_stat wd q = StFile.
Proof. intros N H. apply C38_main in H as [H|(_ & _ & p & H)]; auto. exfalso; eapply N; eauto. Qed.
Lemma C38_broken : exists wd fuel base spec dir q,
  isRooted dir = true /\ w_stat wd [] = StNotExist /\
  resolve wd fuel base spec dir = Some (ROk q) /\ w_stat wd q <> StFile.
Proof.
  exists dirWorld, 5%nat, [], (B "theme"), (B "/a"), [].
  split; [reflexivity|]. split; [reflexivity|]. split; [reflexivity|]. discriminate.
Qed.
Lemma C40_diverges dir : isRooted dir = false ->
  exists wd, forall spec, ~ relative spec -> forall fuel, resolve wd fuel [] spec dir = None.
Proof.
  intros H. exists (noFiles true). intros spec N fuel. unfold resolve.
  destruct (isRelativeSpec spec) eqn:E; [apply relative_spec in E; contradiction|].
  apply walk_unrooted; auto.
Qed.
Lemma shadow_unbroken p : ~ brokenEntry shadowWorld p.
Proof.
  intros H. assert (w_stat shadowWorld p = StDir) as E by (destruct H; auto).
  unfold shadowWorld in E. cbn [w_stat] in E. destruct (bmem p _); discriminate.
Qed.
