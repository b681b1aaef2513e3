(** Executions in which calls of addSource do not overlap: C34, C37. *)
From Verif Require Import Bytes Utf8 Source Lexer Ast BytesFacts Parser ParseMono Printer Transformer Resolver Compile CompileSpec CompileSteps CompileOne.

Section WithProject.
Context {U : UnicodeDigits} {FO : FloatOps}.
Variable P : project.

(** * Bookkeeping of sources *)
(** [A]: the calls of addSource in progress. *)
Definition late (A : list frame) : nat :=
  match A with [Indexed _ _ _ _] | [Stored _ _] | [Counted _ _ _] => 1%nat | _ => 0%nat end.
Definition addOk (g : glob) (A : list frame) : Prop :=
  match A with
  | [] => True
  | [Missed file abs _] => lookup abs (g_sources g) = None
  | [ReadIn abs content _] => lookup abs (g_sources g) = None /\ p_read P abs = Some content
  | [Indexed i abs content _] => i = g_next g /\ lookup abs (g_sources g) = Some i /\ p_read P abs = Some content /\ ilookup i (g_byIndex g) = None
  | [Stored i _] => i = g_next g
  | [Counted i tmp _] => i = g_next g /\ tmp = g_next g
  | _ => False
  end.
Record book (g : glob) (A : list frame) : Prop := {
  bk_one : (length A <= 1)%nat;
  bk_add : addOk g A;
  bk_lt : forall p i, lookup p (g_sources g) = Some i -> (i < g_next g + late A)%nat;
  bk_inj : forall p q i, lookup p (g_sources g) = Some i -> lookup q (g_sources g) = Some i -> p = q;
  bk_has : forall p i, lookup p (g_sources g) = Some i -> (exists s, ilookup i (g_byIndex g) = Some s) \/ exists c out, A = [Indexed i p c out];
  bk_by : forall i s, ilookup i (g_byIndex g) = Some s -> exists src, nth_error (g_srcs g) s = Some src /\
    lookup (src_path src) (g_sources g) = Some i /\ p_read P (src_path src) = Some (src_content src) }.

Definition sameKept (g g' : glob) : Prop :=
  grows g g' /\ (forall p i, lookup p (g_sources g) = Some i -> lookup p (g_sources g') = Some i) /\
  (forall i s, ilookup i (g_byIndex g) = Some s -> ilookup i (g_byIndex g') = Some s) /\
  (forall i, In i (g_outputs g) -> In i (g_outputs g')) /\
  (forall i rs, ilookup i (g_asts g) = Some rs -> exists rs', ilookup i (g_asts g') = Some rs').
Lemma kept_refl g : sameKept g g.
Proof. split; [apply grows_same; auto|]. repeat split; eauto. Qed.
Lemma kept_trans g1 g2 g3 : sameKept g1 g2 -> sameKept g2 g3 -> sameKept g1 g3.
Proof.
  intros (A1 & A2 & A3 & A4 & A5) (B1 & B2 & B3 & B4 & B5). split; [eapply grows_trans; eauto|]. repeat split; eauto.
  intros i rs H. destruct (A5 _ _ H) as (rs' & H'). eauto.
Qed.

(** Facts about a goroutine that later steps of others keep. *)
Definition frameFacts (g : glob) (f : frame) : Prop :=
  match f with
  | Missed file abs _ => p_abs P file = Some abs
  | ReadIn abs content _ | Indexed _ abs content _ => p_read P abs = Some content
  | Stored i _ | Counted i _ _ | HasIndex i _ | Looking i | NotParsed i | Transformed i _ => exists s, ilookup i (g_byIndex g) = Some s
  | HasSource i s => ilookup i (g_byIndex g) = Some s
  | Called _ _ => True
  end.
Inductive facts (g : glob) : gor -> Prop :=
| fcFresh : facts g Fresh
| fcFrame f : frameFacts g f -> facts g (InFrame f)
| fcLoop i s rs imps k repl kids : ilookup i (g_byIndex g) = Some s -> (length kids <= k)%nat -> (k <= length imps)%nat -> Forall (facts g) kids -> facts g (InLoop i s rs imps k repl kids)
| fcBack ret : facts g (Back ret)
| fcDone : facts g Done.
Lemma facts_kept g g' (K : sameKept g g') : forall t, facts g t -> facts g' t.
Proof.
  fix IH 2. intros t [|f Hf|i s rs imps k repl kids H1 H2 H2' H3| |]; try (constructor; fail).
  - constructor. destruct K as (_ & _ & K & _). destruct f; cbn in *; auto; destruct Hf as (s & Hs); eauto.
  - constructor; auto; [apply K; auto|]. clear H1 H2. induction H3; constructor; auto.
Qed.
Lemma kids_kept g g' kids : sameKept g g' -> Forall (facts g) kids -> Forall (facts g') kids.
Proof. intros K. apply Forall_impl. intros t. apply facts_kept; auto. Qed.

(** Steps that leave the bookkeeping alone. *)
Definition sameBook (g g' : glob) : Prop := g_sources g' = g_sources g /\ g_next g' = g_next g /\ g_byIndex g' = g_byIndex g /\ grows g g'.
Lemma book_same g g' A : sameBook g g' -> book g A -> book g' A.
Proof.
  intros (E1 & E2 & E3 & G) [H1 H2 H3 H4 H5 H6]. constructor; rewrite ?E1, ?E2, ?E3; auto.
  - destruct A as [|f [|]]; auto. destruct f; cbn in *; rewrite ?E1, ?E2, ?E3; auto.
  - intros i s Hs. destruct (H6 _ _ Hs) as (src & S1 & S2 & S3). destruct (G _ _ S1) as (src' & S4 & F1 & F2). exists src'.
    rewrite <- F1, <- F2. auto.
Qed.
Lemma book_addError g e A : book g A -> book (addError g e) A.
Proof. apply book_same. repeat split. apply grows_same. auto. Qed.
Lemma kept_addError g e : sameKept g (addError g e).
Proof. split; [apply grows_same; auto|]. repeat split; eauto. Qed.

(** The calls in progress after the step of a goroutine in the frame [f]. *)
Lemma frame_book n g f g' t' pre post : let A := pre ++ adders (InFrame f) ++ post in
  book g A -> frameFacts g f -> (forall file out, f = Called file out -> A = []) ->
  frameStep P n g f = Some (Go g' t') -> book g' (pre ++ adders t' ++ post) /\ sameKept g g' /\ facts g' t'.
Proof.
  intros A Bk Hf Hc H.
  assert (One : inAddSource f = true -> pre = [] /\ post = []).
  { intros E. subst A. cbn [adders] in Bk. rewrite E in Bk. pose proof (bk_one _ _ Bk) as L. rewrite !app_length in L. cbn in L.
    destruct pre; [|cbn in L; lia]. destruct post; [auto|cbn in L; lia]. }
  destruct f as [file out|file abs out|abs content out|i abs content out|i out|i tmp out|i out|i|i|i s|i rs]; cbn [frameStep frameFacts adders inAddSource] in *;
    try (destruct (One eq_refl) as [-> ->]; cbn [app] in *); clear One; try subst A.
  - specialize (Hc _ _ eq_refl). rewrite Hc in Bk. apply app_eq_nil in Hc as [-> Hc]. cbn in Hc. subst post.
    destruct (p_abs P file) as [abs|] eqn:Ea.
    + destruct (lookup abs (g_sources g)) as [i|] eqn:El; inversion H; subst; cbn [adders inAddSource app].
      * split; [auto|split; [apply kept_refl|]]. constructor. cbn. destruct (bk_has _ _ Bk _ _ El) as [X|(c & o & X)]; [auto|discriminate].
      * split; [|split; [apply kept_refl|constructor; auto]]. destruct Bk as [B1 B2 B3 B4 B5 B6]; constructor; auto.
        intros p i Hp. destruct (B5 _ _ Hp) as [X|(c & o & X)]; [auto|discriminate].
    + inversion H; subst. cbn. split; [apply book_addError; auto|split; [apply kept_addError|constructor]].
  - destruct (p_read P abs) as [content|] eqn:Er; inversion H; subst; cbn [adders inAddSource app].
    + split; [|split; [apply kept_refl|constructor; auto]]. destruct Bk as [B1 B2 B3 B4 B5 B6]; constructor; cbn in *; auto.
      intros p i Hp. destruct (B5 _ _ Hp) as [X|(c & o & X)]; [auto|discriminate].
    + split; [|split; [apply kept_addError|constructor]]. apply book_addError. destruct Bk as [B1 B2 B3 B4 B5 B6]; constructor; cbn in *; auto.
      intros p i Hp. destruct (B5 _ _ Hp) as [X|(c & o & X)]; [auto|discriminate].
  - inversion H; subst. cbn [adders inAddSource app]. destruct Bk as [B1 B2 B3 B4 B5 B6]. cbn in B2. destruct B2 as [B2 Br].
    cbn [late] in B3.
    assert (Lk : forall p i, lookup p ((abs, g_next g) :: g_sources g) = Some i -> p = abs /\ i = g_next g \/ p <> abs /\ lookup p (g_sources g) = Some i).
    { intros p i Hp. cbn in Hp. destruct (beq p abs) eqn:E; [left|right].
      - apply beq_eq in E. inversion Hp. auto.
      - split; auto. intros ->. rewrite beq_refl in E. discriminate. }
    assert (Nw : forall p i, lookup p (g_sources g) = Some i -> lookup p ((abs, g_next g) :: g_sources g) = Some i).
    { intros p i Hp. cbn. destruct (beq p abs) eqn:E; auto. apply beq_eq in E. subst. congruence. }
    split; [|split; [|constructor; auto]].
    + constructor; cbn [g_sources g_next g_byIndex g_srcs addOk late length]; auto.
      * repeat split; auto; [cbn; rewrite beq_refl; auto|]. destruct (ilookup (g_next g) (g_byIndex g)) as [s|] eqn:E; auto.
        destruct (B6 _ _ E) as (src & _ & X & _). apply B3 in X. lia.
      * intros p i Hp. apply Lk in Hp as [[_ ->]|[_ Hp]]; [lia|]. apply B3 in Hp. lia.
      * intros p q i Hp Hq. apply Lk in Hp as [[-> E1]|[N1 Hp]]; apply Lk in Hq as [[-> E2]|[N2 Hq]]; auto; subst.
        -- apply B3 in Hq. lia.
        -- apply B3 in Hp. lia.
        -- eauto.
      * intros p i Hp. apply Lk in Hp as [[-> ->]|[_ Hp]]; [right; eauto|]. left. destruct (B5 _ _ Hp) as [X|(c & o & X)]; [auto|discriminate].
      * intros i s Hs. destruct (B6 _ _ Hs) as (src & X1 & X2 & X3). exists src. auto.
    + split; [apply grows_same; auto|]. repeat split; eauto.
  - inversion H; subst. cbn [adders inAddSource app]. destruct Bk as [B1 B2 B3 B4 B5 B6]. cbn in B2. destruct B2 as (-> & B2 & Br & Bn).
    split; [|split].
    + constructor; cbn [g_sources g_next g_byIndex g_srcs addOk late length] in *; auto.
      * intros p i Hp. left. cbn. destruct (i =? g_next g)%nat eqn:E; [eauto|]. destruct (B5 _ _ Hp) as [X|(c & o & X)]; [auto|].
        inversion X; subst. rewrite Nat.eqb_refl in E. discriminate.
      * intros i s. cbn. destruct (i =? g_next g)%nat eqn:E.
        -- apply Nat.eqb_eq in E. intros [=<-]. subst. exists (mkSource abs content []). split; [|cbn; auto].
           rewrite nth_error_app2, Nat.sub_diag by lia. reflexivity.
        -- intros Hs. destruct (B6 _ _ Hs) as (src & X1 & X2 & X3). exists src. split; auto. rewrite nth_error_app1; auto. apply nth_error_Some. congruence.
    + split; [|repeat split; cbn; eauto].
      * intros s src Hs. exists src. split; [|split; auto]. cbn. rewrite nth_error_app1; auto. apply nth_error_Some. congruence.
      * intros i s. destruct (i =? g_next g)%nat eqn:E; [apply Nat.eqb_eq in E; subst; congruence|auto].
    + constructor. cbn. rewrite Nat.eqb_refl. eauto.
  - inversion H; subst. cbn [adders inAddSource app]. destruct Bk as [B1 B2 B3 B4 B5 B6]. cbn in B2. subst.
    split; [|split; [apply kept_refl|constructor; auto]]. constructor; cbn in *; auto.
    intros p i Hp. destruct (B5 _ _ Hp) as [X|(c & o & X)]; [auto|discriminate].
  - inversion H; subst. cbn [adders inAddSource app]. destruct Bk as [B1 B2 B3 B4 B5 B6]. cbn in B2. destruct B2 as [-> ->].
    split; [|split; [|constructor; auto]].
    + constructor; cbn in *; auto.
      * intros p i Hp. apply B3 in Hp. lia.
      * intros p i Hp. destruct (B5 _ _ Hp) as [X|(c & o & X)]; [auto|discriminate].
    + split; [apply grows_same; auto|]. repeat split; eauto.
  - inversion H; subst. cbn [adders inAddSource app] in *. destruct out; (split; [eapply book_same; [|exact Bk]; repeat split; apply grows_same; auto|split; [|constructor; auto]]); [|apply kept_refl].
    split; [apply grows_same; auto|]. repeat split; eauto. cbn. intros j Hj. destruct (existsb _ _); auto. apply in_app_iff. auto.
  - destruct (ilookup i (g_asts g)); inversion H; subst; cbn [adders inAddSource app] in *; (split; [auto|split; [apply kept_refl|constructor; auto]]).
  - destruct (ilookup i (g_byIndex g)) eqn:E; inversion H; subst; cbn [adders inAddSource app] in *; (split; [auto|split; [apply kept_refl|constructor; auto]]).
  - destruct (nth_error (g_srcs g) s) as [src|] eqn:Es; [|discriminate].
    set (read := fun lines => mkG (g_sources g) (g_next g) (g_byIndex g) (g_asts g) (g_outputs g) (g_errors g)
        (upd s (mkSource (src_path src) (src_content src) (src_lines src ++ lines)) (g_srcs g)) (g_heap g) (S (g_runs g))) in *.
    assert (Gr : forall lines, grows g (read lines)).
    { intros lines s1 src1 H1. unfold read. cbn. rewrite nth_upd. destruct (s1 =? s)%nat eqn:E.
      - apply Nat.eqb_eq in E. subst. rewrite Es in *. inversion H1; subst. eexists. split; [reflexivity|split; auto].
      - exists src1. split; auto. split; auto. }
    destruct (parse (g_runs g) n (src_content src)) as [ss lines|sp msg lines| |] eqn:Ep; try discriminate; inversion H; subst; cbn [adders flat_map inAddSource app] in *.
    + split; [eapply book_same; [|exact Bk]; repeat split; exact (Gr lines)|]. split; [split; [exact (Gr lines)|repeat split; eauto]|].
      constructor; auto with arith.
    + split; [apply book_addError; eapply book_same; [|exact Bk]; repeat split; exact (Gr lines)|]. split; [|constructor].
      split; [exact (Gr lines)|repeat split; eauto].
  - inversion H; subst. cbn [adders inAddSource app] in *. split; [eapply book_same; [|exact Bk]; repeat split; apply grows_same; auto|]. split; [|constructor].
    split; [apply grows_same; auto|]. repeat split; eauto. cbn. intros j rs' Hj. destruct (j =? i)%nat; eauto.
Qed.
Lemma transform_book n g i s rs repl g' t' pre post : book g (pre ++ post) -> ilookup i (g_byIndex g) = Some s ->
  transformStep P n g i s rs repl = Some (Go g' t') -> book g' (pre ++ adders t' ++ post) /\ sameKept g g' /\ facts g' t'.
Proof.
  intros Bk Hi H. unfold transformStep in H. destruct (transformRefs _ _ _ _ _ _) as [[rs' h] t| |] eqn:E; inversion H; subst. cbn [adders inAddSource app].
  split; [eapply book_same; [|exact Bk]; repeat split; apply grows_same; auto|]. split; [split; [apply grows_same; auto|repeat split; eauto]|constructor; cbn; eauto].
Qed.
Lemma flat_app {A C} (f : A -> list C) a x b : flat_map f (a ++ x :: b) = flat_map f a ++ f x ++ flat_map f b.
Proof. rewrite flat_map_app. reflexivity. Qed.
Lemma done_adders kids : forallb isDone kids = true -> flat_map adders kids = [].
Proof. induction kids as [|t kids IH]; cbn; auto. destruct t; cbn; try discriminate. auto. Qed.
Lemma Forall_mid {A} (Q : A -> Prop) a x b : Forall Q (a ++ x :: b) <-> Forall Q a /\ Q x /\ Forall Q b.
Proof. rewrite Forall_app. split; intros (H1 & H2); [inversion H2; auto|]. destruct H2. auto. Qed.
Lemma stepG_book n path : forall g t g' t' pre post,
  stepG P n path g t = Some (Go g' t') -> book g (pre ++ adders t ++ post) -> facts g t ->
  ((exists file out, gorAt path t = Some (InFrame (Called file out))) -> pre ++ adders t ++ post = []) ->
  book g' (pre ++ adders t' ++ post) /\ sameKept g g' /\ facts g' t'.
Proof.
  induction path as [|j path IH]; intros g t g' t' pre post H Bk Ft Hc; cbn [stepG] in H.
  - destruct t as [|f|i s rs imps k repl kids| |]; try discriminate.
    + inversion Ft; subst. eapply frame_book; eauto. intros file out ->. apply Hc. cbn. eauto.
    + inversion Ft; subst. destruct (k <? length imps)%nat eqn:E.
      * inversion H; subst. cbn [adders] in *. rewrite flat_map_app. cbn [flat_map adders]. rewrite app_nil_r. split; [auto|split; [apply kept_refl|]].
        apply Nat.ltb_lt in E. constructor; auto; [rewrite app_length; cbn; lia|]. apply Forall_app. split; auto. constructor; constructor.
      * destruct (forallb isDone kids) eqn:E1; [|discriminate]. cbn [adders] in Bk. rewrite done_adders in Bk by auto. cbn [app] in Bk.
        eapply transform_book; eauto.
  - destruct t as [| |i s rs imps k repl kids| |]; try discriminate. destruct (nth_error kids j) as [kid|] eqn:Ek; [|discriminate].
    inversion Ft as [| |? ? ? ? ? ? ? Fi Fk Fl Fs| |]; subst.
    assert (K : match stepG P n path g kid with
        | Some (Go g' kid') => Some (Go g' (InLoop i s rs imps k repl (upd j kid' kids)))
        | other => other
        end = Some (Go g' t') -> book g' (pre ++ adders t' ++ post) /\ sameKept g g' /\ facts g' t').
    { intros E. destruct (stepG P n path g kid) as [[g1 kid'|]|] eqn:E1; try discriminate. inversion E; subst.
      destruct (upd_split j kid' kids kid Ek) as (a & b & Ea & Eb & _). rewrite Eb. cbn [adders] in *. rewrite Ea in *. rewrite flat_app in *.
      assert (R : forall x, pre ++ (flat_map adders a ++ adders x ++ flat_map adders b) ++ post = (pre ++ flat_map adders a) ++ adders x ++ (flat_map adders b ++ post)).
      { intros x. rewrite <- !app_assoc. reflexivity. }
      rewrite R in *. destruct (IH _ _ _ _ _ _ E1 Bk) as (B1 & K1 & F1).
      - apply Forall_mid in Fs. tauto.
      - intros X. apply Hc. cbn [gorAt]. rewrite Ek. exact X.
      - split; [auto|split; [auto|]]. apply Forall_mid in Fs as (Fa & _ & Fb). constructor; auto.
        + apply K1. auto.
        + rewrite app_length in *. auto.
        + apply Forall_mid. split; [eapply kids_kept; eauto|split; [auto|eapply kids_kept; eauto]]. }
    destruct kid; try exact (K H); (destruct (current k imps) as [[spec at_]|] eqn:Ec; [|try exact (K H)]).
    + destruct (nth_error (g_srcs g) s) as [src|] eqn:Es; [|discriminate]. destruct (p_resolve P spec _) as [rel|] eqn:Er; inversion H; subst.
      * destruct (upd_split j (InFrame (Called rel (follow P))) kids Fresh Ek) as (a & b & Ea & Eb & _). rewrite Eb. cbn [adders] in *. rewrite Ea in *. rewrite flat_app in *.
        split; [exact Bk|split; [apply kept_refl|]]. apply Forall_mid in Fs as (Fa & _ & Fb). constructor; auto; [rewrite app_length in *; auto|].
        apply Forall_mid. split; [auto|split; [constructor; cbn; auto|auto]].
      * destruct (upd_split j Done kids Fresh Ek) as (a & b & Ea & Eb & _). rewrite Eb. cbn [adders] in *. rewrite Ea in *. rewrite flat_app in *.
        split; [apply book_addError; exact Bk|split; [apply kept_addError|]]. apply (facts_kept g); [apply kept_addError|].
        apply Forall_mid in Fs as (Fa & _ & Fb). constructor; auto; [rewrite app_length in *; auto|]. apply Forall_mid. split; [auto|split; [constructor|auto]].
    + inversion H; subst. destruct (upd_split j Done kids (Back ret) Ek) as (a & b & Ea & Eb & _). rewrite Eb. cbn [adders] in *. rewrite Ea in *. rewrite flat_app in *.
      split; [exact Bk|split; [apply kept_refl|]]. apply Forall_mid in Fs as (Fa & _ & Fb). constructor; auto; [rewrite app_length in *; auto|].
      apply Forall_mid. split; [auto|split; [constructor|auto]].
Qed.

(** * The whole program *)
Definition calmM (g : glob) (m : mstate) : Prop :=
  book g (mAdders m) /\
  match m with
  | Running k kids => Forall (facts g) kids /\ (length kids <= k)%nat /\ (k <= length (p_entries P))%nat
  | _ => True
  end.
Definition calmS (s : glob * mstate) : Prop := calmM (fst s) (snd s) \/ snd s = Crashed.
Lemma printOne_same g i out : sameBook g (fst (printOne g i out)).
Proof.
  unfold printOne. assert (sameBook g g) by (repeat split; apply grows_same; auto).
  repeat match goal with |- context [match ?x with _ => _ end] => destruct x end; auto; repeat split; apply grows_same; auto.
Qed.
Lemma printOne_kept g i out : sameKept g (fst (printOne g i out)).
Proof.
  unfold printOne. pose proof (kept_refl g).
  repeat match goal with |- context [match ?x with _ => _ end] => destruct x end; auto; apply kept_addError.
Qed.
Lemma calm_step_kept s s' : calmS s -> apart P s s' -> calmS s' /\ sameKept (fst s) (fst s').
Proof.
  intros [C|C] (n & path & H & Q); destruct s as [g m], s' as [g' m']; cbn [fst snd] in *; [|subst; cbn in H; destruct path; discriminate].
  destruct m as [k kids|todo out|out|]; cbn [stepM] in H; try (destruct path; discriminate).
  - destruct C as (Bk & Fs & L1 & L2). destruct path as [|j path].
    + destruct (k <? length (p_entries P))%nat eqn:E.
      * inversion H; subst. apply Nat.ltb_lt in E. split; [|apply kept_refl]. left. split; cbn [fst snd mAdders] in *.
        -- rewrite flat_map_app. cbn. rewrite app_nil_r. auto.
        -- rewrite app_length. cbn. split; [apply Forall_app; split; auto; constructor; constructor|lia].
      * destruct (forallb isDone kids) eqn:E1; [|discriminate]. inversion H; subst. split; [|apply kept_refl]. left. split; cbn [fst snd mAdders] in *; auto.
        rewrite done_adders in Bk; auto.
    + cbn [mAdders] in *. destruct (nth_error kids j) as [kid|] eqn:Ek; [|discriminate].
      assert (Simple : forall kid', adders kid' = adders kid -> facts g kid' -> calmS (g, Running k (upd j kid' kids)) /\ sameKept g g).
      { intros kid' Ea F1. split; [|apply kept_refl]. left. destruct (upd_split j kid' kids kid Ek) as (a & b & E1 & E2 & _). split; cbn [fst snd mAdders].
        - rewrite E2, flat_app, Ea, <- flat_app, <- E1. auto.
        - split; [|rewrite upd_length; auto]. apply upd_Forall; auto. }
      assert (K : match stepG P n path g kid with
        | Some (Go g' kid') => Some (g', Running k (upd j kid' kids))
        | Some Crash => Some (g, Crashed)
        | None => None
        end = Some (g', m') -> calmS (g', m') /\ sameKept g g').
      { intros E. destruct (stepG P n path g kid) as [[g1 kid'|]|] eqn:E1; try discriminate; inversion E; subst; [|split; [right; auto|apply kept_refl]].
        destruct (upd_split j kid' kids kid Ek) as (a & b & Ea & Eb & _).
        destruct (stepG_book n path _ _ _ _ (flat_map adders a) (flat_map adders b) E1) as (B1 & K1 & F1).
        - rewrite <- flat_app, <- Ea. auto.
        - apply Forall_forall with (x := kid) in Fs; auto. eapply nth_error_In; eauto.
        - intros X. rewrite <- flat_app, <- Ea. apply Q. destruct X as (file & out & X). exists file, out. cbn. rewrite Ek. auto.
        - split; auto. left. split; cbn [fst snd mAdders]; [rewrite Eb, flat_app; auto|].
          split; [|rewrite upd_length; auto]. apply upd_Forall; auto. eapply kids_kept; eauto. }
      destruct kid; try exact (K H).
      * destruct (current k (p_entries P)) as [e|]; [|exact (K H)]. inversion H; subst. apply Simple; auto. constructor; cbn; auto.
      * inversion H; subst. apply Simple; auto. constructor.
  - destruct C as (Bk & _). cbn [mAdders] in *. destruct todo as [|i0 todo].
    + destruct path; [|discriminate]. inversion H; subst. split; [|apply kept_refl]. left. split; cbn; auto.
    + destruct path as [|j [|]]; try discriminate. destruct (nth_error (i0 :: todo) j) as [idx|] eqn:E; [|discriminate].
      pose proof (printOne_same g idx out) as S1. pose proof (printOne_kept g idx out) as S2.
      destruct (printOne g idx out) as [g1 out1] eqn:E1. inversion H; subst. split; [|exact S2]. left. split; cbn [fst snd mAdders]; auto.
      eapply book_same; [|exact Bk]. exact S1.
Qed.
Lemma calm_step s s' : calmS s -> apart P s s' -> calmS s'.
Proof. intros H1 H2. eapply calm_step_kept; eauto. Qed.
Lemma calm_reach s : reachApart P s -> calmS s.
Proof.
  induction 1.
  - left. split; cbn; [|split; [constructor|lia]]. constructor; cbn; try lia; auto; discriminate.
  - eapply calm_step; eauto.
Qed.
Lemma C37_lemma g m : reachApart P (g, m) -> m <> Crashed ->
  (forall p q i, lookup p (g_sources g) = Some i -> lookup q (g_sources g) = Some i -> p = q) /\
  (forall p i s, lookup p (g_sources g) = Some i -> ilookup i (g_byIndex g) = Some s ->
     exists src, nth_error (g_srcs g) s = Some src /\ src_path src = p /\ p_read P p = Some (src_content src)) /\
  (forall g' m', apart P (g, m) (g', m') ->
     (forall p i, lookup p (g_sources g) = Some i -> lookup p (g_sources g') = Some i) /\
     (forall i s, ilookup i (g_byIndex g) = Some s -> ilookup i (g_byIndex g') = Some s)).
Proof.
  intros R N. destruct (calm_reach _ R) as [C|C]; [|cbn in C; congruence]. pose proof C as C0. destruct C as (Bk & _). cbn [fst snd] in *. split; [|split].
  - apply (bk_inj _ _ Bk).
  - intros p i s H1 H2. destruct (bk_by _ _ Bk _ _ H2) as (src & X1 & X2 & X3). assert (src_path src = p) by (eapply (bk_inj _ _ Bk); eauto).
    exists src. subst. auto.
  - intros g' m' A. destruct (calm_step_kept (g, m) (g', m')) as (_ & K); auto; [left; auto|]. destruct K as (_ & K1 & K2 & _). auto.
Qed.
End WithProject.
