(** Executions without overlapping calls of addSource end when the imports do: C34. *)
From Verif Require Import Bytes Utf8 Source Lexer Ast BytesFacts Parser ParseMono ParserSpec ParseRerun Printer Transformer Resolver Compile CompileSpec CompileSteps CompileOne CompileCalm.

Section WithProject.
Context {U : UnicodeDigits} {FO : FloatOps}.
Variable P : project.

(** * A bound for each file *)
(** The loop over the imports of [f] takes at most [w] transitions. *)
Inductive bounded (f : bytes) (w : nat) : Prop :=
| Bounded n b :
    (forall content run m ss lines, p_read P f = Some content -> parse run m content = ParseOk ss lines -> (length (ss_imports ss) <= n)%nat) ->
    (forall g, edge P f g -> bounded g b) ->
    (n * (13 + b + 2) <= w)%nat -> bounded f w.
Lemma bounded_le f w w' : (w <= w')%nat -> bounded f w -> bounded f w'.
Proof. intros L [n b H1 H2 H3]. apply (Bounded f w' n b); auto. lia. Qed.

(** All parses of a file have the same import specifiers. *)
Lemma parse_agree run1 n1 run2 n2 content : parse run1 n1 content <> ParseTimeout -> parse run2 n2 content <> ParseTimeout ->
  parse run2 n2 content = outcomeOfRun run2 (parse run1 n1 content).
Proof.
  intros H1 H2. destruct (Nat.le_ge_cases n1 n2) as [L|L].
  - rewrite <- (parse_stable run1 n1 n2 content L H1). apply C12_rerun_lemma.
  - rewrite <- (parse_stable run2 n2 n1 content L H2). apply C12_rerun_lemma.
Qed.
Lemma specs_same run1 n1 run2 n2 content ss1 l1 ss2 l2 : parse run1 n1 content = ParseOk ss1 l1 -> parse run2 n2 content = ParseOk ss2 l2 ->
  map fst (ss_imports ss2) = map fst (ss_imports ss1).
Proof.
  intros H1 H2. pose proof (parse_agree run1 n1 run2 n2 content) as H. rewrite H1, H2 in H. specialize (H ltac:(discriminate) ltac:(discriminate)).
  cbn in H. inversion H. cbn. rewrite map_map. apply map_ext. auto.
Qed.
Lemma max_bound f specs :
  (forall spec rel g, In spec specs -> p_resolve P spec (fpDir f) = Some rel -> p_abs P rel = Some g -> exists b, bounded g b) ->
  exists b, forall spec rel g, In spec specs -> p_resolve P spec (fpDir f) = Some rel -> p_abs P rel = Some g -> bounded g b.
Proof.
  induction specs as [|spec specs IH]; intros H; [exists 0%nat; intros ? ? ? []|].
  destruct IH as (b & Hb); [intros s r g I; apply (H s r g); right; auto|].
  destruct (p_resolve P spec (fpDir f)) as [rel|] eqn:E1; [destruct (p_abs P rel) as [g|] eqn:E2|].
  - destruct (H spec rel g) as (b2 & Hb2); auto; [left; auto|]. exists (max b b2). intros s r g' [->|I] Er Ea.
    + rewrite E1 in Er. inversion Er; subst. rewrite E2 in Ea. inversion Ea; subst. eapply bounded_le; [|eauto]. lia.
    + eapply bounded_le; [|eauto]. lia.
  - exists b. intros s r g' [->|I] Er Ea; [congruence|eauto].
  - exists b. intros s r g' [->|I] Er Ea; [congruence|eauto].
Qed.
Lemma grounded_bounded f : (exists content run m ss lines, p_read P f = Some content /\ parse run m content = ParseOk ss lines) ->
  (forall g, edge P f g -> exists b, bounded g b) -> exists w, bounded f w.
Proof.
  intros (content & run & m & ss & lines & H1 & H2) H.
  destruct (max_bound f (map fst (ss_imports ss))) as (b & Hb).
  { intros spec rel g I Er Ea. apply H. exists spec, rel. split; [|auto]. exists content, run, m, ss, lines. auto. }
  exists (length (ss_imports ss) * (13 + b + 2))%nat. apply (Bounded f _ (length (ss_imports ss)) b); auto.
  - intros content' run' m' ss' lines' H1' H2'. rewrite H1 in H1'. inversion H1'; subst. 
    pose proof (specs_same _ _ _ _ _ _ _ _ _ H2 H2') as E. apply (f_equal (@length _)) in E. rewrite !map_length in E. lia.
  - intros g (spec & rel & (content' & run' & m' & ss' & lines' & R1 & R2 & R3) & Er & Ea).
    rewrite H1 in R1. inversion R1; subst. rewrite (specs_same _ _ _ _ _ _ _ _ _ H2 R2) in R3. eauto.
Qed.
Lemma unparsed_bounded f : (forall content run m ss lines, p_read P f = Some content -> parse run m content <> ParseOk ss lines) -> bounded f 0.
Proof.
  intros N. apply (Bounded f 0 0 0); auto.
  - intros. exfalso. eapply N; eauto.
  - intros g (spec & rel & (content' & run' & m' & ss' & lines' & R1 & R2 & R3) & _). exfalso. eapply N; eauto.
Qed.
Hypothesis returns : forall f, involved P f -> parserReturns P f.
Lemma involved_edge f g : involved P f -> edge P f g -> involved P g.
Proof.
  intros (e & a & H1 & H2 & [->|H3]) E; exists e, a; (split; [auto|split; [auto|]]); right; [apply leadsEdge; auto|eapply leadsStep; eauto].
Qed.
Lemma all_bounded f : grounded P f -> involved P f -> exists w, bounded f w.
Proof.
  induction 1 as [f _ IH]. intros I.
  assert (Ch : forall g, edge P f g -> exists b, bounded g b) by (intros g E; apply IH; auto; eapply involved_edge; eauto).
  destruct (p_read P f) as [content|] eqn:E.
  - destruct (returns f I content E) as (n & Hn). destruct (parse 0 n content) as [ss lines|sp msg lines| |] eqn:Ep; [| | |congruence].
    + apply grounded_bounded; auto. do 5 eexists. eauto.
    + exists 0%nat. apply unparsed_bounded. intros c run m ss lines' H1 H2. rewrite E in H1. inversion H1; subst.
      pose proof (parse_agree 0 n run m c) as X. rewrite Ep, H2 in X. specialize (X ltac:(discriminate) ltac:(discriminate)). discriminate.
    + exists 0%nat. apply unparsed_bounded. intros c run m ss lines' H1 H2. rewrite E in H1. inversion H1; subst.
      pose proof (parse_agree 0 n run m c) as X. rewrite Ep, H2 in X. specialize (X ltac:(discriminate) ltac:(discriminate)). discriminate.
  - exists 0%nat. apply unparsed_bounded. intros. congruence.
Qed.

(** * A bound for each goroutine *)
Definition fileOf (g : glob) (i : nat) (f : bytes) : Prop := exists s src, ilookup i (g_byIndex g) = Some s /\ nth_error (g_srcs g) s = Some src /\ src_path src = f.
Definition frameWeight (g : glob) (f : frame) (w : nat) : Prop :=
  match f with
  | Called file _ => exists b, (forall a, p_abs P file = Some a -> bounded a b) /\ w = (13 + b)%nat
  | Missed _ abs _ => exists b, bounded abs b /\ w = (12 + b)%nat
  | ReadIn abs _ _ => exists b, bounded abs b /\ w = (11 + b)%nat
  | Indexed _ abs _ _ => exists b, bounded abs b /\ w = (10 + b)%nat
  | Stored i _ => exists a b, fileOf g i a /\ bounded a b /\ w = (9 + b)%nat
  | Counted i _ _ => exists a b, fileOf g i a /\ bounded a b /\ w = (8 + b)%nat
  | HasIndex i _ => exists a b, fileOf g i a /\ bounded a b /\ w = (7 + b)%nat
  | Looking i => exists a b, fileOf g i a /\ bounded a b /\ w = (6 + b)%nat
  | NotParsed i => exists a b, fileOf g i a /\ bounded a b /\ w = (5 + b)%nat
  | HasSource i _ => exists a b, fileOf g i a /\ bounded a b /\ w = (4 + b)%nat
  | Transformed _ _ => w = 2%nat
  end.
(** [c]: a bound for the goroutines of the same loop that have not begun. *)
Inductive weigh (g : glob) (c : nat) : gor -> nat -> Prop :=
| wFresh : weigh g c Fresh (S c)
| wFrame f w : frameWeight g f w -> weigh g c (InFrame f) w
| wLoop i s rs imps k repl kids src b ws :
    nth_error (g_srcs g) s = Some src ->
    (forall spec rel a, In spec (map fst imps) -> p_resolve P spec (fpDir (src_path src)) = Some rel -> p_abs P rel = Some a -> bounded a b) ->
    Forall2 (weigh g (13 + b)) kids ws ->
    weigh g c (InLoop i s rs imps k repl kids) (3 + list_sum ws + (length imps - k) * (13 + b + 2))%nat
| wBack ret : weigh g c (Back ret) 1
| wDone : weigh g c Done 0.
Lemma fileOf_kept g g' i f : sameKept g g' -> fileOf g i f -> fileOf g' i f.
Proof.
  intros (K1 & _ & K2 & _) (s & src & H1 & H2 & H3). destruct (K1 _ _ H2) as (src' & X1 & X2 & X3). exists s, src'. split; [auto|split; [auto|congruence]].
Qed.
Lemma frameWeight_kept g g' f w : sameKept g g' -> frameWeight g f w -> frameWeight g' f w.
Proof.
  intros K. destruct f; cbn; auto; intros (a & b & X1 & X2); exists a, b; (split; [eapply fileOf_kept; eauto|auto]).
Qed.
Lemma weigh_kept g g' (K : sameKept g g') : forall c t w, weigh g c t w -> weigh g' c t w.
Proof.
  fix IH 4. intros c t w [|f w' Hf|i s rs imps k repl kids src b ws H1 H2 H3| |].
  - constructor.
  - constructor. eapply frameWeight_kept; eauto.
  - destruct (proj1 K _ _ H1) as (src' & X1 & X2 & X3). apply wLoop with (src := src'); auto.
    + rewrite <- X2. auto.
    + clear H2. induction H3; constructor; auto.
  - constructor.
  - constructor.
Qed.
Lemma kids_weigh_kept g g' c kids ws : sameKept g g' -> Forall2 (weigh g c) kids ws -> Forall2 (weigh g' c) kids ws.
Proof. intros K. induction 1; constructor; auto. eapply weigh_kept; eauto. Qed.
Lemma fileOf_has g A i p : book P g A -> lookup p (g_sources g) = Some i -> (exists s, ilookup i (g_byIndex g) = Some s) -> fileOf g i p.
Proof.
  intros Bk H (s & Hs). destruct (bk_by _ _ _ Bk _ _ Hs) as (src & X1 & X2 & X3). exists s, src. split; [auto|split; [auto|]]. eapply (bk_inj _ _ _ Bk); eauto.
Qed.
Lemma frame_weigh n g f g' t' pre post c w : let A := pre ++ adders (InFrame f) ++ post in
  book P g A -> frameFacts P g f -> (forall file out, f = Called file out -> A = []) ->
  frameStep P n g f = Some (Go g' t') -> frameWeight g f w -> exists w', (w' < w)%nat /\ weigh g' c t' w'.
Proof.
  intros A Bk Hf Hc H W. destruct (frame_book P n g f g' t' pre post Bk Hf Hc H) as (Bk' & K & F').
  destruct f as [file out|file abs out|abs content out|i abs content out|i out|i tmp out|i out|i|i|i s|i rs]; cbn [frameStep frameFacts frameWeight] in *; subst A.
  - destruct W as (b & Hb & ->). specialize (Hc _ _ eq_refl). rewrite Hc in Bk. destruct (p_abs P file) as [abs|] eqn:Ea.
    + destruct (lookup abs (g_sources g)) as [i|] eqn:El; inversion H; subst.
      * exists (7 + b)%nat. split; [lia|]. constructor. cbn. exists abs, b. split; [|auto]. eapply fileOf_has; eauto.
        destruct (bk_has _ _ _ Bk _ _ El) as [X|(? & ? & X)]; [auto|discriminate].
      * exists (12 + b)%nat. split; [lia|]. constructor. cbn. exists b. auto.
    + inversion H; subst. exists 1%nat. split; [lia|constructor].
  - destruct W as (b & Hb & ->). destruct (p_read P abs); inversion H; subst; [|exists 1%nat; split; [lia|constructor]].
    exists (11 + b)%nat. split; [lia|]. constructor. cbn. eauto.
  - destruct W as (b & Hb & ->). inversion H; subst. exists (10 + b)%nat. split; [lia|]. constructor. cbn. eauto.
  - destruct W as (b & Hb & ->). inversion H; subst. exists (9 + b)%nat. split; [lia|]. constructor. cbn. exists abs, b. split; [|auto].
    unfold fileOf. cbn. exists (length (g_srcs g)), (mkSource abs content []). rewrite Nat.eqb_refl. split; [auto|split; [|auto]].
    rewrite nth_error_app2, Nat.sub_diag by lia. reflexivity.
  - destruct W as (a & b & Ha & Hb & ->). inversion H; subst. exists (8 + b)%nat. split; [lia|]. constructor. cbn. eauto.
  - destruct W as (a & b & Ha & Hb & ->). exists (7 + b)%nat. split; [lia|]. pose proof (fileOf_kept _ _ _ _ K Ha). inversion H; subst. constructor. cbn. eauto.
  - destruct W as (a & b & Ha & Hb & ->). exists (6 + b)%nat. split; [lia|]. pose proof (fileOf_kept _ _ _ _ K Ha). inversion H; subst. constructor. cbn. eauto.
  - destruct W as (a & b & Ha & Hb & ->). destruct (ilookup i (g_asts g)); inversion H; subst; [exists 1%nat; split; [lia|constructor]|].
    exists (5 + b)%nat. split; [lia|]. constructor. cbn. eauto.
  - destruct W as (a & b & Ha & Hb & ->). destruct (ilookup i (g_byIndex g)) eqn:E; inversion H; subst. exists (4 + b)%nat. split; [lia|]. constructor. cbn. eauto.
  - destruct W as (a & b & Ha & Hb & ->). destruct (nth_error (g_srcs g) s) as [src|] eqn:Es; [|discriminate].
    destruct (parse (g_runs g) n (src_content src)) as [ss lines|sp msg lines| |] eqn:Ep; try discriminate; [|inversion H; subst; exists 1%nat; split; [lia|constructor]].
    destruct Ha as (s' & src' & X1 & X2 & X3). rewrite Hf in X1. inversion X1; subst s'. rewrite Es in X2. inversion X2; subst src'. subst a.
    destruct Hb as [m b' B1 B2 B3]. destruct (bk_by _ _ _ Bk _ _ Hf) as (src' & Y1 & Y2 & Y3). rewrite Es in Y1. inversion Y1; subst src'.
    pose proof (B1 _ _ _ _ _ Y3 Ep) as L. inversion H; subst.
    eexists. split; [|eapply wLoop with (b := b') (ws := []); [cbn; rewrite nth_upd, Nat.eqb_refl, Es; reflexivity| |constructor]].
    + cbn [list_sum fold_right]. pose proof (Nat.mul_le_mono_r _ _ (13 + b' + 2) L). rewrite Nat.sub_0_r. lia.
    + cbn. intros spec rel a I Er Ea. apply B2. exists spec, rel. split; [|auto]. exists (src_content src), (g_runs g), n, ss, lines. auto.
  - subst w. inversion H; subst. exists 1%nat. split; [lia|constructor].
Qed.
Lemma upd_weigh g g' c j kids kid kid' ws : sameKept g g' -> nth_error kids j = Some kid -> Forall2 (weigh g c) kids ws ->
  exists w, weigh g c kid w /\ (forall w', (w' < w)%nat -> weigh g' c kid' w' ->
    exists ws', Forall2 (weigh g' c) (upd j kid' kids) ws' /\ (list_sum ws' < list_sum ws)%nat).
Proof.
  intros K Hj F. revert j Hj. induction F as [|t w kids ws Hw F IH]; intros j Hj; [destruct j; discriminate|]. destruct j as [|j]; cbn in Hj.
  - inversion Hj; subst. exists w. split; auto. intros w' L W'. exists (w' :: ws). split; [|cbn; lia]. cbn. constructor; auto. eapply kids_weigh_kept; eauto.
  - destruct (IH _ Hj) as (v & V1 & V2). exists v. split; auto. intros w' L W'. destruct (V2 w' L W') as (ws' & X1 & X2). exists (w :: ws'). split; [|unfold list_sum in *; cbn; lia].
    cbn. constructor; auto. eapply weigh_kept; eauto.
Qed.
Lemma sum_app a b : list_sum (a ++ b) = (list_sum a + list_sum b)%nat.
Proof. unfold list_sum in *; induction a; cbn; lia. Qed.
Lemma current_spec {A C} k (l : list (A * C)) a x : current k l = Some (a, x) -> In a (map fst l).
Proof. intros H. apply current_in in H. apply (in_map fst) in H. exact H. Qed.
Lemma stepG_weigh n path : forall g t g' t' pre post c w,
  stepG P n path g t = Some (Go g' t') -> book P g (pre ++ adders t ++ post) -> facts P g t ->
  ((exists file out, gorAt path t = Some (InFrame (Called file out))) -> pre ++ adders t ++ post = []) ->
  weigh g c t w -> exists w', (w' < w)%nat /\ weigh g' c t' w'.
Proof.
  induction path as [|j path IH]; intros g t g' t' pre post c w H Bk Ft Hc W; pose proof (stepG_book P n _ _ _ _ _ pre post H Bk Ft Hc) as (Bk' & K' & Ft'); cbn [stepG] in H.
  - destruct t as [|f|i s rs imps k repl kids| |]; try discriminate.
    + inversion Ft; subst. inversion W; subst. eapply frame_weigh; eauto. intros file out ->. apply Hc. cbn. eauto.
    + inversion W as [| |? ? ? ? ? ? ? src b ws W1 W2 W3| |]; subst. destruct (k <? length imps)%nat eqn:E.
      * inversion H; subst. apply Nat.ltb_lt in E. eexists. split; [|eapply wLoop with (b := b) (ws := ws ++ [S (13 + b)]); eauto].
        -- rewrite sum_app. cbn [list_sum fold_right]. replace (length imps - k)%nat with (S (length imps - S k)) by lia. cbn [Nat.mul]. lia.
        -- apply Forall2_app; auto. constructor; constructor.
      * destruct (forallb isDone kids) eqn:E1; [|discriminate]. unfold transformStep in H.
        destruct (transformRefs _ _ _ _ _ _) as [[rs' h] t1| |]; inversion H; subst. exists 2%nat. split; [rewrite <- Nat.add_assoc; apply Nat.lt_le_trans with 3%nat; [lia|apply Nat.le_add_r]|]. constructor. reflexivity.
  - destruct t as [| |i s rs imps k repl kids| |]; try discriminate. destruct (nth_error kids j) as [kid|] eqn:Ek; [|discriminate].
    inversion Ft as [| |? ? ? ? ? ? ? Fi Fk Fl Fs| |]; subst. inversion W as [| |? ? ? ? ? ? ? src b ws W1 W2 W3| |]; subst.
    assert (Up : forall kid' repl', (exists w0, forall w, weigh g (13 + b) kid w -> (w0 < w)%nat /\ weigh g' (13 + b) kid' w0) ->
       exists w', (w' < 3 + list_sum ws + (length imps - k) * (13 + b + 2))%nat /\ weigh g' c (InLoop i s rs imps k repl' (upd j kid' kids)) w').
    { intros kid' repl' (w0 & Hw0). destruct (upd_weigh g g' (13 + b) j kids kid kid' ws K' Ek W3) as (v & V1 & V2).
      destruct (Hw0 v V1) as (L & W'). destruct (V2 w0 L W') as (ws' & X1 & X2). destruct (proj1 K' _ _ W1) as (src' & Y1 & Y2 & Y3).
      eexists. split; [|eapply wLoop with (b := b) (ws := ws'); eauto].
      - lia.
      - rewrite <- Y2. auto. }
    assert (K : match stepG P n path g kid with
        | Some (Go g' kid') => Some (Go g' (InLoop i s rs imps k repl (upd j kid' kids)))
        | other => other
        end = Some (Go g' t') -> exists w', (w' < 3 + list_sum ws + (length imps - k) * (13 + b + 2))%nat /\ weigh g' c t' w').
    { intros E. destruct (stepG P n path g kid) as [[g1 kid'|]|] eqn:E1; try discriminate. inversion E; subst.
      destruct (upd_split j kid' kids kid Ek) as (a & d & Ea & Eb & _). cbn [adders] in *. 
      assert (R : forall x, pre ++ (flat_map adders a ++ adders x ++ flat_map adders d) ++ post = (pre ++ flat_map adders a) ++ adders x ++ (flat_map adders d ++ post)).
      { intros x. rewrite <- !app_assoc. reflexivity. }
      destruct (upd_weigh g g' (13 + b) j kids kid kid' ws K' Ek W3) as (v & V1 & V2).
      destruct (IH g kid g' kid' (pre ++ flat_map adders a) (flat_map adders d ++ post) (13 + b)%nat v E1) as (w0 & L & W').
      - rewrite <- R, <- flat_app, <- Ea. auto.
      - apply Forall_forall with (x := kid) in Fs; auto. eapply nth_error_In; eauto.
      - intros X. rewrite <- R, <- flat_app, <- Ea. apply Hc. cbn [gorAt]. rewrite Ek. exact X.
      - auto.
      - destruct (V2 w0 L W') as (ws' & X1 & X2). destruct (proj1 K' _ _ W1) as (src' & Y1 & Y2 & Y3).
        eexists. split; [|eapply wLoop with (b := b) (ws := ws'); eauto].
        + lia.
        + rewrite <- Y2. auto. }
    destruct kid; try exact (K H); (destruct (current k imps) as [[spec at_]|] eqn:Ec; [|try exact (K H)]).
    + destruct (nth_error (g_srcs g) s) as [src1|] eqn:Es; [|discriminate]. inversion W1; subst src1.
      destruct (p_resolve P spec _) as [rel|] eqn:Er; inversion H; subst.
      * apply Up. exists (13 + b)%nat. intros w Hw. inversion Hw; subst. split; [lia|]. constructor. cbn. exists b. split; auto.
        intros a Ha. eapply W2; eauto. eapply current_spec; eauto.
      * apply Up. exists 0%nat. intros w Hw. inversion Hw; subst. split; [lia|constructor].
    + inversion H; subst. apply Up. exists 0%nat. intros w Hw. inversion Hw; subst. split; [lia|constructor].
Qed.

(** * The whole program *)
Lemma gstep_outputs g t g' t' : gstep P g t g' t' -> (length (g_outputs g') <= S (length (g_outputs g)))%nat.
Proof.
  induction 1; auto.
  - destruct f as [file out|file abs out|abs content out|i abs content out|i out|i tmp out|i out|i|i|i s|i rs]; cbn [frameStep] in H;
      repeat match type of H with context [match ?x with _ => _ end] => destruct x end; inversion H; subst; cbn; auto.
    rewrite app_length. cbn. lia.
  - unfold transformStep in H1. destruct (transformRefs _ _ _ _ _ _) as [[rs' h] t1| |]; inversion H1; subst. cbn. auto.
Qed.
Definition limit (s : glob * mstate) (w : nat) : Prop :=
  match snd s with
  | Running k kids => exists b ws, (forall e a, In e (p_entries P) -> p_abs P e = Some a -> bounded a b) /\
      Forall2 (weigh (fst s) (13 + b)) kids ws /\
      w = (2 * (list_sum ws + (length (p_entries P) - k) * (13 + b + 2)) + length (g_outputs (fst s)) + 2)%nat
  | Printing todo _ => w = (length todo + 1)%nat
  | _ => w = 0%nat
  end.
Lemma limit_step s s' w : calmS P s -> apart P s s' -> limit s w -> exists w', (w' < w)%nat /\ limit s' w'.
Proof.
  intros C A W. pose proof (calm_step_kept P _ _ C A) as (C' & K). destruct A as (n & path & H & Q). unfold limit in *.
  destruct s as [g m], s' as [g' m']; cbn [fst snd] in *. destruct m as [k kids|todo out|out|]; cbn [stepM] in H; try (destruct path; discriminate).
  - destruct C as [C|C]; [|discriminate]. destruct C as (Bk & Fs & L1 & L2). cbn [fst snd] in *. destruct W as (b & ws & W1 & W2 & ->). destruct path as [|j path].
    + destruct (k <? length (p_entries P))%nat eqn:E.
      * inversion H; subst. apply Nat.ltb_lt in E. eexists. split; [|exists b, (ws ++ [S (13 + b)]); split; [auto|split; [|reflexivity]]].
        -- rewrite sum_app. cbn [list_sum fold_right]. replace (length (p_entries P) - k)%nat with (S (length (p_entries P) - S k)) by lia. cbn [Nat.mul]. lia.
        -- apply Forall2_app; auto. constructor; constructor.
      * destruct (forallb isDone kids) eqn:E1; [|discriminate]. inversion H; subst. exists (length (g_outputs g') + 1)%nat. split; [generalize ((length (p_entries P) - k) * (13 + b + 2))%nat; lia|auto].
    + destruct (nth_error kids j) as [kid|] eqn:Ek; [|discriminate].
      assert (Up : forall kid' v', weigh g' (13 + b) kid' v' -> (forall v, weigh g (13 + b) kid v -> (v' < v)%nat) -> (length (g_outputs g') <= S (length (g_outputs g)))%nat ->
        exists w', (w' < 2 * (list_sum ws + (length (p_entries P) - k) * (13 + b + 2)) + length (g_outputs g) + 2)%nat /\
          exists b0 ws0, (forall e a, In e (p_entries P) -> p_abs P e = Some a -> bounded a b0) /\ Forall2 (weigh g' (13 + b0)) (upd j kid' kids) ws0 /\
            w' = (2 * (list_sum ws0 + (length (p_entries P) - k) * (13 + b0 + 2)) + length (g_outputs g') + 2)%nat).
      { intros kid' v' V' Lv Lo. destruct (upd_weigh g g' (13 + b) j kids kid kid' ws K Ek W2) as (v & V1 & V2). destruct (V2 v' (Lv v V1) V') as (ws' & X1 & X2).
        eexists. split; [|exists b, ws'; split; [auto|split; [auto|reflexivity]]]. lia. }
      assert (Kk : match stepG P n path g kid with
        | Some (Go g' kid') => Some (g', Running k (upd j kid' kids))
        | Some Crash => Some (g, Crashed)
        | None => None
        end = Some (g', m') -> exists w', (w' < 2 * (list_sum ws + (length (p_entries P) - k) * (13 + b + 2)) + length (g_outputs g) + 2)%nat /\
          limit (g', m') w').
      { intros E. destruct (stepG P n path g kid) as [[g1 kid'|]|] eqn:E1; try discriminate; inversion E; subst; [|exists 0%nat; split; [generalize ((length (p_entries P) - k) * (13 + b + 2))%nat; lia|reflexivity]].
        destruct (upd_weigh g g' (13 + b) j kids kid kid' ws K Ek W2) as (v & V1 & V2).
        destruct (upd_split j kid' kids kid Ek) as (a & d & Ea & Eb & _). cbn [mAdders] in *.
        destruct (stepG_weigh n path g kid g' kid' (flat_map adders a) (flat_map adders d) (13 + b)%nat v E1) as (v' & L & V').
        - rewrite <- flat_app, <- Ea. auto.
        - apply Forall_forall with (x := kid) in Fs; auto. eapply nth_error_In; eauto.
        - intros X. rewrite <- flat_app, <- Ea. apply Q. destruct X as (file & out & X). exists file, out. cbn. rewrite Ek. auto.
        - auto.
        - destruct (V2 v' L V') as (ws' & X1 & X2). pose proof (gstep_outputs _ _ _ _ (stepG_gstep _ _ _ _ _ _ _ E1)) as Lo.
          eexists. split; [|exists b, ws'; split; [auto|split; [exact X1|reflexivity]]]. cbn [fst]. lia. }
      destruct kid; try exact (Kk H).
      * destruct (current k (p_entries P)) as [e|] eqn:Ec; [|exact (Kk H)]. inversion H; subst. apply Up with (v' := (13 + b)%nat); auto.
        -- constructor. cbn. exists b. split; auto. intros a Ha. eapply W1; eauto. eapply current_in; eauto.
        -- intros v Hv. inversion Hv; subst. lia.
      * inversion H; subst. apply Up with (v' := 0%nat); auto; [constructor|]. intros v Hv. inversion Hv; subst. lia.
  - subst w. destruct todo as [|i0 todo].
    + destruct path; [|discriminate]. inversion H; subst. exists 0%nat. split; [cbn; lia|auto].
    + destruct path as [|j [|]]; try discriminate. destruct (nth_error (i0 :: todo) j) as [idx|] eqn:E; [|discriminate].
      destruct (printOne g idx out) as [g1 out1] eqn:E1. inversion H; subst. eexists. split; [|reflexivity].
      destruct (removeAt_split _ _ _ E) as (a & d & Ea & Eb). rewrite Eb, Ea, !app_length. cbn. lia.
Qed.
Lemma entries_bound entries : (forall e a, In e entries -> p_abs P e = Some a -> exists b, bounded a b) ->
  exists b, forall e a, In e entries -> p_abs P e = Some a -> bounded a b.
Proof.
  induction entries as [|e entries IH]; intros H; [exists 0%nat; intros ? ? []|].
  destruct IH as (b & Hb); [intros e' a I; apply H; right; auto|].
  destruct (p_abs P e) as [a|] eqn:E.
  - destruct (H e a) as (b2 & Hb2); [left; auto|auto|]. exists (max b b2). intros e' a' [->|I] Ha.
    + rewrite E in Ha. inversion Ha; subst. eapply bounded_le; [|eauto]. lia.
    + eapply bounded_le; [|eauto]. lia.
  - exists b. intros e' a' [->|I] Ha; [congruence|eauto].
Qed.
Lemma limit_runs k s s' : runsApart P k s s' -> forall w, calmS P s -> limit s w -> (k <= w)%nat.
Proof.
  induction 1 as [|k s s1 s' A R IH]; intros w C W; [lia|]. destruct (limit_step _ _ _ C A W) as (w' & L & W').
  specialize (IH w' (calm_step P _ _ C A) W'). lia.
Qed.
Lemma C34_bound : (forall f, involved P f -> grounded P f) -> exists N, forall k s, runsApart P k start s -> (k <= N)%nat.
Proof.
  intros Gr. destruct (entries_bound (p_entries P)) as (b & Hb).
  { intros e a I Ha. assert (Iv : involved P a) by (exists e, a; auto). apply all_bounded; auto. }
  eexists. intros k s R. eapply limit_runs; [exact R|apply calm_reach; constructor|]. exists b, []. split; [auto|split; [constructor|reflexivity]].
Qed.
End WithProject.
