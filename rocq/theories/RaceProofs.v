(** When the goroutines of Compile race: C55. *)
From Verif Require Import Bytes Utf8 Source Lexer Ast BytesFacts Parser ParseRerun Printer Transformer Resolver Compile CompileSpec CompileSteps CompileRefs CompileEnd RaceSpec.

Section WithProject.
Context {U : UnicodeDigits} {FO : FloatOps}.
Variable P : project.

(** * Without loops of two rounds one goroutine runs at a time *)
Inductive seq : gor -> Prop :=
| sqFresh : seq Fresh
| sqFrame f : seq (InFrame f)
| sqLoop i s rs imps k repl kids : (length imps <= 1)%nat -> length kids = k -> (k <= length imps)%nat -> Forall seq kids -> seq (InLoop i s rs imps k repl kids)
| sqBack r : seq (Back r)
| sqDone : seq Done.
Definition seqM (m : mstate) : Prop :=
  match m with
  | Running k kids => length kids = k /\ (k <= length (p_entries P))%nat /\ Forall seq kids
  | _ => True
  end.
Hypothesis E1 : (length (p_entries P) <= 1)%nat.
Definition someTwo : Prop := exists f, involved P f /\ importsTwo P f.

Lemma done_acc at_ path t : isDone t = true -> gorAccesses P at_ path t = [].
Proof. destruct t; try discriminate. destruct path; reflexivity. Qed.
Lemma one_kid (kids : list gor) j : (length kids <= 1)%nat -> nth_error kids j <> None -> j = 0%nat.
Proof. intros L N. apply nth_error_Some in N. lia. Qed.
Lemma gor_one p : forall at_ q t, seq t -> gorAccesses P at_ p t <> [] -> gorAccesses P at_ q t <> [] -> p = q.
Proof.
  assert (Top : forall at_ j q t, seq t -> gorAccesses P at_ [] t <> [] -> gorAccesses P at_ (j :: q) t <> [] -> False).
  { intros at_ j q t S A C. inversion S; subst; try (apply C; reflexivity). cbn [gorAccesses] in A, C.
    destruct (Nat.ltb_spec (length kids) (length imps)) as [L|L].
    - destruct kids as [|x kids]; [destruct j; apply C; reflexivity|]. cbn in *. lia.
    - destruct (forallb isDone kids) eqn:D; [|congruence]. destruct (nth_error kids j) as [kid|] eqn:N; [|congruence].
      rewrite forallb_forall in D. specialize (D kid (nth_error_In _ _ N)). destruct kid; try discriminate. apply C. apply done_acc; reflexivity. }
  induction p as [|j p IH]; intros at_ [|j' q] t S A C; auto.
  - destruct (Top at_ j' q t S A C).
  - destruct (Top at_ j p t S C A).
  - inversion S; subst; try (exfalso; apply A; reflexivity). cbn [gorAccesses] in A, C.
    assert (L : (length kids <= 1)%nat) by lia.
    assert (j = 0%nat) by (apply (one_kid kids); auto; intros N; rewrite N in A; congruence).
    assert (j' = 0%nat) by (apply (one_kid kids); auto; intros N; rewrite N in C; congruence). subst j j'.
    destruct (nth_error kids 0) as [kid|] eqn:N; [|congruence]. f_equal.
    assert (Sk : seq kid) by (match goal with F : Forall seq kids |- _ => rewrite Forall_forall in F; apply F; eapply nth_error_In; eauto end).
    destruct kid as [| | |[r|]|]; try congruence; try (eapply IH; eauto; fail); destruct p, q; congruence.
Qed.
Lemma main_one k kids p q : seqM (Running k kids) -> accesses P p (Running k kids) <> [] -> accesses P q (Running k kids) <> [] -> p = q.
Proof.
  intros S A C. destruct S as (L & K & F).
    assert (Top : forall j r, accesses P [] (Running k kids) <> [] -> accesses P (j :: r) (Running k kids) <> [] -> False).
    { cbn [accesses]. intros j r A' C'. destruct (Nat.ltb_spec k (length (p_entries P))) as [L1|L1].
      - destruct kids as [|x kids]; [destruct j; apply C'; reflexivity|]. cbn in *. lia.
      - destruct (forallb isDone kids) eqn:D; [|congruence]. destruct (nth_error kids j) as [kid|] eqn:N; [|congruence].
        rewrite forallb_forall in D. specialize (D kid (nth_error_In _ _ N)). destruct kid; try discriminate. apply C'. apply done_acc; reflexivity. }
    destruct p as [|j p], q as [|j' q]; auto; [destruct (Top _ _ A C)|destruct (Top _ _ C A)|]. clear Top. cbn [accesses] in A, C.
    assert (L' : (length kids <= 1)%nat) by lia.
    assert (j = 0%nat) by (apply (one_kid kids); auto; intros N; rewrite N in A; congruence).
    assert (j' = 0%nat) by (apply (one_kid kids); auto; intros N; rewrite N in C; congruence). subst j j'.
    destruct (nth_error kids 0) as [kid|] eqn:N; [|congruence]. f_equal.
    assert (Sk : seq kid) by (rewrite Forall_forall in F; apply F; eapply nth_error_In; eauto).
    destruct kid as [| | |r|]; try congruence; try (eapply gor_one; eauto; fail); destruct p, q; congruence.
Qed.
Lemma print_acc todo out p a : In a (accesses P p (Printing todo out)) -> a_write a = false \/ (a_var a = VReporter /\ a_lock a = Some theMu) \/ (a_var a = VFiles /\ a_lock a = Some resultMu).
Proof.
  unfold accesses. destruct p as [|j [|? ?]]; try (intros []; fail). destruct (j <? length todo)%nat; [|intros []]. cbn. intros [<-|[<-|[<-|[<-|[]]]]]; cbn; auto.
Qed.
Lemma print_reads todo out p a : In a (accesses P p (Printing todo out)) -> a_var a = VReporter -> a_lock a = Some theMu.
Proof. unfold accesses. destruct p as [|j [|? ?]]; try (intros []; fail). destruct (j <? length todo)%nat; [|intros []]. cbn. intros [<-|[<-|[<-|[<-|[]]]]]; cbn; congruence. Qed.
Lemma print_files todo out p a : In a (accesses P p (Printing todo out)) -> a_var a = VFiles -> a_lock a = Some resultMu.
Proof. unfold accesses. destruct p as [|j [|? ?]]; try (intros []; fail). destruct (j <? length todo)%nat; [|intros []]. cbn. intros [<-|[<-|[<-|[<-|[]]]]]; cbn; congruence. Qed.
Lemma seq_no_race m : seqM m -> ~ race P m.
Proof.
  intros S (p & q & a & b & N & A & C & V & W & K). destruct m as [k kids|todo out| |].
  - apply N. eapply main_one; eauto; [destruct (accesses P p _)|destruct (accesses P q _)]; try discriminate; contradiction.
  - apply K. assert (X : forall x y : access, a_var x = a_var y -> In x (accesses P p (Printing todo out)) \/ In x (accesses P q (Printing todo out)) ->
      In y (accesses P p (Printing todo out)) \/ In y (accesses P q (Printing todo out)) -> a_write x = true -> a_lock x = a_lock y /\ a_lock x <> None).
    { intros x y E Hx Hy Wx.
      assert (Zx : a_var x = VReporter -> a_lock x = Some theMu /\ a_lock y = Some theMu).
      { intros Ev. destruct Hx as [Hx|Hx], Hy as [Hy|Hy]; split; (eapply print_reads; [eassumption|congruence]). }
      assert (Zf : a_var x = VFiles -> a_lock x = Some resultMu /\ a_lock y = Some resultMu).
      { intros Ev. destruct Hx as [Hx|Hx], Hy as [Hy|Hy]; split; (eapply print_files; [eassumption|congruence]). }
      assert (T : a_write x = false \/ a_var x = VReporter \/ a_var x = VFiles) by (destruct Hx as [Hx|Hx]; apply print_acc in Hx; intuition congruence).
      destruct T as [T|[T|T]]; [congruence|destruct (Zx T) as [-> ->]|destruct (Zf T) as [-> ->]]; split; congruence. }
    destruct W as [W|W]; [apply X; auto|]. destruct (X b a) as [X1 X2]; auto. rewrite X1 in X2. auto.
  - destruct A.
  - destruct A.
Qed.

Lemma Forall_at (Q : gor -> Prop) a x b : Forall Q (a ++ x :: b) <-> Forall Q a /\ Q x /\ Forall Q b.
Proof. rewrite Forall_app. split; [intros [H1 H2]; inversion H2; auto|intros (H1 & H2 & H3); auto]. Qed.
Lemma frame_seq n g f g' t' : frameStep P n g f = Some (Go g' t') -> frameOk P g f -> seq t' \/ someTwo.
Proof.
  intros H K. destruct f; cbn [frameStep] in H;
    repeat match type of H with context [match ?x with _ => _ end] => destruct x eqn:? end; inversion H; subst; try (left; constructor; fail).
  - destruct K as (f & src & N & Pa & R & I). match goal with Q : nth_error _ _ = Some ?x, N : nth_error _ _ = Some src |- _ => rewrite Q in N; injection N as -> end.
    match goal with Q : parse _ _ _ = ParseOk ?ss ?l |- _ => destruct (Nat.le_gt_cases (length (ss_imports ss)) 1) as [L|L];
      [left; constructor; auto; cbn; lia|right; exists f; split; auto; exists (src_content src), (g_runs g), n, ss, l; auto] end.
Qed.
Lemma gstep_seq g t g' t' : gstep P g t g' t' -> gorOk P g t -> seq t -> seq t' \/ someTwo.
Proof.
  induction 1; intros K S; try (inversion S; subst; try rewrite app_length in *; cbn [length] in *).
  - eapply frame_seq; eauto. inversion K; auto.
  - left. constructor; auto; try (rewrite app_length; cbn); try lia. apply Forall_app. split; auto. repeat constructor.
  - unfold transformStep in *. repeat match goal with Q : context [match ?x with _ => _ end] |- _ => destruct x eqn:? end; try discriminate;
      match goal with Q : Some _ = Some _ |- _ => inversion Q; subst end; left; constructor.
  - left. constructor; auto; try (rewrite app_length; cbn); try lia. match goal with F : Forall seq _ |- _ => apply Forall_at in F as (F1 & _ & F2) end. apply Forall_at. repeat split; auto. constructor.
  - left. constructor; auto; try (rewrite app_length; cbn); try lia. match goal with F : Forall seq _ |- _ => apply Forall_at in F as (F1 & _ & F2) end. apply Forall_at. repeat split; auto. constructor.
  - left. constructor; auto; try (rewrite app_length; cbn); try lia. match goal with F : Forall seq _ |- _ => apply Forall_at in F as (F1 & _ & F2) end. apply Forall_at. repeat split; auto. constructor.
  - match goal with F : Forall seq _ |- _ => apply Forall_at in F as (F1 & F0 & F2) end.
    assert (X : seq kid' \/ someTwo).
    { apply IHgstep; auto. inversion K; subst. match goal with F : Forall (gorOk P g) _ |- _ => apply Forall_at in F as (_ & F3 & _) end. exact F3. }
    destruct X as [X|X]; [|right; exact X]. left. constructor; auto; try (rewrite app_length; cbn); try lia. apply Forall_at. auto.
Qed.
Lemma reach_seq s : reach P s -> seqM (snd s) \/ someTwo.
Proof.
  induction 1 as [|s s' R IH H]; [left; cbn; split; [auto|split; [lia|constructor]]|]. destruct IH as [IH|IH]; [|right; exact IH].
  pose proof (reach_ok P s R) as [_ K]. apply step_mstep in H. inversion H; subst; cbn [snd seqM] in *; auto; destruct IH as (I1 & I2 & I3); try rewrite app_length in *; cbn [length] in *.
  - left. split; [lia|split; [lia|]]. apply Forall_app. split; auto. repeat constructor.
  - left. split; [lia|split; [lia|]]. apply Forall_at in I3 as (F1 & _ & F2). apply Forall_at. repeat split; auto. constructor.
  - left. split; [lia|split; [lia|]]. apply Forall_at in I3 as (F1 & _ & F2). apply Forall_at. repeat split; auto. constructor.
  - apply Forall_at in I3 as (F1 & F0 & F2). destruct K as (_ & _ & K). apply Forall_at in K as (_ & K & _).
    match goal with G : gstep _ _ _ _ _ |- _ => destruct (gstep_seq _ _ _ _ G K F0) as [X|X] end; [|right; exact X].
    left. split; [lia|split; [lia|]]. apply Forall_at. auto.
Qed.
Lemma race_two s : reach P s -> race P (snd s) -> someTwo.
Proof. intros H K. destruct (reach_seq s H) as [X|X]; auto. destruct (seq_no_race (snd s) X K). Qed.
Lemma one_at_a_time g k kids p q : ~ someTwo -> reach P (g, Running k kids) -> accesses P p (Running k kids) <> [] -> accesses P q (Running k kids) <> [] -> p = q.
Proof. intros N H. destruct (reach_seq _ H) as [X|X]; [|contradiction]. apply main_one. exact X. Qed.
End WithProject.

(** * With one they race *)
Section Drive.
Context {U : UnicodeDigits} {FO : FloatOps}.
Variable P : project.
Lemma loop_conflict at_ l : conflict (writes (VLoop at_) None) (reads (VLoop at_) l).
Proof. split; [reflexivity|]. split; [left; reflexivity|]. cbn. intros [_ H]. congruence. Qed.
Lemma entries_race : (2 <= length (p_entries P))%nat -> exists s, reach P s /\ raceOn P (VLoop []) (snd s).
Proof.
  intros L. exists (g0, Running 1 [Fresh]). split.
  - eapply reachStep; [constructor|]. exists 0%nat, []. cbn. destruct (p_entries P) as [|x [|y es]]; cbn in *; try lia. reflexivity.
  - exists [], [0%nat], (writes (VLoop []) None), (reads (VLoop []) None). split; [discriminate|]. cbn [snd accesses nth_error].
    destruct (Nat.ltb_spec 1 (length (p_entries P))); [|lia]. split; [left; reflexivity|]. split; [left; reflexivity|]. split; [apply loop_conflict|reflexivity].
Qed.

(** Several entries: the map outputsByIndex and the counter nextIndex. *)
Lemma all_fresh k : (k <= length (p_entries P))%nat -> reach P (g0, Running k (repeat Fresh k)).
Proof.
  induction k as [|k IH]; intros L; [constructor|]. eapply reachStep; [apply IH; lia|]. exists 0%nat, []. cbn [stepM].
  destruct (Nat.ltb_spec k (length (p_entries P))); [|lia]. change (repeat Fresh (S k)) with (Fresh :: repeat Fresh k). rewrite repeat_cons. reflexivity.
Qed.
Lemma first_step n g k f kids g' t' : frameStep P n g f = Some (Go g' t') -> reach P (g, Running k (InFrame f :: kids)) -> reach P (g', Running k (t' :: kids)).
Proof. intros H R. eapply reachStep; [exact R|]. exists n, [0%nat]. cbn [stepM nth_error stepG]. rewrite H. destruct (current k (p_entries P)); reflexivity. Qed.
Lemma second_step n g k t f kids g' t' : frameStep P n g f = Some (Go g' t') -> reach P (g, Running k (t :: InFrame f :: kids)) -> reach P (g', Running k (t :: t' :: kids)).
Proof. intros H R. eapply reachStep; [exact R|]. exists n, [1%nat]. cbn [stepM nth_error stepG]. rewrite H. destruct (current k (p_entries P)); reflexivity. Qed.
Lemma both_called i e : (1 <= i)%nat -> nth_error (p_entries P) i = Some e -> exists kids,
  reach P (g0, Running (S i) (InFrame (Called e true) :: InFrame (Called e true) :: kids)).
Proof.
  intros L N. assert (B : (S i <= length (p_entries P))%nat) by (apply nth_error_Some; congruence). pose proof (all_fresh (S i) B) as R.
  destruct i as [|i]; [lia|]. exists (repeat Fresh i). cbn [repeat] in R.
  assert (Cu : current (S (S i)) (p_entries P) = Some e) by exact N.
  eapply reachStep; [eapply reachStep; [exact R|]|].
  - exists 0%nat, [0%nat]. cbn [stepM]. rewrite Cu. reflexivity.
  - exists 0%nat, [1%nat]. cbn [stepM upd]. rewrite Cu. reflexivity.
Qed.
Lemma outputs_race i e f : (1 <= i)%nat -> nth_error (p_entries P) i = Some e -> p_abs P e = Some f -> p_read P f <> None ->
  exists s, reach P s /\ raceOn P VOutputs (snd s).
Proof.
  intros L N A Rd. destruct (p_read P f) as [content|] eqn:Er; [|congruence]. destruct (both_called i e L N) as (kids & R).
  eapply (first_step 0) in R; [|cbn [frameStep]; rewrite A; cbn [g0 g_sources lookup]; reflexivity].
  eapply (first_step 0) in R; [|cbn [frameStep]; rewrite Er; reflexivity].
  do 4 (eapply (first_step 0) in R; [|cbn [frameStep]; reflexivity]).
  eapply (second_step 0) in R; [|cbn [frameStep]; rewrite A; cbn [g0 g_sources lookup]; rewrite beq_refl; reflexivity].
  eexists. split; [exact R|]. exists [0%nat], [1%nat], (writes VOutputs None), (writes VOutputs None). split; [discriminate|]. cbn [snd accesses nth_error gorAccesses frameAccesses].
  split; [left; reflexivity|]. split; [left; reflexivity|]. split; [|reflexivity]. split; [reflexivity|]. split; [left; reflexivity|]. intros [_ X]. apply X. reflexivity.
Qed.
Lemma next_race i e f : (1 <= i)%nat -> nth_error (p_entries P) i = Some e -> p_abs P e = Some f -> p_read P f <> None ->
  exists s, reach P s /\ raceOn P VNext (snd s).
Proof.
  intros L N A Rd. destruct (p_read P f) as [content|] eqn:Er; [|congruence]. destruct (both_called i e L N) as (kids & R).
  eapply (first_step 0) in R; [|cbn [frameStep]; rewrite A; cbn [g0 g_sources lookup]; reflexivity].
  eapply (second_step 0) in R; [|cbn [frameStep]; rewrite A; cbn [g0 g_sources lookup]; reflexivity].
  eapply (first_step 0) in R; [|cbn [frameStep]; rewrite Er; reflexivity].
  eapply (second_step 0) in R; [|cbn [frameStep]; rewrite Er; reflexivity].
  do 3 (eapply (first_step 0) in R; [|cbn [frameStep]; reflexivity]).
  eexists. split; [exact R|]. exists [0%nat], [1%nat], (writes VNext None), (reads VNext (Some sourcesMu)). split; [discriminate|]. cbn [snd accesses nth_error gorAccesses frameAccesses].
  split; [left; reflexivity|]. split; [left; reflexivity|]. split; [|reflexivity]. split; [reflexivity|]. split; [left; reflexivity|]. intros [X _]. discriminate X.
Qed.

(** Calls of parseFile below each other, each in a loop over one @import. *)
Record ctx := mkCtx { c_i : nat; c_s : sref; c_rs : list nref; c_imp : bytes * ptr }.
Fixpoint wrap (c : list ctx) (t : gor) : gor :=
  match c with
  | [] => t
  | x :: c' => InLoop (c_i x) (c_s x) (c_rs x) [c_imp x] 1 [] [wrap c' t]
  end.
Definition special (t : gor) : bool := match t with Fresh | Back _ => true | _ => false end.
Lemma wrap_special c t : special t = false -> special (wrap c t) = false.
Proof. destruct c; auto. Qed.
Lemma wrap_app c x t : wrap (c ++ [x]) t = wrap c (InLoop (c_i x) (c_s x) (c_rs x) [c_imp x] 1 [] [t]).
Proof. induction c as [|y c IH]; [reflexivity|]. cbn [app wrap]. rewrite IH. reflexivity. Qed.
Lemma stepG_wrap n c : forall path g t g' t', special t = false -> stepG P n path g t = Some (Go g' t') ->
  stepG P n (repeat 0%nat (length c) ++ path) g (wrap c t) = Some (Go g' (wrap c t')).
Proof.
  induction c as [|x c IH]; intros path g t g' t' S H; [exact H|]. cbn [length repeat app wrap stepG nth_error].
  pose proof (wrap_special c t S) as W. rewrite (IH path g t g' t' S H). cbn [current nth_error]. destruct (c_imp x) as [spec at_].
  destruct (wrap c t); try discriminate; reflexivity.
Qed.
Lemma step_wrap n c path g t g' t' : special t = false -> stepG P n path g t = Some (Go g' t') ->
  reach P (g, Running 1 [wrap c t]) -> reach P (g', Running 1 [wrap c t']).
Proof.
  intros S H R. eapply reachStep; [exact R|]. exists n, (0%nat :: repeat 0%nat (length c) ++ path). cbn [stepM nth_error].
  pose proof (wrap_special c t S) as W. rewrite (stepG_wrap n c path g t g' t' S H). destruct (current 1 (p_entries P)); destruct (wrap c t); try discriminate; reflexivity.
Qed.
(** What the files are on the way down. *)
Record down (g : glob) : Prop := {
  dn_asts : g_asts g = [];
  dn_src : forall f i, lookup f (g_sources g) = Some i -> (i < g_next g)%nat /\ exists s src,
    ilookup i (g_byIndex g) = Some s /\ nth_error (g_srcs g) s = Some src /\ src_path src = f /\ p_read P f = Some (src_content src) }.
Lemma frame_wrap n c g f g' t' : frameStep P n g f = Some (Go g' t') -> reach P (g, Running 1 [wrap c (InFrame f)]) -> reach P (g', Running 1 [wrap c t']).
Proof. intros H. apply (step_wrap n c []); [reflexivity|exact H]. Qed.

Lemma descend g c rel out f content run n ss lines : down g -> reach P (g, Running 1 [wrap c (InFrame (Called rel out))]) ->
  p_abs P rel = Some f -> p_read P f = Some content -> parse run n content = ParseOk ss lines ->
  exists g' i s src imps, down g' /\ reach P (g', Running 1 [wrap c (InLoop i s (map fst (alloc (g_runs g) 0 (ss_nodes (sheetOfRun (g_runs g) ss)))) imps 0 [] [])]) /\
    nth_error (g_srcs g') s = Some src /\ src_path src = f /\ map fst imps = map fst (ss_imports ss).
Proof.
  intros D R A Rd Hp.
  (* up to an index *)
  assert (X : exists g1 i s src, down g1 /\ g_runs g1 = g_runs g /\ reach P (g1, Running 1 [wrap c (InFrame (HasIndex i out))]) /\ ilookup i (g_byIndex g1) = Some s /\
      nth_error (g_srcs g1) s = Some src /\ src_path src = f /\ src_content src = content).
  { destruct (lookup f (g_sources g)) as [i|] eqn:L.
    - destruct (dn_src g D f i L) as (_ & s & src & B1 & B2 & B3 & B4). exists g, i, s, src. split; [exact D|]. split; [reflexivity|]. split; [|split; [auto|split; [auto|split; [auto|congruence]]]].
      eapply (frame_wrap 0); [|exact R]. cbn [frameStep]. rewrite A, L. reflexivity.
    - assert (R1 : reach P (g, Running 1 [wrap c (InFrame (Missed rel f out))])).
      { eapply (frame_wrap 0); [|exact R]. cbn [frameStep]. rewrite A, L. reflexivity. }
      assert (R2 : reach P (g, Running 1 [wrap c (InFrame (ReadIn f content out))])).
      { eapply (frame_wrap 0); [|exact R1]. cbn [frameStep]. rewrite Rd. reflexivity. }
      eapply (frame_wrap 0) in R2; [|cbn [frameStep]; reflexivity].
      eapply (frame_wrap 0) in R2; [|cbn [frameStep]; reflexivity].
      eapply (frame_wrap 0) in R2; [|cbn [frameStep]; reflexivity].
      eapply (frame_wrap 0) in R2; [|cbn [frameStep]; reflexivity]. cbn [g_sources g_next g_byIndex g_asts g_outputs g_errors g_srcs g_heap g_runs] in R2.
      eexists _, (g_next g), (length (g_srcs g)), (mkSource f content []). split; [|split; [|split; [exact R2|]]]; cbn [g_sources g_next g_byIndex g_asts g_outputs g_errors g_srcs g_heap g_runs]; auto.
      + constructor; cbn [g_sources g_next g_byIndex g_asts g_srcs]; [apply D|]. intros f' i'. cbn [lookup]. destruct (beq f' f) eqn:Ef.
        * intros E. injection E as <-. apply beq_eq in Ef. subst f'. split; [lia|]. exists (length (g_srcs g)), (mkSource f content []). cbn [ilookup]. rewrite Nat.eqb_refl.
          split; auto. rewrite nth_error_app2, Nat.sub_diag by lia. split; [reflexivity|]. split; [reflexivity|exact Rd].
        * intros E. destruct (dn_src g D f' i' E) as (L1 & s & src & B1 & B2 & B3 & B4). split; [lia|]. exists s, src. cbn [ilookup]. destruct (Nat.eqb_spec i' (g_next g)); [lia|].
          split; auto. split; auto. rewrite nth_error_app1; auto. apply nth_error_Some. congruence.
      + cbn [ilookup]. rewrite Nat.eqb_refl. split; auto. rewrite nth_error_app2, Nat.sub_diag by lia. auto. }
  destruct X as (g1 & i & s & src & D1 & Rn & R1 & B1 & B2 & B3 & B4). rewrite <- Rn.
  eapply (frame_wrap 0) in R1; [|cbn [frameStep]; reflexivity].
  set (g2 := if out then _ else _) in R1.
  assert (Q : g_asts g2 = [] /\ g_byIndex g2 = g_byIndex g1 /\ g_srcs g2 = g_srcs g1 /\ g_sources g2 = g_sources g1 /\ g_next g2 = g_next g1 /\ g_runs g2 = g_runs g1).
  { subst g2. destruct out; cbn; repeat split; auto; apply D1. }
  destruct Q as (Q1 & Q2 & Q3 & Q4 & Q5 & Q6). clearbody g2.
  eapply (frame_wrap 0) in R1; [|cbn [frameStep]; rewrite Q1; reflexivity].
  eapply (frame_wrap 0) in R1; [|cbn [frameStep]; rewrite Q2, B1; reflexivity].
  assert (Hp' : parse (g_runs g2) n (src_content src) = ParseOk (sheetOfRun (g_runs g2) ss) lines).
  { rewrite B4. rewrite (C12_rerun_lemma run (g_runs g2)), Hp. reflexivity. }
  eapply (frame_wrap n) in R1; [|cbn [frameStep]; rewrite Q3, B2, Hp'; reflexivity].
  cbn [g_sources g_next g_byIndex g_asts g_outputs g_errors g_srcs g_heap g_runs] in R1. rewrite Q6 in R1.
  eexists _, i, s, (mkSource (src_path src) (src_content src) (src_lines src ++ lines)), (ss_imports (sheetOfRun (g_runs g1) ss)). split; [|split; [exact R1|]].
  - constructor; cbn [g_sources g_next g_byIndex g_asts g_srcs]; [exact Q1|]. rewrite Q4, Q5, Q2. intros f' i' E.
    destruct (dn_src g1 D1 f' i' E) as (L1 & s' & src' & C1 & C2 & C3 & C4). split; auto. exists s'. rewrite nth_upd. destruct (Nat.eqb_spec s' s) as [->|Ns].
    + rewrite ?Q3, C2. cbn. eexists. split; [exact C1|]. split; [reflexivity|]. cbn. assert (src' = src) by congruence. subst. auto.
    + rewrite ?Q3. exists src'. auto.
  - cbn [g_srcs]. rewrite nth_upd, Nat.eqb_refl, ?Q3, B2. cbn. split; [reflexivity|]. split; auto. unfold sheetOfRun. cbn [ss_imports]. rewrite map_map. reflexivity.
Qed.
Lemma wrap_access at_ c t : special t = false -> gorAccesses P at_ (repeat 0%nat (length c)) (wrap c t) = gorAccesses P (at_ ++ repeat 0%nat (length c)) [] t.
Proof.
  revert at_. induction c as [|x c IH]; intros at_ S; [rewrite app_nil_r; reflexivity|]. cbn [length repeat wrap gorAccesses nth_error].
  pose proof (wrap_special c t S) as W. specialize (IH (at_ ++ [0%nat]) S). rewrite <- app_assoc in IH. cbn [app] in IH.
  destruct (wrap c t); try discriminate; exact IH.
Qed.
Lemma imports_race g c i s rs imps : (2 <= length imps)%nat -> reach P (g, Running 1 [wrap c (InLoop i s rs imps 0 [] [])]) ->
  exists s' v, reach P s' /\ raceOn P (VLoop v) (snd s').
Proof.
  intros L R. set (p := repeat 0%nat (length c)).
  assert (R1 : reach P (g, Running 1 [wrap c (InLoop i s rs imps 1 [] [Fresh])])).
  { eapply (step_wrap 0 c []); [| |exact R]; [reflexivity|]. cbn [stepG]. destruct (Nat.ltb_spec 0 (length imps)); [reflexivity|lia]. }
  exists (g, Running 1 [wrap c (InLoop i s rs imps 1 [] [Fresh])]), (0%nat :: p). split; [exact R1|].
  exists (0%nat :: p), (0%nat :: p ++ [0%nat]), (writes (VLoop (0%nat :: p)) None), (reads (VLoop (0%nat :: p)) None).
  split; [intros E; apply (f_equal (@length nat)) in E; cbn in E; rewrite app_length in E; cbn in E; lia|]. cbn [snd accesses nth_error].
  pose proof (wrap_special c (InLoop i s rs imps 1 [] [Fresh]) eq_refl) as W.
  assert (A : gorAccesses P [0%nat] p (wrap c (InLoop i s rs imps 1 [] [Fresh])) = [writes (VLoop (0%nat :: p)) None]).
  { unfold p. rewrite wrap_access by reflexivity. cbn [gorAccesses]. destruct (Nat.ltb_spec 1 (length imps)); [reflexivity|lia]. }
  assert (C : gorAccesses P [0%nat] (p ++ [0%nat]) (wrap c (InLoop i s rs imps 1 [] [Fresh])) = [reads (VLoop (0%nat :: p)) None; reportsLocked]).
  { assert (G : forall at_, gorAccesses P at_ (p ++ [0%nat]) (wrap c (InLoop i s rs imps 1 [] [Fresh])) = [reads (VLoop (at_ ++ p)) None; reportsLocked]).
    { unfold p. clear. induction c as [|x c IH]; intros at_; [cbn; rewrite app_nil_r; reflexivity|]. cbn [length repeat wrap app gorAccesses nth_error].
      pose proof (wrap_special c (InLoop i s rs imps 1 [] [Fresh]) eq_refl) as W. specialize (IH (at_ ++ [0%nat])). rewrite <- app_assoc in IH. cbn [app] in IH.
      destruct (wrap c (InLoop i s rs imps 1 [] [Fresh])); try discriminate; exact IH. }
    apply G. }
  clearbody p. revert W A C. generalize (wrap c (InLoop i s rs imps 1 [] [Fresh])). intros t W A C.
  assert (A' : In (writes (VLoop (0%nat :: p)) None) (gorAccesses P [0%nat] p t)) by (rewrite A; left; reflexivity).
  assert (C' : In (reads (VLoop (0%nat :: p)) None) (gorAccesses P [0%nat] (p ++ [0%nat]) t)) by (rewrite C; left; reflexivity).
  split; [|split; [|split; [apply loop_conflict|reflexivity]]]; destruct t; try discriminate; assumption.
Qed.
Definition racy : Prop := exists s, reach P s /\ race P (snd s).
Lemma raceOn_race v m : raceOn P v m -> race P m.
Proof. intros (p & q & a & b & N & A & C & K & _). exists p, q, a, b. auto. Qed.
Definition calledAt (f : bytes) : Prop := exists g c rel out, down g /\ p_abs P rel = Some f /\ reach P (g, Running 1 [wrap c (InFrame (Called rel out))]).
Lemma called_edge f h : calledAt f -> edge P f h -> racy \/ calledAt h.
Proof.
  intros (g & c & rel & out & D & A & R) (spec & rel' & (content & run & n & ss & lines & Rd & Hp & I) & Rs & A').
  destruct (descend g c rel out f content run n ss lines D R A Rd Hp) as (g' & i & s & src & imps & D' & R' & N & Pa & M).
  destruct (Nat.le_gt_cases 2 (length imps)) as [L|L].
  - left. destruct (imports_race _ _ _ _ _ _ L R') as (s' & v & Q1 & Q2). exists s'. split; auto. eapply raceOn_race; eauto.
  - right. rewrite <- M in I. destruct imps as [|[spec1 at1] [|? ?]]; [destruct I| |cbn in L; lia]. cbn in I. destruct I as [->|[]].
    eapply (step_wrap 0 c []) in R'; [|reflexivity|cbn [stepG length Nat.ltb Nat.leb]; reflexivity]. cbn [app] in R'.
    eapply (step_wrap 0 c [0%nat]) in R'; [|reflexivity|]; cycle 1.
    { cbn [stepG nth_error current]. rewrite N, Pa, Rs. cbn [upd]. reflexivity. }
    exists g', (c ++ [mkCtx i s (map fst (alloc (g_runs g) 0 (ss_nodes (sheetOfRun (g_runs g) ss)))) (spec, at1)]), rel', (follow P). split; auto. split; auto.
    rewrite wrap_app. exact R'.
Qed.
Lemma leads_called a : calledAt a -> forall f, leads P a f -> racy \/ calledAt f.
Proof. intros C f L. induction L as [h E|h k L IH E]; [eapply called_edge; eauto|]. destruct IH as [IH|IH]; auto. eapply called_edge; eauto. Qed.
Lemma called_two f : calledAt f -> importsTwo P f -> racy.
Proof.
  intros (g & c & rel & out & D & A & R) (content & run & n & ss & lines & Rd & Hp & L).
  destruct (descend g c rel out f content run n ss lines D R A Rd Hp) as (g' & i & s & src & imps & D' & R' & N & Pa & M).
  assert (L' : (2 <= length imps)%nat) by (apply (f_equal (@length bytes)) in M; rewrite !map_length in M; lia).
  destruct (imports_race _ _ _ _ _ _ L' R') as (s' & v & Q1 & Q2). exists s'. split; auto. eapply raceOn_race; eauto.
Qed.
Lemma involved_race e f : p_entries P = [e] -> involved P f -> importsTwo P f -> racy.
Proof.
  intros E (e' & a & I & A & H) T. rewrite E in I. destruct I as [<-|[]].
  assert (C : calledAt a).
  { exists g0, [], e, true. split; [constructor; [reflexivity|discriminate]|]. split; auto. cbn [wrap].
    eapply reachStep; [eapply reachStep; [constructor|]|].
    - exists 0%nat, []. cbn [stepM start]. rewrite E. reflexivity.
    - exists 0%nat, [0%nat]. cbn [stepM app nth_error]. rewrite E. reflexivity. }
  destruct H as [->|H]; [eapply called_two; eauto|]. destruct (leads_called a C f H) as [X|X]; auto. eapply called_two; eauto.
Qed.
End Drive.
Section Both.
Context {U : UnicodeDigits} {FO : FloatOps}.
Lemma race_iff P : (exists s, reach P s /\ race P (snd s)) <-> (2 <= length (p_entries P))%nat \/ exists f, involved P f /\ importsTwo P f.
Proof.
  split.
  - intros (s & R & K). destruct (Nat.le_gt_cases 2 (length (p_entries P))) as [L|L]; auto. right. eapply race_two; eauto. lia.
  - intros [L|(f & I & T)].
    + destruct (entries_race P L) as (s & R & K). exists s. split; auto. eapply raceOn_race; eauto.
    + destruct (p_entries P) as [|e [|e' es]] eqn:E.
      * destruct I as (e & a & I & _). rewrite E in I. destruct I.
      * eapply involved_race; eauto.
      * assert (L : (2 <= length (p_entries P))%nat) by (rewrite E; cbn; lia).
        destruct (entries_race P L) as (s & R & K). exists s. split; auto. eapply raceOn_race; eauto.
Qed.
End Both.
