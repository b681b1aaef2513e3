(** Reports about variables: C58. *)
From Verif Require Import Bytes Utf8 Source Lexer Ast AstInd BytesFacts Transformer TransSpec TransProofs TransMedia TransVars TransOrder DiagSpec.

Section Says.
Context {FO : FloatOps}.
Variable o : topts.
(** All reports count if nothing is computed, those about variables otherwise. *)
Variable all : bool.
Hypothesis Ha : all = true -> o_calc o = false /\ o_ranges o = false.
Definition counts (r : report) : bool := all || aboutVars r.
Definition kept (t : tstate) : list report := filter counts (t_reports t).
Definition quiet {A} (m : TM A) : Prop := forall t a t', m t = TOk a t' -> kept t' = kept t.
Lemma q_ret A (a : A) : quiet (tret a).
Proof. intros t b t' H. apply tret_ok in H as [_ <-]. reflexivity. Qed.
Lemma q_bind A C (m : TM A) (k : A -> TM C) : quiet m -> (forall a, quiet (k a)) -> quiet (tbind m k).
Proof. intros Hm Hk t c t' H. apply tbind_ok in H as (a & t1 & H1 & H2). apply Hm in H1. apply Hk in H2. congruence. Qed.
Lemma q_crash A : quiet (@tcrash A). Proof. intros t a t' H. discriminate. Qed.
Lemma said r t : kept (mkT (t_vars t) (t_cmedia t) (t_reports t ++ [r])) = kept t ++ (if counts r then [r] else []).
Proof. unfold kept. cbn [t_reports]. rewrite filter_app. reflexivity. Qed.
Lemma q_report r : counts r = false -> quiet (treport r).
Proof. intros E t a t' H. injection H as <- <-. rewrite said, E, app_nil_r. reflexivity. Qed.
Lemma q_at w v msg : (forall sp, counts (mkReport w sp msg) = false) -> quiet (addErrorAt w v msg).
Proof. intros E. unfold addErrorAt. destruct (valueSpan v); [apply q_report; apply E|apply q_crash]. Qed.
Ltac quiet Hall :=
  repeat first
    [ apply q_ret | apply q_crash
    | apply q_report; unfold counts; rewrite Hall; reflexivity
    | apply q_at; intros ?; unfold counts; rewrite Hall; reflexivity
    | apply q_bind; [|intros ?]
    | match goal with |- quiet (match ?x with _ => _ end) => destruct x eqn:? end
    | assumption ].
Lemma math_msg l r op msg w sp : all = false -> doMath l r op = inr msg -> counts (mkReport w sp msg) = false.
Proof.
  intros Hall. unfold counts. rewrite Hall. unfold doMath. destruct (fparse l); [|intros H; injection H as <-; reflexivity]. destruct (fparse r); [|intros H; injection H as <-; reflexivity].
  destruct (beq op (B "+")); [discriminate|]. destruct (beq op (B "-")); [discriminate|]. destruct (beq op (B "*")); [discriminate|].
  destruct (beq op (B "/")); [destruct (fisZero f0); [|discriminate]|]; intros H; injection H as <-; reflexivity.
Qed.
Lemma q_combine l r op : all = false -> quiet (combine l r op).
Proof.
  intros Hall. unfold combine, mathResult. quiet Hall; apply q_at; intros ?; eapply math_msg; eauto.
Qed.
Lemma q_reduce v : all = false -> quiet (reduceSide v).
Proof. intros Hall. induction v using value_ind'; cbn [reduceSide]; quiet Hall. apply q_combine; auto. Qed.
Lemma q_eval l r op : all = false -> quiet (evaluateMathExpression l r op).
Proof. intros Hall. unfold evaluateMathExpression. quiet Hall; try (apply q_reduce; auto). apply q_combine; auto. Qed.
Lemma q_addTo v d : all = false -> quiet (addToValue v d).
Proof. intros Hall. unfold addToValue. quiet Hall. Qed.
Lemma q_range p psp prop l op r : quiet (transformRange o p psp prop l op r).
Proof.
  unfold transformRange. destruct (o_ranges o) eqn:Or; [|apply q_ret]. assert (Hall : all = false) by (destruct all; [destruct Ha; congruence|reflexivity]).
  cbn [negb]. quiet Hall; apply q_addTo; auto.
Qed.
Lemma q_mqparts ps : quiet (transformMqParts o ps).
Proof.
  induction ps as [|p r IH]; cbn [transformMqParts]; [apply q_ret|].
  apply q_bind; [|intros; apply q_bind; [exact IH|intros; apply q_ret]]. destruct p; [apply q_ret| |apply q_range].
  destruct (_ || _); [apply q_ret|]. intros t a t' H. destruct (t_cmedia t) eqn:Ec; [|inversion H; subst; auto].
  destruct (lookup prop l) as [[? ?]|]; inversion H; subst; auto.
Qed.
Lemma q_mqs qs : quiet (transformMqs o qs).
Proof.
  induction qs as [|[sp ps] r IH]; cbn [transformMqs]; [apply q_ret|]. apply q_bind; [apply q_mqparts|intros; apply q_bind; [exact IH|intros; apply q_ret]].
Qed.
Lemma q_collect ds : quiet (collectRoot ds).
Proof.
  induction ds as [|d r IH]; cbn [collectRoot]; [apply q_ret|].
  assert (K : quiet (r' <~ collectRoot r;; tret (d :: r'))) by (apply q_bind; [exact IH|intros; apply q_ret]).
  destruct d as [sp prop vals imp|]; [|exact K]. intros t a t' H. destruct (t_vars t); [|eapply K; eauto]. destruct (hasPrefix (B "--") prop); [|eapply K; eauto].
  apply IH in H. exact H.
Qed.
Lemma q_scan pr ds : quiet (scanRoot pr ds).
Proof.
  unfold scanRoot. destruct pr as [|[lsp sels]|]; try apply q_ret. destruct (existsb _ _); [|apply q_ret].
  destruct sels as [|[? [|p ?]] ?]; try apply q_ret; try apply q_crash. destruct (isRootPseudo p); [apply q_collect|apply q_ret].
Qed.

(** * Values *)
Definition envOf (m : list (bytes * list value)) : bytes -> option (list value) := fun x => lookup x m.
Lemma about_undefined w sp x : counts (mkReport w sp (undefinedMsg x)) = true.
Proof. unfold counts, aboutVars, undefinedMsg. cbn [rp_msg]. rewrite app_nil_r. rewrite (proj2 (hasPrefix_spec _ _)), orb_true_r by eauto. reflexivity. Qed.
Lemma about_noArg w sp : counts (mkReport w sp noArgMsg) = true. Proof. unfold counts. apply orb_true_r. Qed.
Lemma about_noName w sp : counts (mkReport w sp noNameMsg) = true. Proof. unfold counts. apply orb_true_r. Qed.
Lemma subst_says sp name args t m vs t' : t_vars t = Some m -> substVar sp name args t = TOk vs t' ->
  kept t' = kept t ++ complaint (envOf m) (VFunc sp name args).
Proof.
  intros V. unfold substVar. cbn [complaint]. destruct (beq name (B "var")); cbn [negb]; [|intros H; apply tret_ok in H as [_ <-]; rewrite app_nil_r; reflexivity].
  rewrite V. unfold envOf.
  assert (R : forall r, counts r = true -> (_ <~ treport r;; tret [VFunc sp name args]) t = TOk vs t' -> kept t' = kept t ++ [r]).
  { intros r E H. unfold tbind, treport, tret in H. injection H as <- <-. rewrite said, E. reflexivity. }
  destruct args as [|a0 rest]; [apply R; apply about_noArg|]. destruct a0; try (apply R; apply about_noName).
  destruct (lookup v m).
  - intros H. injection H as <- <-. rewrite app_nil_r. reflexivity.
  - destruct rest as [|a1 [|a2 rest]]; cbn [length Nat.ltb Nat.leb].
    + apply R. apply about_undefined.
    + apply R. apply about_undefined.
    + intros H. injection H as <- <-. rewrite app_nil_r. reflexivity.
Qed.
(** Only sums come from sums. *)
Definition flatV (v : value) : Prop := ~ isMathV v.
Definition gives {A} (m : TM A) (Q : A -> Prop) : Prop := forall t a t', m t = TOk a t' -> Q a.
Lemma v_ret A (a : A) (Q : A -> Prop) : Q a -> gives (tret a) Q.
Proof. intros H t b t' E. apply tret_ok in E as [<- _]. exact H. Qed.
Lemma v_bind A C (m : TM A) (k : A -> TM C) Q : (forall a, gives (k a) Q) -> gives (tbind m k) Q.
Proof. intros Hk t c t' H. apply tbind_ok in H as (a & t1 & _ & H2). eapply Hk. exact H2. Qed.
Lemma combine_flat l r op : gives (combine l r op) flatV.
Proof.
  assert (N : flatV VNil) by (intros (? & ? & ? & ? & H); discriminate). assert (X : forall n u, flatV (VDim zsp n u)) by (intros n u (? & ? & ? & ? & H); discriminate).
  unfold combine, mathResult. repeat first [apply v_ret; auto; fail | apply v_bind; intros ? | match goal with |- gives (match ?x with _ => _ end) _ => destruct x end].
Qed.
Lemma subst_flat sp name args t vs t' : valueOk (VFunc sp name args) -> varsOk t -> substVar sp name args t = TOk vs t' -> Forall flatV vs.
Proof.
  intros K V H. destruct (subst_total sp name args t K V) as (a & t1 & E & _ & _ & F). assert (a = vs) by congruence. subst a. apply F. apply not_math_func.
Qed.
Lemma value_flat n v t vs t' : valueOk v -> varsOk t -> flatV v -> transformValue o n v t = TOk vs t' -> Forall flatV vs.
Proof.
  intros K V N H. destruct n as [|n]; [discriminate|]. cbn [transformValue] in H. destruct v as [| | | | | |sp name args| | | |]; try (apply tret_ok in H as [<- _]; repeat constructor; exact N).
  apply tbind_ok in H as (new & t1 & H1 & H). apply subst_flat in H1; auto.
  destruct (negb (beq name (B "calc")) || negb (o_calc o)); [apply tret_ok in H as [<- _]; exact H1|].
  assert (R : forall (m : TM unit) t vs t', (_ <~ m;; tret new) t = TOk vs t' -> Forall flatV vs).
  { intros m t0 vs0 t0' E. apply tbind_ok in E as (? & ? & _ & E). apply tret_ok in E as [<- _]. exact H1. }
  destruct args as [|a0 [|? ?]]; try (eapply R; exact H). apply tbind_ok in H as (args' & t2 & _ & H).
  destruct args' as [|a [|? ?]]; try (eapply R; exact H). destruct a; try (apply tret_ok in H as [<- _]; exact H1).
  apply tbind_ok in H as (ls & t3 & _ & H). apply tbind_ok in H as (rs & t4 & _ & H).
  destruct ls as [|l1 [|? ?]]; try (eapply R; exact H). destruct rs as [|r1 [|? ?]]; try (eapply R; exact H).
  apply tbind_ok in H as (e & t5 & He & H). apply tret_ok in H as [<- _]. destruct (isNil e); [exact H1|]. repeat constructor.
  unfold evaluateMathExpression in He. apply tbind_ok in He as (? & ? & _ & He). apply tbind_ok in He as (? & ? & _ & He). eapply combine_flat. exact He.
Qed.
Lemma value_says n : forall v t m vs t', t_vars t = Some m -> varsOk t -> valueOk v -> transformValue o n v t = TOk vs t' ->
  kept t' = kept t ++ flat_map (complaint (envOf m)) (lookedAt (o_calc o) v).
Proof.
  induction n as [|n IH]; intros v t m vs t' V Vo Ok H; [discriminate|]. cbn [transformValue] in H.
  destruct v as [| | | | | |sp name args| | | |]; try (apply tret_ok in H as [_ <-]; cbn; rewrite app_nil_r; reflexivity).
  apply tbind_ok in H as (new & t1 & H1 & H). pose proof (subst_says _ _ _ _ _ _ _ V H1) as S1. apply keeps_subst in H1 as [V1 _].
  cbn [lookedAt flat_map]. rewrite app_assoc, <- S1.
  destruct (beq name (B "calc")) eqn:Nc; cbn [negb orb] in H; [|apply tret_ok in H as [_ <-]; rewrite andb_false_r; cbn; rewrite app_nil_r; reflexivity].
  destruct (o_calc o) eqn:Oc; cbn [negb orb andb] in *; [|apply tret_ok in H as [_ <-]; cbn; rewrite app_nil_r; reflexivity].
  assert (Hall : all = false) by (destruct all; [destruct Ha; congruence|reflexivity]).
  assert (V1' : t_vars t1 = Some m) by congruence. assert (Vo1 : varsOk t1) by (eapply varsOk_keep; eauto).
  assert (R : forall r t t', counts r = false -> (_ <~ treport r;; tret new) t = TOk vs t' -> kept t' = kept t).
  { intros r t0 t0' E X. apply tbind_ok in X as (? & ? & X & Y). apply tret_ok in Y as [_ <-]. eapply q_report; eauto. }
  assert (C0 : forall w sp, counts (mkReport w sp (B "expected single argument for calc()")) = false) by (intros; unfold counts; rewrite Hall; reflexivity).
  destruct args as [|a0 [|? ?]]; try (rewrite (R _ _ _ (C0 _ _) H), app_nil_r; reflexivity).
  2:{ rewrite (R _ _ _ (C0 _ _) H). destruct a0; rewrite app_nil_r; reflexivity. }
  cbn [valueOk] in Ok. destruct Ok as (_ & Ok & _).
  apply tbind_ok in H as (args' & t2 & H2 & H). pose proof (IH _ _ _ _ _ V1' Vo1 Ok H2) as S2. pose proof (keeps_value o _ _ _ _ _ H2) as [V2 _].
  assert (Vo2 : varsOk t2) by (eapply varsOk_keep; eauto). assert (V2' : t_vars t2 = Some m) by congruence.
  assert (W : forall w v msg t t', (forall sp, counts (mkReport w sp msg) = false) -> (_ <~ addErrorAt w v msg;; tret new) t = TOk vs t' -> kept t' = kept t).
  { intros w v msg t0 t0' E X. apply tbind_ok in X as (? & ? & X & Y). apply tret_ok in Y as [_ <-]. eapply q_at; eauto. }
  assert (NM : (exists msp op l r, a0 = VMath msp op l r) \/ flatV a0) by (unfold flatV, isMathV; destruct a0; try (right; intros (? & ? & ? & ? & X); discriminate); left; eauto).
  destruct NM as [(msp & op & l & r & ->)|NM].
  - destruct n as [|n']; [discriminate|]. cbn [transformValue] in H2. apply tret_ok in H2 as [<- <-].
    cbn [valueOk] in Ok. destruct Ok as (_ & _ & Okl & Okr).
    apply tbind_ok in H as (ls & t3 & H3 & H). apply tbind_ok in H as (rs & t4 & H4 & H).
    pose proof (IH _ _ _ _ _ V1' Vo1 Okl H3) as S3. pose proof (keeps_value o _ _ _ _ _ H3) as [V3 _].
    assert (V3' : t_vars t3 = Some m) by congruence. assert (Vo3 : varsOk t3) by (eapply varsOk_keep; [exact V3|exact Vo1]).
    pose proof (IH _ _ _ _ _ V3' Vo3 Okr H4) as S4. rewrite flat_map_app, app_assoc, <- S3, <- S4.
    destruct ls as [|l1 [|? ?]]; try (eapply W; [|exact H]; intros; unfold counts; rewrite Hall; reflexivity).
    destruct rs as [|r1 [|? ?]]; try (eapply W; [|exact H]; intros; unfold counts; rewrite Hall; reflexivity).
    apply tbind_ok in H as (e & t5 & He & H). apply tret_ok in H as [_ <-]. eapply q_eval; eauto.
  - replace (match a0 with VMath _ _ l r => lookedAt true l ++ lookedAt true r | _ => lookedAt true a0 end) with (lookedAt true a0)
      by (destruct a0; try reflexivity; exfalso; apply NM; repeat eexists).
    rewrite <- S2. pose proof (value_flat _ _ _ _ _ Ok Vo1 NM H2) as Fl.
    destruct args' as [|a [|? ?]]; try (eapply R; [apply C0|exact H]). apply Forall_inv in Fl.
    destruct a; try (apply tret_ok in H as [_ <-]; reflexivity). exfalso. apply Fl. repeat eexists.
Qed.
Lemma values_say n vs : forall t m ws t', t_vars t = Some m -> varsOk t -> Forall valueOk vs -> transformValues o n vs t = TOk ws t' ->
  kept t' = kept t ++ flat_map (complaint (envOf m)) (flat_map (lookedAt (o_calc o)) vs).
Proof.
  induction vs as [|v vs IH]; intros t m ws t' V Vo Ok H; cbn [transformValues] in H; [apply tret_ok in H as [_ <-]; cbn; rewrite app_nil_r; reflexivity|].
  inversion Ok; subst. apply tbind_ok in H as (a & t1 & H1' & H). apply tbind_ok in H as (b & t2 & H2' & H). apply tret_ok in H as [_ <-].
  pose proof (keeps_value o _ _ _ _ _ H1') as [V1 _]. cbn [flat_map]. rewrite flat_map_app, app_assoc, <- (value_says _ _ _ _ _ _ V Vo H2 H1').
  eapply IH; eauto; [congruence|]. eapply varsOk_keep; eauto.
Qed.
Lemma decls_say n ds : forall t m ws t', t_vars t = Some m -> varsOk t -> Forall declOk ds -> transformDecls o n ds t = TOk ws t' ->
  kept t' = kept t ++ flat_map (declComplaints (o_calc o) (envOf m)) ds.
Proof.
  induction ds as [|d ds IH]; intros t m ws t' V Vo Ok H; cbn [transformDecls] in H; [apply tret_ok in H as [_ <-]; cbn; rewrite app_nil_r; reflexivity|].
  inversion Ok as [|? ? Od Ods]; subst. apply tbind_ok in H as (a & t1 & H1' & H). apply tbind_ok in H as (b & t2 & H2' & H). apply tret_ok in H as [_ <-].
  cbn [flat_map]. rewrite app_assoc. assert (X : kept t1 = kept t ++ declComplaints (o_calc o) (envOf m) d /\ t_vars t1 = t_vars t).
  { destruct d as [sp prop vs imp|]; [|apply tret_ok in H1' as [_ <-]; cbn; rewrite app_nil_r; auto].
    apply tbind_ok in H1' as (ws' & t3 & H3 & H1'). apply tret_ok in H1' as [_ <-]. split; [|eapply keeps_values; eauto].
    eapply values_say; eauto. cbn [declOk] in Od. eapply Forall_impl; [|exact Od]. intros v [K _]. exact K. }
  destruct X as [X Vt]. rewrite <- X. eapply IH; eauto; [congruence|]. eapply varsOk_keep; eauto.
Qed.

(** * Nodes *)
Definition replOf (repl : option (list (ptr * list node))) : ptr -> option (list node) := fun p => match repl with Some m => plookup p m | None => None end.
Definition defsOf (ns : list node) : list (bytes * list value) := rev (flat_map varDefs ns).
Lemma defs_env ns x : envOf (defsOf ns) x = varEnvOf ns x.
Proof. apply lookup_rev. Qed.
Lemma lookup_found {A} k : forall (m : list (bytes * A)) v, lookup k m = Some v -> In (k, v) m.
Proof. induction m as [|[k' x] m IH]; intros v L; [discriminate|]. cbn in L. destruct (beq k k') eqn:E; [apply beq_eq in E; injection L as <-; left; congruence|right; auto]. Qed.
Lemma defs_ok ns t : t_vars t = Some (defsOf ns) -> sheetOk ns -> varsOk t.
Proof.
  intros V [_ Ok]. unfold varsOk. rewrite V. intros x vs L. apply lookup_found in L. unfold defsOf in L. rewrite <- in_rev in L. apply in_flat_map in L as (nd & J & L).
  rewrite Forall_forall in Ok. specialize (Ok nd J). destruct nd as [r|a]; [|destruct L]. cbn [varDefs ruleDecls] in *. destruct (rootRule r); [|destruct L].
  apply in_flat_map in L as (d & Jd & L). rewrite Forall_forall in Ok. specialize (Ok d Jd). destruct d as [sp prop vals imp|]; [|destruct L].
  destruct (hasPrefix (B "--") prop); [|destruct L]. destruct L as [L|[]]. injection L as <- <-. exact Ok.
Qed.
Lemma complaint_ext e1 e2 v : (forall x, e1 x = e2 x) -> complaint e1 v = complaint e2 v.
Proof. intros E. destruct v; try reflexivity. cbn [complaint]. destruct (beq name (B "var")); [|reflexivity]. destruct args as [|[] rest]; try reflexivity. rewrite E. reflexivity. Qed.
Lemma decl_ext calc e1 e2 d : (forall x, e1 x = e2 x) -> declComplaints calc e1 d = declComplaints calc e2 d.
Proof. intros E. destruct d; [|reflexivity]. apply flat_map_ext. intros v. apply complaint_ext. exact E. Qed.
Definition nodeComplaints (pre : list node) (nd : node) : list report :=
  match nd with NRule r => flat_map (declComplaints (o_calc o) (varEnvOf (pre ++ [nd]))) (keptDecls r) | NAt _ => [] end.
Lemma complaints_app pre a b : complaints (o_calc o) pre (a ++ b) = complaints (o_calc o) pre a ++ complaints (o_calc o) (pre ++ a) b.
Proof.
  revert pre. induction a as [|nd a IH]; intros pre; cbn [app complaints]; [rewrite app_nil_r; reflexivity|].
  rewrite IH, <- !app_assoc. reflexivity.
Qed.
Lemma ok_app a b : sheetOk (a ++ b) <-> sheetOk a /\ sheetOk b.
Proof. unfold sheetOk. rewrite !Forall_app. tauto. Qed.
Lemma kept_ok r : Forall declOk (r_decls r) -> Forall declOk (keptDecls r).
Proof. unfold keptDecls. destruct (rootRule r); auto. intros H. rewrite Forall_forall in *. intros d J. apply filter_In in J as [J _]. auto. Qed.
Lemma rule_says pre n r t x t' : t_vars t = Some (defsOf pre) -> sheetOk (pre ++ [NRule r]) -> plainSelectors (NRule r) -> transformRule o n r t = TOk x t' ->
  kept t' = kept t ++ nodeComplaints pre (NRule r) /\ t_vars t' = Some (defsOf (pre ++ [NRule r])).
Proof.
  intros V Ok Pl H. pose proof Ok as [On Od]. apply Forall_app in On as [_ On]. apply Forall_inv in On. destruct On as (lsp & sels & Ep & Ns).
  apply Forall_app in Od as [_ Od]. apply Forall_inv in Od. cbn [ruleDecls] in Od.
  destruct (scan_spec r t _ V Pl) as (t1 & H1 & V1). { intros l0 s0 E0. rewrite Ep in E0. injection E0 as <- <-. exact Ns. }
  assert (V1' : t_vars t1 = Some (defsOf (pre ++ [NRule r]))).
  { rewrite V1. unfold defsOf. rewrite flat_map_app, rev_app_distr. cbn [flat_map]. rewrite app_nil_r. reflexivity. }
  unfold transformRule in H. rewrite (tbind_step _ _ _ _ _ _ _ H1), Ep in H. apply q_scan in H1.
  apply tbind_ok in H as (ds' & t2 & H2 & H). assert (t2 = t') by (destruct ds'; apply tret_ok in H; apply H). subst t2.
  pose proof (keeps_decls o _ _ _ _ _ H2) as [V2 _]. split; [|congruence].
  rewrite (decls_say _ _ _ _ _ _ V1' (defs_ok _ _ V1' Ok) (kept_ok _ Od) H2), H1. f_equal. cbn [nodeComplaints].
  apply flat_map_ext. intros d. apply decl_ext. intros y. apply defs_env.
Qed.
Variable repl : option (list (ptr * list node)).
Hypothesis Hr : all = true -> repl = None.
Lemma nodes_say n : forall ns t out t', transformNodes o repl n ns t = TOk out t' -> exists flat, flattens (replOf repl) ns flat /\
  forall pre, t_vars t = Some (defsOf pre) -> sheetOk (pre ++ flat) -> Forall plainSelectors flat ->
    kept t' = kept t ++ complaints (o_calc o) pre flat /\ t_vars t' = Some (defsOf (pre ++ flat)).
Proof.
  induction n as [|n IH]; [discriminate|]. induction ns as [|nd ns IHn]; intros t out t' H.
  - rewrite nodes_nil in H. apply tret_ok in H as [_ <-]. exists []. split; [constructor|]. intros pre V _ _. cbn. rewrite !app_nil_r. auto.
  - rewrite nodes_cons in H. apply tbind_ok in H as (h & t1 & H1 & H). apply tbind_ok in H as (rs & t2 & H2 & H). apply tret_ok in H as [_ <-].
    destruct (IHn _ _ _ H2) as (fr & F1 & F2).
    assert (Keep : (isImport nd = true -> replOf repl (nodeId nd) = None) -> (forall pre, t_vars t = Some (defsOf pre) -> sheetOk (pre ++ [nd]) -> plainSelectors nd ->
      kept t1 = kept t ++ nodeComplaints pre nd /\ t_vars t1 = Some (defsOf (pre ++ [nd]))) -> exists flat, flattens (replOf repl) (nd :: ns) flat /\
      forall pre, t_vars t = Some (defsOf pre) -> sheetOk (pre ++ flat) -> Forall plainSelectors flat -> kept t2 = kept t ++ complaints (o_calc o) pre flat /\ t_vars t2 = Some (defsOf (pre ++ flat))).
    { intros Ni K. exists (nd :: fr). split; [apply fl_other; auto|]. intros pre V Ok Pl. inversion Pl; subst. change (nd :: fr) with ([nd] ++ fr) in Ok |- *. rewrite app_assoc in Ok |- *.
      destruct (K pre V) as [K1 K2]; [apply ok_app in Ok; apply Ok|assumption|]. destruct (F2 _ K2 Ok) as [E1 E2]; [assumption|]. split; [|exact E2]. rewrite E1, K1, <- app_assoc. reflexivity. }
    destruct nd as [r|a].
    + apply Keep; [discriminate|]. intros pre V Ok Pl. cbn [oneNode] in H1. apply tbind_ok in H1 as (x & t3 & H3 & H1). apply tret_ok in H1 as [_ <-]. eapply rule_says; eauto.
    + assert (Q : kept t1 = kept t -> t_vars t1 = t_vars t -> forall pre, t_vars t = Some (defsOf pre) -> sheetOk (pre ++ [NAt a]) -> plainSelectors (NAt a) ->
        kept t1 = kept t ++ nodeComplaints pre (NAt a) /\ t_vars t1 = Some (defsOf (pre ++ [NAt a]))).
      { intros E1 E2 pre V _ _. cbn [nodeComplaints]. rewrite app_nil_r. split; [exact E1|]. rewrite E2, V. unfold defsOf. rewrite flat_map_app. cbn. rewrite app_nil_r. reflexivity. }
      cbn [oneNode] in H1. destruct (beq (ar_name a) (B "import")) eqn:Ni.
      * destruct repl as [m|] eqn:Er; [|apply tret_ok in H1 as [_ <-]; apply Keep; [reflexivity|apply Q; reflexivity]].
        destruct (plookup (atRuleId a) m) as [imported|] eqn:L; [|apply tret_ok in H1 as [_ <-]; apply Keep; [intros _; exact L|apply Q; reflexivity]].
        assert (Hall : all = false) by (destruct all; [discriminate Hr; reflexivity|reflexivity]).
        apply tbind_ok in H1 as (u & t3 & H3 & H1).
        assert (Q3 : kept t3 = kept t /\ t_vars t3 = t_vars t).
        { destruct (1 <? length (ar_preludes a))%nat; [|apply tret_ok in H3 as [_ <-]; auto]. split; [eapply q_report; [|exact H3]; unfold counts; rewrite Hall; reflexivity|]. injection H3 as <- <-. reflexivity. }
        destruct Q3 as [Q3 Q3']. destruct (IH _ _ _ _ H1) as (fi & G1 & G2). exists (fi ++ fr). split; [eapply fl_import; eauto; apply beq_eq; exact Ni|].
        intros pre V Ok Pl. apply Forall_app in Pl as [Pl1 Pl2]. rewrite app_assoc in Ok |- *. destruct (G2 pre) as [K1 K2]; [congruence|apply ok_app in Ok; apply Ok|exact Pl1|].
        destruct (F2 _ K2 Ok Pl2) as [E1 E2]. split; [|exact E2]. rewrite E1, K1, Q3, complaints_app, <- app_assoc. reflexivity.
      * assert (NI : isImport (NAt a) = true -> replOf repl (nodeId (NAt a)) = None) by (cbn [isImport]; congruence).
        destruct (beq (ar_name a) (B "custom-media")).
        -- apply tbind_ok in H1 as (u & t3 & H3 & H1). apply tret_ok in H1 as [_ <-]. unfold addCustomMedia in H3. apply Keep; [exact NI|].
           destruct (t_cmedia t); [|injection H3 as <- <-; apply Q; reflexivity]. destruct (ar_preludes a) as [|[] [|[] [|]]]; injection H3 as <- <-; apply Q; reflexivity.
        -- destruct (beq (ar_name a) (B "media")); [|apply tret_ok in H1 as [_ <-]; apply Keep; [exact NI|apply Q; reflexivity]].
           destruct (ar_preludes a) as [|[| |[lsp qs]| |] pres]; try discriminate. apply tbind_ok in H1 as (qs' & t3 & H3 & H1). apply tret_ok in H1 as [_ <-].
           apply Keep; [exact NI|]. apply Q; [eapply q_mqs; eauto|eapply keeps_mqs; eauto].
Qed.
End Says.

Section Claims.
Context {FO : FloatOps}.
Variable o : topts.
Hypothesis Hp : o_props o = true.
Lemma flattens_none ns flat : flattens (replOf None) ns flat -> flat = ns.
Proof. induction 1; [reflexivity|discriminate|congruence]. Qed.
Lemma init_kept all repl : (all = true -> o_imports o <> ImportInline) -> kept all (initState o repl) = [].
Proof.
  intros H. unfold kept, initState. cbn [t_reports]. destruct repl; [reflexivity|]. destruct (o_imports o); try reflexivity.
  destruct all; [exfalso; apply H; reflexivity|reflexivity].
Qed.
Lemma transform_says all repl n ss ss' t : (all = true -> o_calc o = false /\ o_ranges o = false) -> (all = true -> repl = None) -> (all = true -> o_imports o <> ImportInline) ->
  transform o repl n ss = TOk ss' t -> exists flat, flattens (replOf repl) (ss_nodes ss) flat /\
    (sheetOk flat -> Forall plainSelectors flat -> filter (counts all) (t_reports t) = complaints (o_calc o) [] flat).
Proof.
  intros Ha Hr Hi. unfold transform. destruct (transformNodes o repl n (ss_nodes ss) (initState o repl)) as [ns t'| |] eqn:E; try discriminate. intros H. injection H as <- <-.
  destruct (nodes_say o all Ha repl Hr n _ _ _ _ E) as (flat & F & K). exists flat. split; [exact F|]. intros Ok Pl.
  destruct (K []) as [K1 _]; auto; [unfold initState; rewrite Hp; reflexivity|]. unfold kept in K1 at 1. rewrite K1, init_kept by exact Hi. reflexivity.
Qed.
Lemma filter_ext_all {A} (f g : A -> bool) l : (forall x, f x = g x) -> filter f l = filter g l.
Proof. intros H. induction l as [|x l IH]; [reflexivity|]. cbn. rewrite H, IH. reflexivity. Qed.
Lemma C58_exact_lemma n ss ss' t : transform o None n ss = TOk ss' t -> sheetOk (ss_nodes ss) -> Forall plainSelectors (ss_nodes ss) ->
  filter aboutVars (t_reports t) = complaints (o_calc o) [] (ss_nodes ss).
Proof.
  intros H Ok Pl. destruct (transform_says false None n ss ss' t ltac:(discriminate) ltac:(discriminate) ltac:(discriminate) H) as (flat & F & K). apply flattens_none in F. subst flat. exact (K Ok Pl).
Qed.
Lemma C58_only_lemma n ss ss' t : o_calc o = false -> o_ranges o = false -> o_imports o <> ImportInline -> transform o None n ss = TOk ss' t -> sheetOk (ss_nodes ss) -> Forall plainSelectors (ss_nodes ss) ->
  t_reports t = complaints false [] (ss_nodes ss).
Proof.
  intros Oc Or Oi H Ok Pl. destruct (transform_says true None n ss ss' t (fun _ => conj Oc Or) (fun _ => eq_refl) (fun _ => Oi) H) as (flat & F & K). apply flattens_none in F. subst flat. specialize (K Ok Pl). rewrite Oc in K. rewrite <- K.
  clear. induction (t_reports t) as [|r l IH]; [reflexivity|]. cbn. f_equal. exact IH.
Qed.
Lemma C58_inlined_lemma m n ss ss' t : transform o (Some m) n ss = TOk ss' t -> exists flat, flattens (fun p => plookup p m) (ss_nodes ss) flat /\
  (sheetOk flat -> Forall plainSelectors flat -> filter aboutVars (t_reports t) = complaints (o_calc o) [] flat).
Proof. intros H. exact (transform_says false (Some m) n ss ss' t ltac:(discriminate) ltac:(discriminate) ltac:(discriminate) H). Qed.
End Claims.
