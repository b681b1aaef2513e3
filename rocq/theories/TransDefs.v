(** C33: what an imported file defines stays in it. *)
From Verif Require Import Bytes Utf8 Source Lexer Ast AstInd BytesFacts Parser Printer Transformer TransSpec TransProofs TransMedia TransInline Resolver Compile CompileSpec InlineSpec InlineRefs InlineProofs.

(** ** Transformed rules define nothing more *)
Definition scanned (pr : prelude) : bool :=
  match pr with
  | PrSel (_, sels) =>
    existsb (fun s : selector => negb (length (snd s) =? 1)%nat) sels &&
    match sels with (_, p :: _) :: _ => isRootPseudo p | _ => false end
  | _ => false
  end.
Definition notDef (d : decl) : Prop := isCustomProp d = false.
Definition bare (on : bool) (nd : node) : Prop :=
  match nd with
  | NRule r => on = true -> scanned (r_prelude r) = true -> Forall notDef (r_decls r)
  | NAt a => ar_name a <> B "custom-media"
  end.
Definition vis (t : tstate) : bool := match t_vars t with Some _ => true | None => false end.
Lemma eqm_refl t : eqm t t. Proof. split; reflexivity. Qed.
Lemma eqm_trans a b c : eqm a b -> eqm b c -> eqm a c. Proof. intros [] []. split; congruence. Qed.
Lemma eqm_sym a b : eqm a b -> eqm b a. Proof. intros []. split; congruence. Qed.
Lemma eqm_vis a b : eqm a b -> vis a = vis b. Proof. intros [H _]. unfold vis. rewrite H. reflexivity. Qed.
Lemma keeps_eqm {A} (m : TM A) t a t' : keeps m -> m t = TOk a t' -> eqm t t'.
Proof. intros K H. destruct (K _ _ _ H). split; congruence. Qed.

Lemma collect_bare ds : forall t ds' t', collectRoot ds t = TOk ds' t' -> vis t' = vis t /\ (vis t = true -> Forall notDef ds').
Proof.
  induction ds as [|d r IH]; intros t ds' t' H; cbn [collectRoot] in H; [apply tret_ok in H as [<- <-]; auto|].
  assert (K : forall (d0 : decl) (nd : vis t = true -> notDef d0) , (r' <~ collectRoot r ;; tret (d0 :: r')) t = TOk ds' t' -> vis t' = vis t /\ (vis t = true -> Forall notDef ds')).
  { intros d0 nd E. apply tbind_ok in E as (x & t1 & E1 & E). apply tret_ok in E as [<- <-]. destruct (IH _ _ _ E1) as [X Y]. split; auto. }
  destruct d as [sp prop vals imp|sp v]; [|apply (K (DRaw sp v)); [reflexivity|exact H]].
  destruct (t_vars t) as [m|] eqn:Ev.
  - destruct (hasPrefix (B "--") prop) eqn:Ep.
    + apply IH in H as [X Y]. unfold vis in *. rewrite Ev. cbn [t_vars] in *. auto.
    + apply (K (DDecl sp prop vals imp)); [intros _; exact Ep|exact H].
  - apply (K (DDecl sp prop vals imp)); [unfold vis; rewrite Ev; discriminate|exact H].
Qed.
Lemma collect_keep ds : forall t ds' t', collectRoot ds t = TOk ds' t' -> (vis t = true -> Forall notDef ds) -> t' = t.
Proof.
  induction ds as [|d r IH]; intros t ds' t' H Hb; cbn [collectRoot] in H; [apply tret_ok in H as [_ <-]; auto|].
  assert (K : forall (d0 : decl), (r' <~ collectRoot r ;; tret (d0 :: r')) t = TOk ds' t' -> t' = t).
  { intros d0 E. apply tbind_ok in E as (x & t1 & E1 & E). apply tret_ok in E as [_ <-]. eapply IH; [exact E1|]. intros V. specialize (Hb V). inversion Hb; auto. }
  destruct d as [sp prop vals imp|sp v]; [|apply (K (DRaw sp v)); exact H].
  destruct (t_vars t) as [m|] eqn:Ev; [|apply (K (DDecl sp prop vals imp)); exact H].
  destruct (hasPrefix (B "--") prop) eqn:Ep; [|apply (K (DDecl sp prop vals imp)); exact H].
  exfalso. assert (V : vis t = true) by (unfold vis; rewrite Ev; reflexivity). specialize (Hb V). inversion Hb as [|? ? N _]; subst. unfold notDef, isCustomProp in N. congruence.
Qed.
Lemma scan_cases pr ds t ds' t' : scanRoot pr ds t = TOk ds' t' -> scanned pr = true /\ collectRoot ds t = TOk ds' t' \/ scanned pr = false /\ ds' = ds /\ t' = t.
Proof.
  unfold scanRoot, scanned. destruct pr as [|[lsp sels]|]; try (intros H; apply tret_ok in H as [<- <-]; auto; fail).
  destruct (existsb _ sels); [|intros H; apply tret_ok in H as [<- <-]; auto].
  destruct sels as [|[sp [|p ps]] r]; [intros H; apply tret_ok in H as [<- <-]; auto|discriminate|]. cbn [andb].
  destruct (isRootPseudo p); [auto|]. intros H. apply tret_ok in H as [<- <-]. auto.
Qed.

Section WithFloats.
Context {FO : FloatOps}.
Variable o : topts.
Lemma decls_notDef n ds : forall t ds' t', transformDecls o n ds t = TOk ds' t' -> Forall notDef ds -> Forall notDef ds'.
Proof.
  induction ds as [|d r IH]; intros t ds' t' H Hb; cbn [transformDecls] in H; [apply tret_ok in H as [<- _]; constructor|].
  inversion Hb as [|? ? B1 B2]; subst. apply tbind_ok in H as (d' & t1 & H1 & H). apply tbind_ok in H as (r' & t2 & H2 & H). apply tret_ok in H as [<- _].
  constructor; [|eapply IH; eauto]. destruct d as [sp prop vals imp|sp v].
  - apply tbind_ok in H1 as (vs & t3 & _ & H1). apply tret_ok in H1 as [<- _]. exact B1.
  - apply tret_ok in H1 as [<- _]. exact B1.
Qed.
Lemma root_setPseudo name p : name <> B "root" -> isRootPseudo (setPseudo name p) = true -> isRootPseudo p = true.
Proof.
  intros N. unfold setPseudo. destruct (isAnyLink p); auto. cbn [isRootPseudo]. intros H. apply beq_eq in H. congruence.
Qed.
Lemma scanned_selectors lsp sels : scanned (PrSel (lsp, transformSelectors o sels)) = true -> scanned (PrSel (lsp, sels)) = true.
Proof.
  unfold transformSelectors. destruct (o_anylink o); auto. unfold scanned. intros H. apply andb_prop in H as [H1 H2]. apply andb_true_intro. split.
  - clear H2. apply existsb_exists in H1 as (s & I & H1). apply in_flat_map in I as ([sp parts] & I & J). apply existsb_exists. exists (sp, parts). split; auto.
    unfold transformSelector in J. apply in_app_iff in J. cbn [snd]. destruct J as [J|[J|[]]]; [apply repeat_spec in J|]; subst s; cbn [snd] in H1; rewrite map_length in H1; exact H1.
  - destruct sels as [|[sp parts] r]; [discriminate|]. cbn [flat_map] in H2. unfold transformSelector in H2.
    destruct parts as [|p ps]; [cbn in H2; discriminate|].
    destruct (length (filter isAnyLink (p :: ps))); cbn in H2; (eapply root_setPseudo; [|exact H2]; discriminate).
Qed.
Lemma rule_bare n r t r' t' : transformRule o n r t = TOk r' t' -> vis t' = vis t /\ match r' with Some r' => bare (vis t) (NRule r') | None => True end.
Proof.
  unfold transformRule. intros H. apply tbind_ok in H as (ds & t1 & H1 & H). destruct (r_prelude r) as [|[lsp sels]|] eqn:Ep; [discriminate| |].
  2: { apply tbind_ok in H as (? & ? & _ & H). discriminate. }
  apply tbind_ok in H as (ds' & t2 & H2 & H). pose proof (keeps_eqm _ _ _ _ (keeps_decls o n ds) H2) as K. apply eqm_vis in K.
  assert (C : vis t1 = vis t /\ (vis t = true -> scanned (PrSel (lsp, sels)) = true -> Forall notDef ds)).
  { apply scan_cases in H1 as [[_ H1]|(N & -> & ->)]; [apply collect_bare in H1 as [X Y]; auto|]. split; auto. intros _ X. congruence. }
  destruct C as [C1 C2]. destruct ds' as [|d ds']; apply tret_ok in H as [<- <-]; [split; [congruence|exact I]|]. split; [congruence|]. cbn [bare r_prelude r_decls].
  intros V S. apply scanned_selectors in S. eapply decls_notDef; eauto.
Qed.
Lemma rule_keep n r t r' t' : transformRule o n r t = TOk r' t' -> bare (vis t) (NRule r) -> eqm t t'.
Proof.
  unfold transformRule. cbn [bare]. intros H Hb. apply tbind_ok in H as (ds & t1 & H1 & H).
  assert (E : t1 = t). { apply scan_cases in H1 as [[S H1]|(_ & _ & ->)]; auto. eapply collect_keep; [exact H1|]. intros V. apply Hb; auto. }
  subst t1. destruct (r_prelude r) as [|[lsp sels]|]; [discriminate| |apply tbind_ok in H as (? & ? & _ & H); discriminate].
  apply tbind_ok in H as (ds' & t2 & H2 & H). pose proof (keeps_eqm _ _ _ _ (keeps_decls o n ds) H2) as K. destruct ds'; apply tret_ok in H as [_ <-]; exact K.
Qed.
Lemma custom_vis pres t u t' : addCustomMedia pres t = TOk u t' -> vis t' = vis t.
Proof.
  unfold addCustomMedia. destruct (t_cmedia t) as [m|]; [|intros H; inversion H; reflexivity].
  destruct pres as [|[] [|[] [|]]]; intros H; inversion H; reflexivity.
Qed.
Lemma nodes_bare repl n : forall ns t out t', transformNodes o repl n ns t = TOk out t' -> vis t' = vis t /\ Forall (bare (vis t)) out.
Proof.
  induction n as [|n IHn]; intros ns; [discriminate|]. induction ns as [|nd r IH]; intros t out t' H.
  - rewrite nodes_nil in H. apply tret_ok in H as [<- <-]. auto.
  - rewrite nodes_cons in H. apply tbind_ok in H as (h & t1 & H1 & H). apply tbind_ok in H as (rs & t2 & H2 & H). apply tret_ok in H as [<- <-].
    assert (X : vis t1 = vis t /\ Forall (bare (vis t)) h).
    { destruct nd as [r0|a]; cbn [oneNode] in H1.
      - apply tbind_ok in H1 as (x & t3 & H1 & H3). apply tret_ok in H3 as [<- <-]. apply rule_bare in H1 as [X Y]. split; auto. destruct x; auto.
      - destruct (beq (ar_name a) (B "import")) eqn:Ei.
        + apply beq_eq in Ei. assert (Ba : bare (vis t) (NAt a)) by (cbn [bare]; rewrite Ei; discriminate).
          destruct repl as [m|]; [|apply tret_ok in H1 as [<- <-]; auto].
          destruct (plookup (atRuleId a) m) as [im|]; [|apply tret_ok in H1 as [<- <-]; auto].
          apply tbind_ok in H1 as (u & t3 & H3 & H1). assert (E3 : vis t3 = vis t). { destruct (_ <? _)%nat; [inversion H3; reflexivity|apply tret_ok in H3 as [_ <-]; reflexivity]. }
          apply IHn in H1 as [X Y]. rewrite E3 in *. auto.
        + destruct (beq (ar_name a) (B "custom-media")) eqn:Ec.
          * apply tbind_ok in H1 as (u & t3 & H3 & H1). apply tret_ok in H1 as [<- <-]. apply custom_vis in H3. auto.
          * assert (Nc : ar_name a <> B "custom-media") by (intros E; rewrite E in Ec; discriminate).
            destruct (beq (ar_name a) (B "media")); [|apply tret_ok in H1 as [<- <-]; auto].
            destruct (ar_preludes a) as [|[| |[lsp qs]| |] pres]; try discriminate. apply tbind_ok in H1 as (q & t3 & H3 & H1). apply tret_ok in H1 as [<- <-].
            apply (keeps_eqm _ _ _ _ (keeps_mqs o qs)) in H3. apply eqm_vis in H3. split; [congruence|]. repeat constructor. exact Nc. }
    destruct X as [X1 X2]. apply IH in H2 as [Y1 Y2]. rewrite X1 in *. split; [exact Y1|]. apply Forall_app. auto.
Qed.
(** Bare rules without replaced imports leave the definitions alone. *)
Lemma nodes_keep m n : forall ns t out t', transformNodes o (Some m) n ns t = TOk out t' -> Forall (bare (vis t)) ns ->
  Forall (fun nd => isImport nd = true -> plookup (nodeId nd) m = None) ns -> eqm t t'.
Proof.
  destruct n as [|n]; intros ns; [discriminate|]. induction ns as [|nd r IH]; intros t out t' H Hb N.
  - rewrite nodes_nil in H. apply tret_ok in H as [_ <-]. apply eqm_refl.
  - rewrite nodes_cons in H. apply tbind_ok in H as (h & t1 & H1 & H). apply tbind_ok in H as (rs & t2 & H2 & H). apply tret_ok in H as [_ <-].
    inversion Hb as [|? ? B1 B2]; subst. inversion N as [|? ? N1 N2]; subst.
    assert (X : eqm t t1).
    { destruct nd as [r0|a]; cbn [oneNode] in H1.
      - apply tbind_ok in H1 as (x & t3 & H1 & H3). apply tret_ok in H3 as [_ <-]. eapply rule_keep; eauto.
      - cbn [isImport nodeId bare] in *. destruct (beq (ar_name a) (B "import")) eqn:Ei.
        + rewrite (N1 eq_refl) in H1. apply tret_ok in H1 as [_ <-]. apply eqm_refl.
        + destruct (beq (ar_name a) (B "custom-media")) eqn:Ec; [apply beq_eq in Ec; contradiction|].
          destruct (beq (ar_name a) (B "media")); [|apply tret_ok in H1 as [_ <-]; apply eqm_refl].
          destruct (ar_preludes a) as [|[| |[lsp qs]| |] pres]; try discriminate. apply tbind_ok in H1 as (q & t3 & H3 & H1). apply tret_ok in H1 as [_ <-].
          apply (keeps_eqm _ _ _ _ (keeps_mqs o qs)) in H3. exact H3. }
    eapply eqm_trans; [exact X|]. eapply IH; [exact H2| |exact N2]. rewrite <- (eqm_vis _ _ X). exact B2.
Qed.

(** ** Two contents of the imported file *)
(** The imported rules come from later parses and define nothing. *)
Definition harmless (d : nat) (on : bool) (m : list (ptr * list node)) : Prop := forall k ns, In (k, ns) m ->
  fst k = d /\ Forall (fun nd => (d < runOf nd)%nat) ns /\ Forall (bare on) ns.
Lemma plookup_In {A} k (l : list (ptr * A)) v : plookup k l = Some v -> exists k', In (k', v) l /\ fst k' = fst k.
Proof.
  induction l as [|[k' v'] l IH]; cbn [plookup]; [discriminate|]. destruct (ptrEq k k') eqn:E.
  - intros H. injection H as ->. exists k'. split; [left; reflexivity|]. unfold ptrEq in E. apply andb_prop in E as [E _]. apply Nat.eqb_eq in E. auto.
  - intros H. destruct (IH H) as (k2 & I & F). exists k2. split; [right; exact I|exact F].
Qed.
Lemma nodes_runs repl n : forall ns t out t' (Q : nat -> Prop), transformNodes o repl n ns t = TOk out t' -> Forall (fun nd => Q (runOf nd)) ns ->
  match repl with Some m => forall k im, In (k, im) m -> Forall (fun nd => Q (runOf nd)) im | None => True end -> Forall (fun nd => Q (runOf nd)) out.
Proof.
  induction n as [|n IHn]; intros ns; [discriminate|]. induction ns as [|nd r IH]; intros t out t' Q H F M.
  - rewrite nodes_nil in H. apply tret_ok in H as [<- _]. constructor.
  - rewrite nodes_cons in H. apply tbind_ok in H as (h & t1 & H1 & H). apply tbind_ok in H as (rs & t2 & H2 & H). apply tret_ok in H as [<- _].
    inversion F as [|? ? F1 F2]; subst. apply Forall_app. split; [|eapply IH; eauto].
    destruct nd as [r0|a]; cbn [oneNode] in H1.
    + apply tbind_ok in H1 as (x & t3 & H1 & H3). apply tret_ok in H3 as [<- _]. destruct x as [r1|]; [|constructor]. apply TransOrder.rule_origin in H1 as [R _].
      constructor; [|constructor]. cbn [runOf] in *. rewrite R. exact F1.
    + destruct (beq (ar_name a) (B "import")).
      * destruct repl as [m|]; [|apply tret_ok in H1 as [<- _]; auto]. destruct (plookup (atRuleId a) m) as [im|] eqn:El; [|apply tret_ok in H1 as [<- _]; auto].
        apply tbind_ok in H1 as (u & t3 & _ & H1). eapply IHn; [exact H1| |exact M]. apply plookup_In in El as (k' & I & _). eapply M; eauto.
      * destruct (beq (ar_name a) (B "custom-media")); [apply tbind_ok in H1 as (? & ? & _ & H1); apply tret_ok in H1 as [<- _]; constructor|].
        destruct (beq (ar_name a) (B "media")); [|apply tret_ok in H1 as [<- _]; auto].
        destruct (ar_preludes a) as [|[| |[lsp qs]| |] pres]; try discriminate. apply tbind_ok in H1 as (q & t3 & _ & H1). apply tret_ok in H1 as [<- _]. auto.
Qed.
Lemma own_later d ns : Forall (fun nd => (d < runOf nd)%nat) ns -> filter (ownRule d) ns = [].
Proof. induction 1 as [|nd ns L _ IH]; [reflexivity|]. cbn [filter]. unfold ownRule at 1. destruct (Nat.eqb_spec (runOf nd) d); [lia|]. exact IH. Qed.
(** One @import: nothing of its own remains and nothing gets defined. *)
Lemma import_own d m n a t h t' : harmless d (vis t) m -> ar_name a = B "import" -> oneNode o (Some m) n (NAt a) t = TOk h t' -> eqm t t' /\ filter (ownRule d) h = [].
Proof.
  intros Hm En. cbn [oneNode]. rewrite En. change (beq (B "import") (B "import")) with true. cbv iota.
  destruct (plookup (atRuleId a) m) as [im|] eqn:El.
  - intros H. apply tbind_ok in H as (u & t3 & H3 & H1). assert (E3 : eqm t t3). { destruct (_ <? _)%nat; [inversion H3; split; reflexivity|apply tret_ok in H3 as [_ <-]; apply eqm_refl]. }
    apply plookup_In in El as (k' & I & _). destruct (Hm _ _ I) as (_ & R & Bn). split.
    + eapply eqm_trans; [exact E3|]. eapply nodes_keep; [exact H1|rewrite <- (eqm_vis _ _ E3); exact Bn|]. rewrite Forall_forall in R |- *. intros nd J _.
      destruct (plookup (nodeId nd) m) as [x|] eqn:E; [|reflexivity]. apply plookup_In in E as (k2 & I2 & F2). destruct (Hm _ _ I2) as (K2 & _). specialize (R nd J).
      destruct nd; cbn in *; lia.
    + apply own_later. eapply (nodes_runs (Some m) n _ _ _ _ (fun x => (d < x)%nat)); [exact H1|exact R|]. intros k im' I'. apply (Hm _ _ I').
  - intros H. apply tret_ok in H as [<- <-]. split; [apply eqm_refl|]. cbn [filter]. unfold ownRule, isImport. rewrite En. change (beq (B "import") (B "import")) with true. rewrite andb_false_r. reflexivity.
Qed.
Lemma own_rules d m m' n : forall ns t t' out out' u u', eqm t t' -> harmless d (vis t) m -> harmless d (vis t) m' ->
  transformNodes o (Some m) n ns t = TOk out u -> transformNodes o (Some m') n ns t' = TOk out' u' ->
  filter (ownRule d) out = filter (ownRule d) out' /\ eqm u u'.
Proof.
  destruct n as [|n]; [discriminate|]. induction ns as [|nd r IH]; intros t t' out out' u u' E Hm Hm' H H'.
  - rewrite nodes_nil in *. apply tret_ok in H as [<- <-]. apply tret_ok in H' as [<- <-]. auto.
  - rewrite nodes_cons in *. apply tbind_ok in H as (h & t1 & H1 & H). apply tbind_ok in H as (rs & t2 & H2 & H). apply tret_ok in H as [<- <-].
    apply tbind_ok in H' as (h' & t1' & H1' & H'). apply tbind_ok in H' as (rs' & t2' & H2' & H'). apply tret_ok in H' as [<- <-].
    assert (X : eqm t1 t1' /\ filter (ownRule d) h = filter (ownRule d) h' /\ vis t1 = vis t).
    { destruct (isImport nd) eqn:Ei.
      - destruct nd as [|a]; [discriminate|]. cbn [isImport] in Ei. apply beq_eq in Ei.
        destruct (import_own _ _ _ _ _ _ _ Hm Ei H1) as [E1 F1]. rewrite (eqm_vis _ _ E) in Hm'. destruct (import_own _ _ _ _ _ _ _ Hm' Ei H1') as [E2 F2].
        split; [eapply eqm_trans; [apply eqm_sym; exact E1|eapply eqm_trans; [exact E|exact E2]]|]. split; [rewrite F1, F2; reflexivity|]. symmetry. apply eqm_vis. exact E1.
      - assert (Hi : isImport nd = true -> plookup (nodeId nd) m = None /\ plookup (nodeId nd) m' = None) by (rewrite Ei; discriminate).
        destruct (le_one o m m' n n nd (le_n _) Hi _ _ E _ _ H1) as (x & K1 & K2). rewrite K1 in H1'. injection H1' as <- <-. split; auto. split; auto.
        assert (V : transformNodes o (Some m) (S n) [nd] t = TOk (h ++ []) t1).
        { rewrite nodes_cons, (tbind_step _ _ _ _ _ _ _ H1), nodes_nil. reflexivity. }
        apply nodes_bare in V as [V _]. exact V. }
    destruct X as (X1 & X2 & X3). destruct (IH _ _ _ _ _ _ X1 ltac:(rewrite X3; exact Hm) ltac:(rewrite X3; exact Hm') H2 H2') as [Y1 Y2].
    rewrite !filter_app, X2, Y1. auto.
Qed.
End WithFloats.

(** ** Files *)
Section WithProject.
Context {U : UnicodeDigits} {FO : FloatOps}.
Variable P : project.
Lemma parse_runs run n content ss lines : parse run n content = ParseOk ss lines -> Forall (fun nd => runOf nd = run) (ss_nodes ss).
Proof.
  intros H. rewrite (ParseRerun.C12_rerun_lemma run run) in H. destruct (parse run n content); inversion H; subst. cbn.
  rewrite Forall_forall. intros nd Hi. apply in_map_iff in Hi as ([q|a] & <- & _); reflexivity.
Qed.
Lemma init_vis o m : vis (initState o (Some m)) = o_props o.
Proof. unfold vis, initState. cbn. destruct (o_props o); reflexivity. Qed.
Lemma replaces_key d f imps m : replaces P d f imps m -> (forall i, In i imps -> fst (snd i) = d) -> forall k ns, In (k, ns) m -> fst k = d.
Proof. intros R H k ns I. destruct R; [destruct I|destruct I|destruct I|destruct I|]. destruct I as [I|[]]. injection I as <- <-. apply (H (spec, at_)). left. reflexivity. Qed.
Lemma inlined_harmless : (forall d f r, inlined P d f r -> match r with Some ns => Forall (fun nd => (d <= runOf nd)%nat) ns /\ Forall (bare (o_props (p_opts P))) ns | None => True end) /\
  (forall d f imps m, replaces P d f imps m -> forall k ns, In (k, ns) m -> Forall (fun nd => (d < runOf nd)%nat) ns /\ Forall (bare (o_props (p_opts P))) ns).
Proof.
  apply inlined_both; auto; try (intros; contradiction).
  - intros d f content n ss lines m k ss' t Rd Hp R IH T. unfold transform in T. destruct (transformNodes _ _ _ _ _) as [ns t'| |] eqn:E; try discriminate. injection T as <- <-. cbn [ss_nodes].
    split; [|apply nodes_bare in E as [_ E]; rewrite init_vis in E; exact E].
    eapply (nodes_runs _ (Some m) k _ _ _ _ (fun x => (d <= x)%nat)); [exact E| |].
    + apply parse_runs in Hp. eapply Forall_impl; [|exact Hp]. cbn. lia.
    + intros k0 im I. destruct (IH _ _ I) as [X _]. eapply Forall_impl; [|exact X]. cbn. lia.
  - intros d f spec at_ rel f' nds _ _ _ [X Y] k ns [I|[]]. injection I as <- <-. split; [|exact Y]. eapply Forall_impl; [|exact X]. cbn. lia.
Qed.
End WithProject.
Lemma C33_own_lemma (U : UnicodeDigits) (FO : FloatOps) P P' d f ns ns' : p_opts P = p_opts P' -> p_read P f = p_read P' f ->
  inlined P d f (Some ns) -> inlined P' d f (Some ns') -> filter (ownRule d) ns = filter (ownRule d) ns'.
Proof.
  intros Eo Er H H'. inversion H as [| |d0 f0 content n ss lines m k ss1 t Rd Hp R T]; subst. inversion H' as [| |d0 f0 content' n' ss' lines' m' k' ss1' t' Rd' Hp' R' T']; subst.
  assert (content' = content) by congruence. subst content'. pose proof (parsed_same _ _ _ _ _ _ Hp Hp' ltac:(discriminate) ltac:(discriminate)) as E. injection E as <- <-.
  unfold transform in T, T'. destruct (transformNodes (p_opts P) _ _ _ _) as [ns1 t1| |] eqn:E; try discriminate. injection T as <- <-.
  destruct (transformNodes (p_opts P') _ _ _ _) as [ns1' t1'| |] eqn:E'; try discriminate. injection T' as <- <-. cbn [ss_nodes]. rewrite <- Eo in E'.
  destruct (le_nodes_fuel (p_opts P) m k (Nat.max k k') (ss_nodes ss) ltac:(lia) _ _ (eqm_refl _) _ _ E) as (u & Hu & _).
  destruct (le_nodes_fuel (p_opts P) m' k' (Nat.max k k') (ss_nodes ss) ltac:(lia) _ _ (eqm_refl _) _ _ E') as (u' & Hu' & _).
  assert (Ki : forall i, In i (ss_imports ss) -> fst (snd i) = d). { intros [spec at_] I. eapply parse_import_run; eauto. }
  eapply own_rules; [| | |exact Hu|exact Hu']; [split; reflexivity| |]; rewrite init_vis.
  - intros k0 im I. split; [eapply replaces_key; [exact R|exact Ki|exact I]|]. apply (proj2 (inlined_harmless P) _ _ _ _ R _ _ I).
  - intros k0 im I. split; [eapply replaces_key; [exact R'|exact Ki|exact I]|]. rewrite Eo. apply (proj2 (inlined_harmless P') _ _ _ _ R' _ _ I).
Qed.

Lemma C33_never_lemma (U : UnicodeDigits) (FO : FloatOps) P P' e p g g' fs fs' out out' : o_imports (p_opts P) = ImportInline -> p_opts P' = p_opts P ->
  oneImportEach P -> oneImportEach P' -> p_entries P = [e] -> p_entries P' = [e] -> p_read P p = p_read P' p ->
  reach P (g, Finished fs) -> reach P' (g', Finished fs') -> lookup p fs = Some out -> lookup p fs' = Some out' ->
  exists src ns ns', print src ns = Some out /\ print src ns' = Some out' /\ filter (ownRule 0) ns = filter (ownRule 0) ns'.
Proof.
  intros I O C C' E E' Rd R R' L L'.
  apply (C53_lemma P I C e E g fs R) in L as (_ & content & n & ss & lines & ns & R1 & P1 & I1 & Pr1).
  assert (I' : o_imports (p_opts P') = ImportInline) by congruence.
  apply (C53_lemma P' I' C' e E' g' fs' R') in L' as (_ & content' & n' & ss' & lines' & ns' & R2 & P2 & I2 & Pr2).
  assert (content' = content) by congruence. subst content'. pose proof (parsed_same _ _ _ _ _ _ P1 P2 ltac:(discriminate) ltac:(discriminate)) as X. injection X as <- <-.
  exists (Some (mkSource p content lines)), ns, ns'. split; auto. split; auto. exact (C33_own_lemma U FO P P' 0 p ns ns' (eq_sym O) Rd I1 I2).
Qed.
