(** C56: the second pass over the rules of an imported file. *)
From Verif Require Import Bytes Utf8 Source Lexer Ast AstInd BytesFacts Parser Printer Transformer TransSpec TransProofs TransMedia TransInline TwiceSpec
  Resolver Compile CompileSpec InlineSpec InlineRefs InlineProofs TransDefs.

(** ** Code that does not look at the definitions *)
Definition li {A} (m1 m2 : TM A) : Prop := forall t1 t2 a u1, m1 t1 = TOk a u1 -> exists u2, m2 t2 = TOk a u2.
Lemma li_ret {A} (a : A) : li (tret a) (tret a).
Proof. intros t1 t2 b u H. apply tret_ok in H as [<- _]. eexists. reflexivity. Qed.
Lemma li_crash {A} (m : TM A) : li tcrash m. Proof. intros t1 t2 b u H. discriminate. Qed.
Lemma li_timeout {A} (m : TM A) : li ttimeout m. Proof. intros t1 t2 b u H. discriminate. Qed.
Lemma li_bind {A C} (m1 m2 : TM A) (k1 k2 : A -> TM C) : li m1 m2 -> (forall a, li (k1 a) (k2 a)) -> li (tbind m1 k1) (tbind m2 k2).
Proof.
  intros Hm Hk t1 t2 c u H. apply tbind_ok in H as (a & v & H1 & H2). destruct (Hm _ t2 _ _ H1) as (v2 & E). destruct (Hk a _ v2 _ _ H2) as (w & F).
  exists w. rewrite (tbind_step _ _ _ _ _ _ _ E). exact F.
Qed.
Lemma li_report r : li (treport r) (treport r). Proof. intros t1 t2 a u H. inversion H; subst. eexists. reflexivity. Qed.
Lemma li_addError w v m : li (addErrorAt w v m) (addErrorAt w v m).
Proof. unfold addErrorAt. destruct (valueSpan v); [apply li_report|apply li_crash]. Qed.
Ltac li1 := first
  [ apply li_ret | apply li_crash | apply li_timeout | apply li_report | apply li_addError | assumption
  | apply li_bind; [|intros]
  | match goal with
    | |- li (if ?b then _ else _) _ => destruct b
    | |- li (match ?b with _ => _ end) _ => destruct b
    end ].
Ltac lis := repeat li1.

Section WithFloats.
Context {FO : FloatOps}.
Variable o : topts.
Lemma li_mathResult v r u : li (mathResult v r u) (mathResult v r u). Proof. unfold mathResult. lis. Qed.
Lemma li_combine l r op : li (combine l r op) (combine l r op). Proof. unfold combine. repeat first [apply li_mathResult|li1]. Qed.
Lemma li_reduce v : li (reduceSide v) (reduceSide v).
Proof. induction v using value_ind'; cbn [reduceSide]; repeat first [apply li_combine|li1]. Qed.
Lemma li_eval l r op : li (evaluateMathExpression l r op) (evaluateMathExpression l r op).
Proof. unfold evaluateMathExpression. repeat first [apply li_combine|apply li_reduce|li1]. Qed.
(** Results of arithmetic. *)
Definition dimOrNil (v : value) : Prop := Ast.isNil v = true \/ exists sp n u, v = VDim sp n u.
Definition gives {A} (Q : A -> Prop) (m : TM A) : Prop := forall t a t', m t = TOk a t' -> Q a.
Lemma gives_ret {A} (Q : A -> Prop) a : Q a -> gives Q (tret a). Proof. intros H t b t' E. apply tret_ok in E as [<- _]. exact H. Qed.
Lemma gives_bind {A C} (Q : C -> Prop) (m : TM A) k : (forall a, gives Q (k a)) -> gives Q (tbind m k).
Proof. intros H t b t' E. apply tbind_ok in E as (a & t1 & _ & E). eapply H; eauto. Qed.
Lemma gives_crash {A} (Q : A -> Prop) : gives Q tcrash. Proof. intros t b t' E. discriminate. Qed.
Lemma nil_dim : dimOrNil VNil. Proof. left. reflexivity. Qed.
Ltac dims := repeat first
  [ apply gives_ret; first [apply nil_dim | right; do 3 eexists; reflexivity] | apply gives_crash | apply gives_bind; intros
  | match goal with |- gives _ (match ?b with _ => _ end) => destruct b end ].
Lemma mathResult_dim v r u : gives dimOrNil (mathResult v r u). Proof. unfold mathResult. dims. Qed.
Lemma combine_dim l r op : gives dimOrNil (combine l r op).
Proof. unfold combine. repeat first [apply mathResult_dim | progress dims]. Qed.
Lemma eval_dim l r op : gives dimOrNil (evaluateMathExpression l r op).
Proof. unfold evaluateMathExpression. do 2 (apply gives_bind; intros). apply combine_dim. Qed.

(** A value without var() is computed the same way always; the result is the
    value or a number. *)
Definition allFree := fix all (l : list value) : Prop := match l with [] => True | a :: r => varFree a /\ all r end.
Definition asIs (v : value) (out : list value) : Prop := out = [v] \/ exists sp x u, out = [VDim sp x u].
Lemma asIs_calc v e : dimOrNil e -> asIs v (if Ast.isNil e then [v] else [e]).
Proof. intros [E|(sp & x & u & ->)]; [rewrite E; left; reflexivity|right; cbn; eauto]. Qed.
Lemma free_value n : forall v, varFree v -> forall t1 t2 out u1, transformValue o n v t1 = TOk out u1 ->
  asIs v out /\ exists u2, transformValue o n v t2 = TOk out u2.
Proof.
  induction n as [|n IH]; intros v F t1 t2 out u1 H; [discriminate|]. cbn [transformValue] in *.
  destruct v as [| | | | | |sp name args| | | |]; try (apply tret_ok in H as [<- _]; split; [left; reflexivity|eexists; reflexivity]).
  cbn [varFree] in F. destruct F as [Nv F]. change (allFree args) in F.
  assert (Sb : forall t, substVar sp name args t = TOk [VFunc sp name args] t).
  { intros t. unfold substVar. destruct (beq name (B "var")) eqn:E; [apply beq_eq in E; contradiction|]. reflexivity. }
  rewrite (tbind_step _ _ _ _ _ _ _ (Sb t2)). rewrite (tbind_step _ _ _ _ _ _ _ (Sb t1)) in H.
  set (v := VFunc sp name args) in *.
  assert (R : forall (m : TM unit), li m m -> forall t1 t2 out u1, (_ <~ m ;; tret [v]) t1 = TOk out u1 -> asIs v out /\ exists u2, (_ <~ m ;; tret [v]) t2 = TOk out u2).
  { intros m L s1 s2 out0 w E. split; [|eapply (li_bind m m); [exact L|intros; apply li_ret|exact E]]. apply tbind_ok in E as (? & ? & _ & E). apply tret_ok in E as [<- _]. left. reflexivity. }
  destruct (negb (beq name (B "calc")) || negb (o_calc o)); [apply tret_ok in H as [<- _]; split; [left; reflexivity|eexists; reflexivity]|].
  destruct args as [|a0 [|a1 args]]; [apply (R (treport _) (li_report _) _ _ _ _ H)| |apply (R (treport _) (li_report _) _ _ _ _ H)].
  destruct F as [F0 _]. apply tbind_ok in H as (args' & w1 & H1 & H).
  destruct (IH a0 F0 _ t2 _ _ H1) as (Sm & w2 & E2). rewrite (tbind_step _ _ _ _ _ _ _ E2).
  destruct Sm as [->|(sp1 & x1 & un1 & ->)]; [|apply tret_ok in H as [<- _]; split; [left; reflexivity|eexists; reflexivity]].
  destruct a0 as [| | | | | | |sp1 op l r| | |]; try (apply tret_ok in H as [<- _]; split; [left; reflexivity|eexists; reflexivity]).
  cbn [varFree] in F0. destruct F0 as [Fl Fr]. apply tbind_ok in H as (ls & w3 & H3 & H). apply tbind_ok in H as (rs & w4 & H4 & H).
  destruct (IH l Fl _ w2 _ _ H3) as (Sl & y3 & E3). rewrite (tbind_step _ _ _ _ _ _ _ E3).
  destruct (IH r Fr _ y3 _ _ H4) as (Sr & y4 & E4). rewrite (tbind_step _ _ _ _ _ _ _ E4).
  assert (X : exists l1 r1, ls = [l1] /\ rs = [r1]). { destruct Sl as [->|(? & ? & ? & ->)], Sr as [->|(? & ? & ? & ->)]; eauto. }
  destruct X as (l1 & r1 & -> & ->). apply tbind_ok in H as (e & w5 & H5 & H). destruct (li_eval l1 r1 op _ y4 _ _ H5) as (y5 & E5). rewrite (tbind_step _ _ _ _ _ _ _ E5).
  apply tret_ok in H as [<- _]. split; [apply asIs_calc; eapply eval_dim; eauto|eexists; reflexivity].
Qed.

(** ** Second passes *)
(** The state of a new transformer, but for the reports. *)
Definition blank (t : tstate) : Prop := eqm t (initState o (Some [])).
Lemma blank_vars t : blank t -> t_vars t = if o_props o then Some [] else None. Proof. intros [H _]. exact H. Qed.
Lemma blank_cmedia t : blank t -> t_cmedia t = if o_cmedia o then Some [] else None. Proof. intros [_ H]. exact H. Qed.
Lemma blank_eqm t t' : blank t -> eqm t t' -> blank t'. Proof. intros H E. eapply eqm_trans; [apply eqm_sym; exact E|exact H]. Qed.
Definition still (n : nat) (v : value) : Prop := forall t, blank t -> exists t', transformValue o n v t = TOk [v] t'.
Lemma fixed_still n v : fixedValue o v -> still (S n) v.
Proof.
  intros F t Bt. destruct v as [| | | | | |sp name args| | | |]; try (eexists; reflexivity). cbn [fixedValue] in F. destruct F as [F1 F2]. cbn [transformValue].
  assert (X : exists t', substVar sp name args t = TOk [VFunc sp name args] t').
  { unfold substVar. destruct (beq name (B "var")) eqn:E; cbn [negb]; [|eexists; reflexivity]. apply beq_eq in E. rewrite (blank_vars t Bt).
    destruct (o_props o); [|eexists; reflexivity]. specialize (F2 eq_refl E). destruct args as [|a0 rest]; [eexists; reflexivity|]. destruct a0; try (eexists; reflexivity).
    cbn [lookup]. destruct (Nat.ltb_spec 2 (length (VIdent sp0 v :: rest))); [lia|]. eexists. reflexivity. }
  destruct X as (t' & X). rewrite (tbind_step _ _ _ _ _ _ _ X). destruct (beq name (B "calc")) eqn:E; [|eexists; reflexivity].
  destruct (o_calc o); [|eexists; reflexivity]. apply beq_eq in E. destruct (F1 eq_refl E).
Qed.
(** What the definitions hold during the first pass. *)
Definition heldVars (t : tstate) : Prop := match t_vars t with Some m => o_props o = true /\ Forall (fun kv => Forall (fixedValue o) (snd kv)) m | None => o_props o = false end.
Definition heldMedia (t : tstate) : Prop := match t_cmedia t with Some m => o_cmedia o = true /\ Forall (fun kv => Forall (fixedPart o) (snd (snd kv))) m | None => o_cmedia o = false end.
Definition held (t : tstate) : Prop := heldVars t /\ heldMedia t.
Lemma held_eqm t t' : eqm t t' -> held t -> held t'.
Proof. intros [E1 E2] [H1 H2]. unfold held, heldVars, heldMedia in *. rewrite <- E1, <- E2. auto. Qed.
Lemma lookup_Forall {A} (Q : A -> Prop) k m v : Forall (fun kv : bytes * A => Q (snd kv)) m -> lookup k m = Some v -> Q v.
Proof. induction 1 as [|[k' v'] m H _ IH]; cbn [lookup]; [discriminate|]. destruct (beq k k'); [intros E; injection E as <-; exact H|exact IH]. Qed.
Lemma value_still n v t out t' : transformValue o (S n) v t = TOk out t' -> settledValue o v -> held t -> Forall (still (S n)) out.
Proof.
  intros H Sv [Hv _]. assert (Fx : forall v0, fixedValue o v0 -> Forall (still (S n)) [v0]) by (intros; repeat constructor; apply fixed_still; auto).
  destruct Sv as [Fv|Sv].
  - destruct v as [| | | | | |sp name args| | | |]; try (apply tret_ok in H as [<- _]; auto; fail). cbn [transformValue] in H. apply tbind_ok in H as (new & t1 & H1 & H).
    assert (Hc : negb (beq name (B "calc")) || negb (o_calc o) = true).
    { destruct (beq name (B "calc")) eqn:E; auto. destruct (o_calc o) eqn:Eo; auto. apply beq_eq in E. destruct (proj1 Fv Eo E). }
    rewrite Hc in H. apply tret_ok in H as [<- _]. unfold substVar in H1. destruct (beq name (B "var")) eqn:E; cbn [negb] in H1; [|apply tret_ok in H1 as [<- _]; auto].
    apply beq_eq in E. unfold heldVars in Hv. destruct (t_vars t) as [m|]; [|inversion H1; subst; auto]. destruct Hv as [Op Hv].
    assert (Rp : forall r, (_ <~ treport r ;; tret [VFunc sp name args]) t = TOk new t1 -> Forall (still (S n)) new).
    { intros r E1. apply tbind_ok in E1 as (? & ? & _ & E1). apply tret_ok in E1 as [<- _]. auto. }
    destruct args as [|a0 rest]; [eapply Rp; exact H1|]. destruct a0; try (eapply Rp; exact H1).
    destruct (lookup v m) as [vals|] eqn:El; [|destruct (Nat.ltb_spec 2 (length (VIdent sp0 v :: rest))); [pose proof (proj2 Fv Op E); lia|eapply Rp; exact H1]].
    inversion H1; subst. pose proof (lookup_Forall _ _ _ _ Hv El) as X. eapply Forall_impl; [|exact X]. intros a. apply fixed_still.
  - destruct v as [| | | | | |sp name args| | | |]; try contradiction. destruct Sv as [[En Fv]|[En Ff]].
    + destruct (free_value (S n) _ Fv _ t _ _ H) as ([->|(sp1 & x & u & ->)] & _); [|repeat constructor; intros s _; eexists; reflexivity].
      repeat constructor. intros s _. destruct (free_value (S n) _ Fv _ s _ _ H) as (_ & X). exact X.
    + cbn [transformValue] in H. apply tbind_ok in H as (new & t1 & H1 & H). rewrite En in H. change (beq (B "var") (B "calc")) with false in H. cbn [negb orb] in H.
      apply tret_ok in H as [<- _]. unfold substVar in H1. rewrite En in H1. change (beq (B "var") (B "var")) with true in H1. cbn [negb] in H1.
      unfold heldVars in Hv. destruct (t_vars t) as [m|] eqn:Ev.
      2: { inversion H1; subst. repeat constructor. intros s Bs. cbn [transformValue]. rewrite (tbind_step _ _ _ _ _ [VFunc sp (B "var") args] s); [eexists; reflexivity|].
           unfold substVar. change (beq (B "var") (B "var")) with true. cbn [negb]. rewrite (blank_vars s Bs), Hv. reflexivity. }
      destruct Hv as [Op Hv].
      assert (Bad : (length args <= 2)%nat \/ (forall isp x rest, args <> VIdent isp x :: rest) -> still (S n) (VFunc sp (B "var") args)).
      { intros Hb s Bs. cbn [transformValue]. assert (X : exists s', substVar sp (B "var") args s = TOk [VFunc sp (B "var") args] s').
        { unfold substVar. change (beq (B "var") (B "var")) with true. cbn [negb]. rewrite (blank_vars s Bs), Op. destruct args as [|a0 rest]; [eexists; reflexivity|].
          destruct a0; try (eexists; reflexivity). cbn [lookup]. destruct (Nat.ltb_spec 2 (length (VIdent sp0 v :: rest))); [|eexists; reflexivity].
          destruct Hb as [Hb|Hb]; [lia|]. destruct (Hb sp0 v rest eq_refl). }
        destruct X as (s' & X). rewrite (tbind_step _ _ _ _ _ _ _ X). eexists. reflexivity. }
      assert (Rp : forall r, (_ <~ treport r ;; tret [VFunc sp (B "var") args]) t = TOk new t1 ->
          (length args <= 2)%nat \/ (forall isp x rest, args <> VIdent isp x :: rest) -> Forall (still (S n)) new).
      { intros r E1 Hb. apply tbind_ok in E1 as (? & ? & _ & E1). apply tret_ok in E1 as [<- _]. repeat constructor. apply Bad. exact Hb. }
      destruct args as [|a0 rest]; [eapply Rp; [exact H1|left; cbn; lia]|]. destruct a0; try (eapply Rp; [exact H1|right; intros; discriminate]).
      destruct (lookup v m) as [vals|] eqn:El.
      * inversion H1; subst. pose proof (lookup_Forall _ _ _ _ Hv El) as X. eapply Forall_impl; [|exact X]. intros a. apply fixed_still.
      * destruct (Nat.ltb_spec 2 (length (VIdent sp0 v :: rest))); [|eapply Rp; [exact H1|left; lia]].
        injection H1 as <- <-. eapply Forall_impl; [|exact Ff]. intros a. apply fixed_still.
Qed.
Lemma values_still n : forall vs t out t', transformValues o n vs t = TOk out t' -> Forall (settledValue o) vs -> held t -> Forall (still n) out.
Proof.
  destruct n as [|n]. { intros [|v r] t out t' H _ _; cbn [transformValues] in H; [apply tret_ok in H as [<- _]; constructor|discriminate]. }
  induction vs as [|v r IH]; intros t out t' H Sv Ht; cbn [transformValues] in H; [apply tret_ok in H as [<- _]; constructor|].
  apply tbind_ok in H as (h & t1 & H1 & H). apply tbind_ok in H as (rs & t2 & H2 & H). apply tret_ok in H as [<- _]. inversion Sv; subst.
  apply Forall_app. split; [eapply value_still; eauto|]. eapply IH; [exact H2|auto|]. eapply held_eqm; [|exact Ht]. eapply keeps_eqm; [apply keeps_value|exact H1].
Qed.
Lemma values_again n vs : Forall (still n) vs -> forall t, blank t -> exists t', transformValues o n vs t = TOk vs t'.
Proof.
  induction 1 as [|v r Hv _ IH]; intros t Bt; [eexists; reflexivity|]. cbn [transformValues]. destruct (Hv t Bt) as (t1 & E1). rewrite (tbind_step _ _ _ _ _ _ _ E1).
  destruct (IH t1) as (t2 & E2); [eapply blank_eqm; [exact Bt|]; eapply keeps_eqm; [apply keeps_value|exact E1]|]. rewrite (tbind_step _ _ _ _ _ _ _ E2). eexists. reflexivity.
Qed.
Definition stillDecl (n : nat) (d : decl) : Prop := match d with DDecl _ _ vs _ => Forall (still n) vs | DRaw _ _ => True end.
Lemma fixed_settled vs : Forall (fixedValue o) vs -> Forall (settledValue o) vs.
Proof. apply Forall_impl. intros v H. left. exact H. Qed.
Lemma decls_still n : forall ds t out t', transformDecls o n ds t = TOk out t' -> Forall (settledDecl o) ds -> held t -> Forall (stillDecl n) out.
Proof.
  induction ds as [|d r IH]; intros t out t' H Sd Ht; cbn [transformDecls] in H; [apply tret_ok in H as [<- _]; constructor|].
  apply tbind_ok in H as (d' & t1 & H1 & H). apply tbind_ok in H as (rs & t2 & H2 & H). apply tret_ok in H as [<- _]. inversion Sd as [|? ? S1 S2]; subst.
  destruct d as [sp prop vs imp|sp v].
  - apply tbind_ok in H1 as (vs' & t3 & H3 & H1). apply tret_ok in H1 as [<- <-]. constructor.
    + cbn [stillDecl]. eapply values_still; [exact H3| |exact Ht]. cbn [settledDecl] in S1. destruct (hasPrefix _ prop); [apply fixed_settled|]; exact S1.
    + eapply IH; [exact H2|auto|]. eapply held_eqm; [|exact Ht]. eapply keeps_eqm; [apply keeps_values|exact H3].
  - apply tret_ok in H1 as [<- <-]. constructor; [exact I|]. eapply IH; eauto.
Qed.
Lemma decls_again n ds : Forall (stillDecl n) ds -> forall t, blank t -> exists t', transformDecls o n ds t = TOk ds t'.
Proof.
  induction 1 as [|d r Hd _ IH]; intros t Bt; [eexists; reflexivity|]. cbn [transformDecls].
  destruct d as [sp prop vs imp|sp v].
  - destruct (values_again n vs Hd t Bt) as (t1 & E1). destruct (IH t1) as (t2 & E2); [eapply blank_eqm; [exact Bt|]; eapply keeps_eqm; [apply keeps_values|exact E1]|].
    eexists. erewrite tbind_step; [|erewrite tbind_step; [reflexivity|exact E1]]. erewrite tbind_step; [|exact E2]. reflexivity.
  - destruct (IH t Bt) as (t2 & E2). eexists. erewrite tbind_step; [|reflexivity]. erewrite tbind_step; [|exact E2]. reflexivity.
Qed.

(** ** Rules *)
Lemma noLink name p : name <> B "any-link" -> isAnyLink (setPseudo name p) = false.
Proof. intros N. unfold setPseudo. destruct (isAnyLink p) eqn:E; [|exact E]. cbn [isAnyLink]. destruct (beq name (B "any-link")) eqn:F; auto. apply beq_eq in F. contradiction. Qed.
Lemma selector_again sp parts : Forall (fun p => isAnyLink p = false) parts -> transformSelector (sp, parts) = [(sp, parts)].
Proof.
  intros F. unfold transformSelector. assert (E : filter isAnyLink parts = []). { induction F as [|p r Hp _ IH]; [reflexivity|]. cbn [filter]. rewrite Hp. exact IH. }
  rewrite E. cbn. f_equal. f_equal. clear E. induction F as [|p r Hp _ IH]; [reflexivity|]. cbn [map]. rewrite IH. unfold setPseudo. rewrite Hp. reflexivity.
Qed.
Lemma selectors_again sels : transformSelectors o (transformSelectors o sels) = transformSelectors o sels.
Proof.
  unfold transformSelectors. destruct (o_anylink o); [|reflexivity].
  assert (X : Forall (fun s => transformSelector s = [s]) (flat_map transformSelector sels)).
  { rewrite Forall_forall. intros s Hs. apply in_flat_map in Hs as ([sp parts] & _ & J). unfold transformSelector in J. apply in_app_iff in J.
    destruct J as [J|[J|[]]]; [apply repeat_spec in J|]; subst s; apply selector_again; rewrite Forall_forall; intros p Hp; apply in_map_iff in Hp as (q & <- & _); apply noLink; discriminate. }
  induction X as [|s r E _ IH]; [reflexivity|]. cbn [flat_map]. rewrite E, IH. reflexivity.
Qed.
Lemma collect_id ds : forall t, (vis t = true -> Forall notDef ds) -> collectRoot ds t = TOk ds t.
Proof.
  induction ds as [|d r IH]; intros t Hb; [reflexivity|]. cbn [collectRoot].
  assert (E : collectRoot r t = TOk r t). { apply IH. intros V. specialize (Hb V). inversion Hb; auto. }
  assert (K : (r' <~ collectRoot r ;; tret (d :: r')) t = TOk (d :: r) t). { rewrite (tbind_step _ _ _ _ _ _ _ E). reflexivity. }
  destruct d as [sp prop vals imp|sp v]; [|exact K]. unfold vis in Hb. destruct (t_vars t) as [m|]; [|exact K]. destruct (hasPrefix (B "--") prop) eqn:Ep; [|exact K].
  specialize (Hb eq_refl). inversion Hb as [|? ? N _]; subst. unfold notDef, isCustomProp in N. congruence.
Qed.
Lemma scan_safe lsp sels ds t ds1 t1 ds' t' : scanRoot (PrSel (lsp, sels)) ds t = TOk ds1 t1 ->
  (vis t' = true -> scanned (PrSel (lsp, transformSelectors o sels)) = true -> Forall notDef ds') ->
  scanRoot (PrSel (lsp, transformSelectors o sels)) ds' t' = TOk ds' t'.
Proof.
  intros H N. assert (X : match transformSelectors o sels with (_, []) :: _ => match sels with (_, []) :: _ => True | _ => False end | _ => True end).
  { unfold transformSelectors. destruct (o_anylink o); [|destruct sels as [|[? []] ?]; auto]. destruct sels as [|[sp parts] r]; [exact I|]. cbn [flat_map]. unfold transformSelector.
    destruct parts as [|p ps]; [cbn; exact I|]. destruct (length (filter isAnyLink (p :: ps))); cbn; exact I. }
  assert (Y : existsb (fun s : selector => negb (length (snd s) =? 1)%nat) (transformSelectors o sels) = true -> existsb (fun s : selector => negb (length (snd s) =? 1)%nat) sels = true).
  { unfold transformSelectors. destruct (o_anylink o); auto. intros E. apply existsb_exists in E as (s & Hi & H1). apply in_flat_map in Hi as ([sp parts] & Hi & J). apply existsb_exists. exists (sp, parts). split; auto.
    unfold transformSelector in J. apply in_app_iff in J. cbn [snd]. destruct J as [J|[J|[]]]; [apply repeat_spec in J|]; subst s; cbn [snd] in H1; rewrite map_length in H1; exact H1. }
  unfold scanRoot, scanned in *. destruct (existsb _ (transformSelectors o sels)); [|reflexivity]. rewrite (Y eq_refl) in H. cbn [andb] in N.
  destruct (transformSelectors o sels) as [|[sp [|p ps]] r]; [reflexivity|destruct sels as [|[sp0 [|]] ?]; [contradiction|discriminate|contradiction]|].
  destruct (isRootPseudo p); [|reflexivity]. apply collect_id. intros V. apply N; auto.
Qed.
Lemma collect_held ds : forall t ds' t', collectRoot ds t = TOk ds' t' -> Forall (settledDecl o) ds -> held t -> Forall (settledDecl o) ds' /\ held t'.
Proof.
  induction ds as [|d r IH]; intros t ds' t' H Sd Ht; cbn [collectRoot] in H; [apply tret_ok in H as [<- <-]; auto|]. inversion Sd as [|? ? S1 S2]; subst.
  assert (K : (r' <~ collectRoot r ;; tret (d :: r')) t = TOk ds' t' -> Forall (settledDecl o) ds' /\ held t').
  { intros E. apply tbind_ok in E as (x & t1 & E1 & E). apply tret_ok in E as [<- <-]. destruct (IH _ _ _ E1 S2 Ht) as [X Y]. auto. }
  destruct d as [sp prop vals imp|sp v]; [|exact (K H)]. destruct (t_vars t) as [m|] eqn:Ev; [|exact (K H)]. destruct (hasPrefix (B "--") prop) eqn:Ep; [|exact (K H)].
  apply IH in H; auto. destruct Ht as [H1 H2]. split; [|exact H2]. unfold heldVars in *. rewrite Ev in H1. cbn [t_vars]. destruct H1 as [Op F]. split; auto. constructor; auto.
  cbn [settledDecl] in S1. rewrite Ep in S1. exact S1.
Qed.
Definition stillNode (n : nat) (nd : node) : Prop := forall m t, blank t -> (isImport nd = true -> plookup (nodeId nd) m = None) ->
  exists t', oneNode o (Some m) n nd t = TOk [nd] t' /\ eqm t t'.
Lemma rule_still n r t r' t' : transformRule o n r t = TOk r' t' -> Forall (settledDecl o) (r_decls r) -> held t ->
  held t' /\ match r' with Some r' => stillNode n (NRule r') | None => True end.
Proof.
  intros H Sd Ht. pose proof H as Hb. apply rule_bare in Hb as [_ Hb]. unfold transformRule in H. apply tbind_ok in H as (ds & t1 & H1 & H). destruct (r_prelude r) as [|[lsp sels]|] eqn:Ep; [discriminate| |].
  2: { apply tbind_ok in H as (? & ? & _ & H). discriminate. }
  apply tbind_ok in H as (ds' & t2 & H2 & H).
  assert (C : Forall (settledDecl o) ds /\ held t1). { apply scan_cases in H1 as [[_ H1]|(_ & -> & ->)]; [eapply collect_held; eauto|auto]. }
  destruct C as [C1 C2]. pose proof (keeps_eqm _ _ _ _ (keeps_decls o n ds) H2) as K. pose proof (decls_still n _ _ _ _ H2 C1 C2) as D.
  assert (Ht2 : held t2) by (eapply held_eqm; eauto). destruct ds' as [|d ds']; apply tret_ok in H as [<- <-]; [auto|]. split; [exact Ht2|].
  intros m s Bs _. cbn [oneNode]. cbn [bare r_prelude r_decls] in Hb.
  assert (V : vis s = vis t). { unfold vis. rewrite (blank_vars s Bs). destruct Ht as [Hv _]. unfold heldVars in Hv. destruct (t_vars t); [destruct Hv as [-> _]|rewrite Hv]; reflexivity. }
  destruct (decls_again n _ D s Bs) as (s' & E). pose proof (keeps_eqm _ _ _ _ (keeps_decls o n _) E) as Ks.
  exists s'. split; [|exact Ks].
  assert (Er : transformRule o n (mkRule (r_run r) (r_sp r) (PrSel (lsp, transformSelectors o sels)) (r_bsp r) (d :: ds')) s =
    TOk (Some (mkRule (r_run r) (r_sp r) (PrSel (lsp, transformSelectors o sels)) (r_bsp r) (d :: ds'))) s').
  { unfold transformRule. cbn [r_prelude r_decls]. rewrite <- V in Hb.
    rewrite (tbind_step _ _ _ _ _ _ _ (scan_safe _ _ _ _ _ _ _ _ H1 Hb)), (tbind_step _ _ _ _ _ _ _ E), selectors_again. reflexivity. }
  rewrite (tbind_step _ _ _ _ _ _ _ Er). reflexivity.
Qed.

(** ** Media queries *)
Lemma range_fixed p psp prop lv op rv t out t' : fixedPart o p \/ o_ranges o = true -> transformRange o p psp prop lv op rv t = TOk out t' -> Forall (fixedPart o) out.
Proof.
  intros Hp H. unfold transformRange in H. destruct (o_ranges o) eqn:Er; cbn [negb] in H.
  - apply tbind_ok in H as (l & t1 & H1 & H). apply tbind_ok in H as (r & t2 & H2 & H). apply tret_ok in H as [<- _]. apply Forall_app. split.
    + destruct (Ast.isNil lv); [apply tret_ok in H1 as [<- _]; constructor|]. destruct (leftDir op). apply tbind_ok in H1 as (v & t3 & _ & H1). apply tret_ok in H1 as [<- _]. repeat constructor.
    + destruct (Ast.isNil rv); [apply tret_ok in H2 as [<- _]; constructor|]. destruct (rightDir op). apply tbind_ok in H2 as (v & t3 & _ & H2). apply tret_ok in H2 as [<- _].
      apply Forall_app. split; [destruct (Ast.isNil lv); repeat constructor|repeat constructor].
  - apply tret_ok in H as [<- _]. destruct Hp as [Hp|Hp]; [auto|discriminate].
Qed.
Lemma parts_fixed : forall ps t out t', transformMqParts o ps t = TOk out t' -> held t -> Forall (fixedPart o) out.
Proof.
  induction ps as [|p r IH]; intros t out t' H Ht; cbn [transformMqParts] in H; [apply tret_ok in H as [<- _]; constructor|].
  apply tbind_ok in H as (h & t1 & H1 & H). apply tbind_ok in H as (rs & t2 & H2 & H). apply tret_ok in H as [<- _].
  assert (X : eqm t t1 /\ Forall (fixedPart o) h).
  { destruct p as [sp v|sp psp prop v|sp psp prop lv op rv].
    - apply tret_ok in H1 as [<- <-]. split; [apply eqm_refl|repeat constructor].
    - destruct (negb (Ast.isNil v) || negb (hasPrefix (B "--") prop)); [apply tret_ok in H1 as [<- <-]; split; [apply eqm_refl|repeat constructor]|].
      destruct Ht as [_ Hm]. unfold heldMedia in Hm. destruct (t_cmedia t) as [m|]; [|injection H1 as <- <-; split; [apply eqm_refl|repeat constructor]].
      destruct (lookup prop m) as [[qsp parts]|] eqn:El; injection H1 as <- <-; (split; [apply eqm_refl|]); [|repeat constructor].
      pose proof (lookup_Forall (fun kv => Forall (fixedPart o) (snd kv)) _ _ _ (proj2 Hm) El) as Y. exact Y.
    - split; [eapply keeps_eqm; [apply keeps_range|exact H1]|]. eapply range_fixed; [|exact H1]. cbn. destruct (o_ranges o); auto. }
  destruct X as [X1 X2]. apply Forall_app. split; auto. eapply IH; [exact H2|]. eapply held_eqm; eauto.
Qed.
Lemma parts_again ps : Forall (fixedPart o) ps -> forall t, blank t -> transformMqParts o ps t = TOk ps t.
Proof.
  induction 1 as [|p r Hp _ IH]; intros t Bt; [reflexivity|]. cbn [transformMqParts].
  assert (E : match p with
            | MPlain _ _ prop v =>
              if negb (Ast.isNil v) || negb (hasPrefix (B "--") prop) then tret [p] else
              fun t => match t_cmedia t with
                       | None => TOk [p] t
                       | Some m => match lookup prop m with
                                   | None => TOk [p] t
                                   | Some (_, parts) => TOk parts t
                                   end
                       end
            | MRange _ psp prop lv op rv => transformRange o p psp prop lv op rv
            | MIdent _ _ => tret [p]
            end t = TOk [p] t).
  { destruct p as [sp v|sp psp prop v|sp psp prop lv op rv]; [reflexivity| |cbn in Hp; unfold transformRange; rewrite Hp; reflexivity].
    destruct (negb (Ast.isNil v) || negb (hasPrefix (B "--") prop)); [reflexivity|]. rewrite (blank_cmedia t Bt). destruct (o_cmedia o); reflexivity. }
  rewrite (tbind_step _ _ _ _ _ _ _ E), (tbind_step _ _ _ _ _ _ _ (IH t Bt)). reflexivity.
Qed.
Lemma mqs_fixed : forall qs t out t', transformMqs o qs t = TOk out t' -> held t -> Forall (fun q => Forall (fixedPart o) (snd q)) out.
Proof.
  induction qs as [|[sp ps] r IH]; intros t out t' H Ht; cbn [transformMqs] in H; [apply tret_ok in H as [<- _]; constructor|].
  apply tbind_ok in H as (h & t1 & H1 & H). apply tbind_ok in H as (rs & t2 & H2 & H). apply tret_ok in H as [<- _].
  constructor; [eapply parts_fixed; eauto|]. eapply IH; [exact H2|]. eapply held_eqm; [|exact Ht]. eapply keeps_eqm; [apply keeps_mqparts|exact H1].
Qed.
Lemma mqs_again qs : Forall (fun q : mquery => Forall (fixedPart o) (snd q)) qs -> forall t, blank t -> transformMqs o qs t = TOk qs t.
Proof.
  induction 1 as [|[sp ps] r Hp _ IH]; intros t Bt; [reflexivity|]. cbn [transformMqs snd] in *.
  rewrite (tbind_step _ _ _ _ _ _ _ (parts_again ps Hp t Bt)), (tbind_step _ _ _ _ _ _ _ (IH t Bt)). reflexivity.
Qed.

(** ** Lists of rules *)
Lemma custom_held pres t u t' : addCustomMedia pres t = TOk u t' -> (forall q, In (APMq q) pres -> Forall (fixedPart o) (snd q)) -> held t -> held t'.
Proof.
  unfold addCustomMedia. intros H Hq [H1 H2]. unfold heldMedia in H2. destruct (t_cmedia t) as [m|] eqn:Em; [|inversion H; subst; split; [|unfold heldMedia; rewrite Em]; auto].
  assert (K : TOk tt t = TOk u t' -> held t'). { intros E. inversion E; subst. split; [auto|]. unfold heldMedia. rewrite Em. exact H2. }
  destruct pres as [|[] [|[] [|]]]; try exact (K H). inversion H; subst. split; [exact H1|]. unfold heldMedia. cbn [t_cmedia]. destruct H2 as [E F]. split; auto.
  constructor; auto. apply Hq. cbn. auto.
Qed.
Lemma nodes_still m n : forall ns t out t', transformNodes o (Some m) (S n) ns t = TOk out t' -> Forall (settledNode o) ns ->
  Forall (fun nd => isImport nd = true -> plookup (nodeId nd) m = None) ns -> held t -> Forall (stillNode n) out /\ held t'.
Proof.
  induction ns as [|nd r IH]; intros t out t' H Sn Nm Ht.
  - rewrite nodes_nil in H. apply tret_ok in H as [<- <-]. auto.
  - rewrite nodes_cons in H. apply tbind_ok in H as (h & t1 & H1 & H). apply tbind_ok in H as (rs & t2 & H2 & H). apply tret_ok in H as [<- <-].
    inversion Sn as [|? ? S1 S2]; subst. inversion Nm as [|? ? N1 N2]; subst.
    assert (X : Forall (stillNode n) h /\ held t1).
    { destruct nd as [r0|a]; cbn [oneNode] in H1.
      - apply tbind_ok in H1 as (x & t3 & H1 & H3). apply tret_ok in H3 as [<- <-]. apply rule_still in H1 as [X Y]; auto. destruct x; auto.
      - cbn [isImport nodeId settledNode] in *. destruct (beq (ar_name a) (B "import")) eqn:Ei.
        + rewrite (N1 eq_refl) in H1. apply tret_ok in H1 as [<- <-]. split; auto. repeat constructor. intros m2 s Bs Hi. cbn [oneNode isImport nodeId] in *. rewrite Ei in *. rewrite (Hi eq_refl).
          exists s. split; [reflexivity|apply eqm_refl].
        + destruct (beq (ar_name a) (B "custom-media")) eqn:Ec.
          * apply tbind_ok in H1 as (u & t3 & H3 & H1). apply tret_ok in H1 as [<- <-]. split; [constructor|]. apply beq_eq in Ec. eapply custom_held; eauto.
          * destruct (beq (ar_name a) (B "media")) eqn:Emd.
            -- destruct (ar_preludes a) as [|[| |[lsp qs]| |] pres]; try discriminate. apply tbind_ok in H1 as (q & t3 & H3 & H1). apply tret_ok in H1 as [<- <-].
               pose proof (keeps_eqm _ _ _ _ (keeps_mqs o qs) H3) as Kq. split; [|eapply held_eqm; eauto]. apply mqs_fixed in H3; auto. repeat constructor. intros m2 s Bs _. cbn [oneNode ar_name ar_preludes].
               rewrite Ei, Ec, Emd. exists s. split; [|apply eqm_refl]. rewrite (tbind_step _ _ _ _ _ _ _ (mqs_again _ H3 s Bs)). reflexivity.
            -- apply tret_ok in H1 as [<- <-]. split; auto. repeat constructor. intros m2 s Bs _. cbn [oneNode]. rewrite Ei, Ec, Emd. exists s. split; [reflexivity|apply eqm_refl]. }
    destruct X as [X1 X2]. destruct (IH _ _ _ H2 S2 N2 X2) as [Y1 Y2]. split; [apply Forall_app|]; auto.
Qed.
Lemma nodes_again m n : forall ns t, Forall (stillNode n) ns -> Forall (fun nd => isImport nd = true -> plookup (nodeId nd) m = None) ns -> blank t ->
  exists t', transformNodes o (Some m) (S n) ns t = TOk ns t' /\ eqm t t'.
Proof.
  induction ns as [|nd r IH]; intros t Sn Nm Bt; [exists t; split; [reflexivity|apply eqm_refl]|]. inversion Sn as [|? ? S1 S2]; subst. inversion Nm as [|? ? N1 N2]; subst.
  destruct (S1 m t Bt N1) as (t1 & E1 & K1). destruct (IH t1 S2 N2 (blank_eqm _ _ Bt K1)) as (t2 & E2 & K2).
  exists t2. split; [|eapply eqm_trans; eauto]. rewrite nodes_cons, (tbind_step _ _ _ _ _ _ _ E1), (tbind_step _ _ _ _ _ _ _ E2). reflexivity.
Qed.
Lemma init_held m : held (initState o m).
Proof. unfold held, heldVars, heldMedia, initState. cbn. destruct (o_props o), (o_cmedia o); repeat split; constructor. Qed.
Lemma still_more n k nd : (n <= k)%nat -> stillNode n nd -> stillNode k nd.
Proof.
  intros L Hs m t Bt Hi. destruct (Hs [] t Bt ltac:(reflexivity)) as (t' & E & K).
  destruct (le_one o [] m n k nd L ltac:(intros Ei; split; [reflexivity|exact (Hi Ei)]) _ _ (eqm_refl t) _ _ E) as (u & E2 & K2). exists u. split; [exact E2|]. eapply eqm_trans; eauto.
Qed.
End WithFloats.
