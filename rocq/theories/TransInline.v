(** Inlining an import is transforming the sheet with the import replaced: C32. *)
From Verif Require Import Bytes Utf8 Source Lexer Ast AstInd BytesFacts Transformer TransSpec TransProofs TransMedia.
Open Scope Z_scope.

Definition eqm (t u : tstate) : Prop := t_vars t = t_vars u /\ t_cmedia t = t_cmedia u.
(** [m2] answers whatever [m1] answers, from any state with the same maps. *)
Definition le {A} (m1 m2 : TM A) : Prop := forall t1 t2, eqm t1 t2 -> forall a u1, m1 t1 = TOk a u1 ->
  exists u2, m2 t2 = TOk a u2 /\ eqm u1 u2.
Lemma le_ret : forall A (a : A), le (tret a) (tret a).
Proof. intros A a t1 t2 E x u1 H. apply tret_ok in H as [<- <-]. exists t2. auto. Qed.
Lemma le_crash : forall A (m : TM A), le tcrash m.
Proof. intros A m t1 t2 E x u1 H. discriminate. Qed.
Lemma le_timeout : forall A (m : TM A), le ttimeout m.
Proof. intros A m t1 t2 E x u1 H. discriminate. Qed.
Lemma le_bind : forall A C (m1 m2 : TM A) (k1 k2 : A -> TM C), le m1 m2 -> (forall a, le (k1 a) (k2 a)) ->
  le (tbind m1 k1) (tbind m2 k2).
Proof.
  intros A C m1 m2 k1 k2 Hm Hk t1 t2 E x u1 H. apply tbind_ok in H as (a & t3 & H1 & H2).
  destruct (Hm _ _ E _ _ H1) as (t4 & H3 & E2). destruct (Hk a _ _ E2 _ _ H2) as (u2 & H4 & E3).
  exists u2. split; [|auto]. rewrite (tbind_step _ _ _ _ _ _ _ H3). exact H4.
Qed.
Lemma le_report : forall r, le (treport r) (treport r).
Proof. intros r t1 t2 [E1 E2] x u1 H. inversion H; subst. eexists. split; [reflexivity|]. split; auto. Qed.
Lemma le_addError : forall w v m, le (addErrorAt w v m) (addErrorAt w v m).
Proof. intros w v m. unfold addErrorAt. destruct (valueSpan v); [apply le_report|apply le_crash]. Qed.

Ltac le1 := first
  [ apply le_ret | apply le_crash | apply le_timeout | apply le_report | apply le_addError | assumption
  | apply le_bind; [|intros]
  | match goal with
    | |- le (if ?b then _ else _) _ => destruct b
    | |- le (match ?b with _ => _ end) _ => destruct b
    end ].
Ltac les := repeat le1.

Section L.
Context {FO : FloatOps}.
Variable o : topts.
Lemma le_mathResult : forall v r u, le (mathResult v r u) (mathResult v r u).
Proof. intros v r u. unfold mathResult. les. Qed.
Lemma le_combine : forall l r op, le (combine l r op) (combine l r op).
Proof. intros l r op. unfold combine. repeat first [apply le_mathResult|le1]. Qed.
Lemma le_reduce : forall v, le (reduceSide v) (reduceSide v).
Proof. intros v. induction v using value_ind'; cbn [reduceSide]; repeat first [apply le_combine|le1]. Qed.
Lemma le_eval : forall l r op, le (evaluateMathExpression l r op) (evaluateMathExpression l r op).
Proof. intros l r op. unfold evaluateMathExpression. repeat first [apply le_combine|apply le_reduce|le1]. Qed.
Lemma le_subst : forall sp n a, le (substVar sp n a) (substVar sp n a).
Proof.
  intros sp n a. unfold substVar. destruct (negb _); [apply le_ret|]. intros t1 t2 E x u1 H.
  pose proof E as [E1 E2]. rewrite <- E1.
  destruct (t_vars t1) as [m|]; [|inversion H; subst; eauto].
  assert (R : forall r, (_ <~ treport r ;; tret [VFunc sp n a]) t1 = TOk x u1 ->
    exists u2, (_ <~ treport r ;; tret [VFunc sp n a]) t2 = TOk x u2 /\ eqm u1 u2).
  { intros r. apply (le_bind _ _ _ _ _ _ (le_report r) (fun _ => le_ret _ _) _ _ E). }
  destruct a as [|a0 rest]; [apply R; exact H|]. destruct a0; try (apply R; exact H).
  destruct (lookup _ m); [inversion H; subst; eauto|]. destruct (_ <? _)%nat; [inversion H; subst; eauto|apply R; exact H].
Qed.
Lemma le_value : forall n k v, (n <= k)%nat -> le (transformValue o n v) (transformValue o k v).
Proof.
  intros n. induction n as [|n IH]; intros k v Hk; [apply le_timeout|]. destruct k as [|k]; [lia|].
  assert (IH' : forall v, le (transformValue o n v) (transformValue o k v)) by (intros; apply IH; lia).
  cbn [transformValue]. destruct v; try apply le_ret.
  repeat first [apply le_subst|apply IH'|apply le_eval|le1].
Qed.
Lemma le_values : forall n k vs, (n <= k)%nat -> le (transformValues o n vs) (transformValues o k vs).
Proof. intros n k vs H. induction vs; cbn [transformValues]; repeat first [apply le_value; exact H|le1]. Qed.
Lemma le_decls : forall n k ds, (n <= k)%nat -> le (transformDecls o n ds) (transformDecls o k ds).
Proof. intros n k ds H. induction ds; cbn [transformDecls]; repeat first [apply le_values; exact H|le1]. Qed.
Lemma le_collect : forall ds, le (collectRoot ds) (collectRoot ds).
Proof.
  intros ds. induction ds as [|d r IH]; cbn [collectRoot]; [apply le_ret|].
  assert (K : le (r' <~ collectRoot r ;; tret (d :: r')) (r' <~ collectRoot r ;; tret (d :: r'))) by les.
  destruct d as [sp prop vals imp|]; [|exact K]. intros t1 t2 E x u1 H. pose proof E as [E1 E2]. rewrite <- E1.
  destruct (t_vars t1) as [m|]; [|apply (K _ _ E _ _ H)].
  destruct (hasPrefix (B "--") prop); [|apply (K _ _ E _ _ H)].
  eapply IH; [|exact H]. split; cbn; auto.
Qed.
Lemma le_scan : forall p ds, le (scanRoot p ds) (scanRoot p ds).
Proof. intros p ds. unfold scanRoot. repeat first [apply le_collect|le1]. Qed.
Lemma le_rule : forall n k r, (n <= k)%nat -> le (transformRule o n r) (transformRule o k r).
Proof. intros n k r H. unfold transformRule. repeat first [apply le_scan|apply le_decls; exact H|le1]. Qed.
Lemma le_addTo : forall v d, le (addToValue v d) (addToValue v d).
Proof. intros v d. unfold addToValue. les. Qed.
Lemma le_parts : forall ps, le (transformMqParts o ps) (transformMqParts o ps).
Proof.
  intros ps. induction ps as [|p r IH]; [apply le_ret|]. rewrite (mqparts_cons o).
  apply le_bind; [|intros; les]. destruct p as [|sp psp prop v|]; cbn [onePart]; [apply le_ret| |].
  - destruct (_ || _); [apply le_ret|]. intros t1 t2 E x u1 H. pose proof E as [E1 E2]. rewrite <- E2.
    destruct (t_cmedia t1); [|inversion H; subst; eauto]. destruct (lookup prop l) as [[? ?]|]; inversion H; subst; eauto.
  - unfold transformRange. repeat first [apply le_addTo|le1].
Qed.
Lemma le_mqs : forall qs, le (transformMqs o qs) (transformMqs o qs).
Proof. intros qs. induction qs as [|[sp ps] r IH]; cbn [transformMqs]; repeat first [apply le_parts|le1]. Qed.
Lemma le_addCustom : forall a, le (addCustomMedia a) (addCustomMedia a).
Proof.
  intros a t1 t2 E x u1 H. pose proof E as [E1 E2]. unfold addCustomMedia in *. rewrite <- E2.
  destruct (t_cmedia t1) eqn:Ec; [|inversion H; subst; eauto].
  destruct a as [|[] [|[] [|]]]; inversion H; subst; eexists; (split; [reflexivity|]); split; cbn; auto; congruence.
Qed.

(** A node that is not replaced is treated alike whatever the replacement map. *)
Lemma le_one : forall m1 m2 n k nd, (n <= k)%nat -> 
  (isImport nd = true -> plookup (nodeId nd) m1 = None /\ plookup (nodeId nd) m2 = None) ->
  le (oneNode o (Some m1) n nd) (oneNode o (Some m2) k nd).
Proof.
  intros m1 m2 n k nd H Hi. destruct nd as [r|a]; cbn [oneNode].
  - repeat first [apply le_rule; exact H|le1].
  - cbn [isImport nodeId] in Hi. destruct (beq (ar_name a) (B "import")).
    + destruct (Hi eq_refl) as [-> ->]. apply le_ret.
    + repeat first [apply le_addCustom|apply le_mqs|le1].
Qed.
Lemma le_nodes_fuel : forall m n k ns, (n <= k)%nat -> le (transformNodes o (Some m) n ns) (transformNodes o (Some m) k ns).
Proof.
  intros m n. induction n as [|n IHn]; intros k ns H; [apply le_timeout|]. destruct k as [|k]; [lia|].
  induction ns as [|nd r IH]; [rewrite !nodes_nil; apply le_ret|]. rewrite !nodes_cons.
  apply le_bind; [|intros; apply le_bind; [exact IH|intros; apply le_ret]].
  destruct (isImport nd) eqn:Ei; [|apply le_one; [lia|congruence]].
  destruct nd as [|a]; [discriminate|]. cbn [oneNode isImport] in *. rewrite Ei.
  destruct (plookup (atRuleId a) m) as [imp|] eqn:El; [|apply le_ret]. apply le_bind; [les|]. intros. apply IHn. lia.
Qed.
Lemma nodes_flat : forall m n ns t out t', transformNodes o (Some m) n ns t = TOk out t' ->
  exists flat, flattens (fun p => plookup p m) ns flat /\
    forall t2, eqm t t2 -> exists t2', transformNodes o (Some []) n flat t2 = TOk out t2' /\ eqm t' t2'.
Proof.
  intros m n. induction n as [|n IHn]; intros ns; [discriminate|]. induction ns as [|nd r IH]; intros t out t' H.
  - exists []. split; [constructor|]. intros t2 E. rewrite nodes_nil in *. apply tret_ok in H as [<- <-]. exists t2. auto.
  - rewrite nodes_cons in H. apply tbind_ok in H as (h & t1 & H1 & H). apply tbind_ok in H as (rs & t2 & H2 & H).
    apply tret_ok in H as [<- <-]. destruct (IH _ _ _ H2) as (fr & F1 & F2).
    assert (C : (exists a imp, nd = NAt a /\ ar_name a = B "import" /\ plookup (atRuleId a) m = Some imp) \/
                (isImport nd = true -> plookup (nodeId nd) m = None)).
    { destruct nd as [r0|a]; [right; discriminate|]. cbn [isImport nodeId].
      destruct (beq (ar_name a) (B "import")) eqn:Ei; [|right; discriminate].
      destruct (plookup (atRuleId a) m) eqn:El; [left; exists a, l; repeat split; auto; apply beq_eq; auto|right; auto]. }
    destruct C as [(a & imp & -> & Hn & Hl)|Hnone].
    + cbn [oneNode] in H1. rewrite Hn in H1. change (beq (B "import") (B "import")) with true in H1. cbv iota in H1.
      rewrite Hl in H1. apply tbind_ok in H1 as (u & t3 & H3 & H1).
      assert (E3 : eqm t3 t). { destruct (_ <? _)%nat; [|apply tret_ok in H3 as [_ <-]; split; auto]. inversion H3; subst. split; auto. }
      destruct (IHn _ _ _ _ H1) as (fi & F3 & F4). exists (fi ++ fr).
      split; [apply fl_import with (imported := imp); auto|].
      intros t4 E4. destruct (F4 t4) as (t5 & H5 & E5); [destruct E3, E4; split; congruence|].
      destruct (F2 t5 E5) as (t6 & H6 & E6).
      assert (H5' : exists t5', transformNodes o (Some []) (S n) fi t4 = TOk h t5' /\ eqm t5 t5').
      { eapply le_nodes_fuel; [|split; reflexivity|exact H5]. lia. }
      destruct H5' as (t5' & H5' & E5'). destruct (F2 t5') as (t6' & H6' & E6'); [destruct E5, E5'; split; congruence|].
      exists t6'. split; [|exact E6']. apply nodes_app. exists h, t5', rs. auto.
    + exists (nd :: fr). split; [apply fl_other; auto|]. intros t4 E4.
      destruct (le_one m [] n n nd (le_n _) (fun X => conj (Hnone X) eq_refl) _ _ E4 _ _ H1) as (t5 & H5 & E5).
      destruct (F2 t5 E5) as (t6 & H6 & E6). exists t6. split; [|exact E6].
      rewrite nodes_cons, (tbind_step _ _ _ _ _ _ _ H5), (tbind_step _ _ _ _ _ _ _ H6). reflexivity.
Qed.
End L.
