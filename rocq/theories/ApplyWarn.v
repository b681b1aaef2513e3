(** Reports are never taken back, so a condition that gets lost is reported. *)
From Verif Require Import Bytes Utf8 Source Lexer Ast AstInd BytesFacts Transformer TransSpec TransProofs TransMedia ApplySpec.

Definition grows {A} (m : TM A) : Prop := forall t a t', m t = TOk a t' -> incl (t_reports t) (t_reports t').
Lemma grows_ret A (a : A) : grows (tret a).
Proof. intros t x t' H. apply tret_ok in H as [_ <-]. apply incl_refl. Qed.
Lemma grows_crash A : grows (@tcrash A). Proof. intros t x t' H. discriminate H. Qed.
Lemma grows_timeout A : grows (@ttimeout A). Proof. intros t x t' H. discriminate H. Qed.
Lemma grows_bind A C (m : TM A) (k : A -> TM C) : grows m -> (forall a, grows (k a)) -> grows (tbind m k).
Proof. intros Hm Hk t x t' H. apply tbind_ok in H as (a & t1 & H1 & H2). eapply incl_tran; [eapply Hm; eauto|eapply Hk; eauto]. Qed.
Lemma grows_report r : grows (treport r).
Proof. intros t x t' H. injection H as _ <-. cbn. apply incl_appl, incl_refl. Qed.
Lemma grows_addError w v m : grows (addErrorAt w v m).
Proof. unfold addErrorAt. destruct (valueSpan v); [apply grows_report|apply grows_crash]. Qed.
Ltac gr1 := first
  [ apply grows_ret | apply grows_crash | apply grows_timeout | apply grows_report | apply grows_addError | assumption
  | apply grows_bind; [|intros]
  | match goal with
    | |- grows (if ?b then _ else _) => destruct b
    | |- grows (match ?b with _ => _ end) => destruct b
    end ].
Ltac grs := repeat gr1.

Section G.
Context {FO : FloatOps}.
Variable o : topts.
Lemma grows_mathResult v r u : grows (mathResult v r u). Proof. unfold mathResult. grs. Qed.
Lemma grows_combine l r op : grows (combine l r op). Proof. unfold combine. repeat first [apply grows_mathResult|gr1]. Qed.
Lemma grows_reduce v : grows (reduceSide v).
Proof. induction v using value_ind'; cbn [reduceSide]; repeat first [apply grows_combine|gr1]. Qed.
Lemma grows_eval l r op : grows (evaluateMathExpression l r op).
Proof. unfold evaluateMathExpression. repeat first [apply grows_combine|apply grows_reduce|gr1]. Qed.
Lemma grows_subst sp n a : grows (substVar sp n a).
Proof.
  unfold substVar. destruct (negb _); [apply grows_ret|]. intros t x t' H. destruct (t_vars t) as [m|]; [|injection H as _ <-; apply incl_refl].
  assert (R : forall r, (_ <~ treport r ;; tret [VFunc sp n a]) t = TOk x t' -> incl (t_reports t) (t_reports t')). { intros r. apply (grows_bind _ _ _ _ (grows_report r) (fun _ => grows_ret _ _)). }
  destruct a as [|a0 rest]; [eapply R; exact H|]. destruct a0; try (eapply R; exact H).
  destruct (lookup _ m); [injection H as _ <-; apply incl_refl|]. destruct (_ <? _)%nat; [injection H as _ <-; apply incl_refl|eapply R; exact H].
Qed.
Lemma grows_value n : forall v, grows (transformValue o n v).
Proof. induction n as [|n IH]; intros v; [apply grows_timeout|]. cbn [transformValue]. destruct v; try apply grows_ret. repeat first [apply grows_subst|apply IH|apply grows_eval|gr1]. Qed.
Lemma grows_values n vs : grows (transformValues o n vs).
Proof. induction vs; cbn [transformValues]; repeat first [apply grows_value|gr1]. Qed.
Lemma grows_decls n ds : grows (transformDecls o n ds).
Proof. induction ds; cbn [transformDecls]; repeat first [apply grows_values|gr1]. Qed.
Lemma grows_collect ds : grows (collectRoot ds).
Proof.
  induction ds as [|d r IH]; cbn [collectRoot]; [apply grows_ret|].
  assert (K : grows (r' <~ collectRoot r ;; tret (d :: r'))) by grs.
  destruct d as [sp prop vals imp|]; [|exact K]. intros t x t' H. destruct (t_vars t) as [m|]; [|apply (K _ _ _ H)].
  destruct (hasPrefix (B "--") prop); [|apply (K _ _ _ H)]. apply IH in H. exact H.
Qed.
Lemma grows_rule n r : grows (transformRule o n r).
Proof. unfold transformRule, scanRoot. repeat first [apply grows_collect|apply grows_decls|gr1]. Qed.
Lemma grows_parts ps : grows (transformMqParts o ps).
Proof.
  induction ps as [|p r IH]; [apply grows_ret|]. rewrite (mqparts_cons o). apply grows_bind; [|intros; grs]. destruct p as [|sp psp prop v|]; cbn [onePart]; [apply grows_ret| |].
  - destruct (_ || _); [apply grows_ret|]. intros t x t' H. destruct (t_cmedia t); [|injection H as _ <-; apply incl_refl]. destruct (lookup prop l) as [[? ?]|]; injection H as _ <-; apply incl_refl.
  - unfold transformRange, addToValue. grs.
Qed.
Lemma grows_mqs qs : grows (transformMqs o qs).
Proof. induction qs as [|[sp ps] r IH]; cbn [transformMqs]; repeat first [apply grows_parts|gr1]. Qed.
Lemma grows_custom a : grows (addCustomMedia a).
Proof. intros t x t' H. unfold addCustomMedia in H. destruct (t_cmedia t); [|injection H as _ <-; apply incl_refl]. destruct a as [|[] [|[] [|]]]; injection H as _ <-; apply incl_refl. Qed.
Lemma grows_nodes repl n : forall ns, grows (transformNodes o repl n ns).
Proof.
  induction n as [|n IHn]; intros ns; [apply grows_timeout|]. induction ns as [|nd ns IH]; [rewrite nodes_nil; apply grows_ret|]. rewrite nodes_cons.
  apply grows_bind; [|intros; apply grows_bind; [exact IH|intros; apply grows_ret]]. destruct nd as [r|a]; cbn [oneNode]; repeat first [apply grows_rule|apply grows_custom|apply grows_mqs|apply IHn|gr1].
Qed.
Definition conditionMsg : bytes := B "@import transform does not yet support @supports or media queries".
Lemma nodes_warn m n : forall ns t out t' a nds', transformNodes o (Some m) n ns t = TOk out t' -> In (NAt a) ns -> ar_name a = B "import" -> plookup (atRuleId a) m = Some nds' ->
  ~ unconditional a -> In (mkReport true (ar_sp a) conditionMsg) (t_reports t').
Proof.
  destruct n as [|n]; [discriminate|]. intros ns. induction ns as [|nd ns IH]; intros t out t' a nds' H I Na Hl Hu; [destruct I|].
  rewrite nodes_cons in H. apply tbind_ok in H as (h & t1 & K1 & H). apply tbind_ok in H as (rs & t2 & K2 & H). apply tret_ok in H as [_ <-].
  destruct I as [-> | I]; [|eapply IH; eauto]. apply (grows_nodes (Some m) (S n) ns _ _ _ K2). cbn [oneNode] in K1. rewrite Na in K1. change (beq (B "import") (B "import")) with true in K1. cbv iota in K1.
  rewrite Hl in K1. apply tbind_ok in K1 as (u & t3 & K3 & K1). apply (grows_nodes (Some m) n _ _ _ _ K1). unfold unconditional in Hu.
  destruct (Nat.ltb_spec 1 (length (ar_preludes a))); [|lia]. injection K3 as _ <-. cbn. apply in_or_app. right. left. reflexivity.
Qed.
Lemma C65_warn_lemma m n ss ss' t a nds' : transform o (Some m) n ss = TOk ss' t -> In (NAt a) (ss_nodes ss) -> ar_name a = B "import" -> plookup (atRuleId a) m = Some nds' ->
  ~ unconditional a -> In (mkReport true (ar_sp a) conditionMsg) (t_reports t).
Proof.
  intros H. unfold transform in H. destruct (transformNodes _ _ _ _ _) as [ns t1| |] eqn:E; try discriminate H. injection H as <- <-. eapply nodes_warn; eauto.
Qed.
End G.
