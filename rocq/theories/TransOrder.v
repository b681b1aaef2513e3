(** Order of nodes, absence of crashes, inlining: C29, C31, C32. *)
From Verif Require Import Bytes Utf8 Source Lexer Ast AstInd BytesFacts Transformer TransSpec TransProofs TransMedia.
Open Scope Z_scope.

(** ** Sublists *)
Lemma sub_refl : forall A (l : list A), sub l l.
Proof. intros A l. induction l; constructor; auto. Qed.
Lemma sub_nil_l : forall A (l : list A), sub [] l.
Proof. intros A l. induction l; constructor; auto. Qed.
Lemma sub_app : forall A (a b c d : list A), sub a b -> sub c d -> sub (a ++ c) (b ++ d).
Proof. intros A a b c d H K. induction H; cbn [app]; [exact K|constructor; auto|constructor; auto]. Qed.

Section O.
Context {FO : FloatOps}.
Variable o : topts.

Lemma rule_origin : forall n r t r' t', transformRule o n r t = TOk (Some r') t' -> r_run r' = r_run r /\ r_sp r' = r_sp r.
Proof.
  intros n r t r' t' H. unfold transformRule in H. apply tbind_ok in H as (ds & t1 & _ & H).
  destruct (r_prelude r) as [|[lsp sels]|]; [discriminate| |].
  - apply tbind_ok in H as (ds' & t2 & _ & H). destruct ds'; apply tret_ok in H as [E _]; [discriminate|].
    inversion E; subst. auto.
  - apply tbind_ok in H as (? & ? & _ & H). discriminate.
Qed.
Lemma nodes_order_none : forall n ns t out t', transformNodes o None n ns t = TOk out t' ->
  sub (map origin out) (map origin (twiceImports ns)).
Proof.
  intros [|n] ns; [discriminate|]. induction ns as [|nd r IH]; intros t out t' H.
  - rewrite nodes_nil in H. apply tret_ok in H as [<- _]. constructor.
  - rewrite nodes_cons in H. apply tbind_ok in H as (h & t1 & H1 & H). apply tbind_ok in H as (rs & t2 & H2 & H).
    apply tret_ok in H as [<- _]. unfold twiceImports. cbn [flat_map]. rewrite !map_app. apply sub_app; [|eapply IH; eauto].
    destruct nd as [r0|a]; cbn [oneNode isImport] in *.
    + apply tbind_ok in H1 as (x & t3 & H1 & H3). apply tret_ok in H3 as [<- _]. destruct x as [r'|]; [|apply sub_nil_l].
      apply rule_origin in H1 as [E1 E2]. cbn [map origin]. rewrite E1, E2. apply sub_refl.
    + destruct (beq (ar_name a) (B "import")); [apply tret_ok in H1 as [<- _]; apply sub_refl|].
      destruct (beq (ar_name a) (B "custom-media")).
      { apply tbind_ok in H1 as (? & ? & _ & H1). apply tret_ok in H1 as [<- _]. apply sub_nil_l. }
      destruct (beq (ar_name a) (B "media")); [|apply tret_ok in H1 as [<- _]; apply sub_refl].
      destruct (ar_preludes a) as [|[| |[lsp qs]| |] pres]; try discriminate.
      apply tbind_ok in H1 as (? & ? & _ & H1). apply tret_ok in H1 as [<- _]. apply sub_refl.
Qed.
Lemma nodes_order : forall m n ns t out t', transformNodes o (Some m) n ns t = TOk out t' ->
  exists flat, flattens (fun p => plookup p m) ns flat /\ sub (map origin out) (map origin flat).
Proof.
  intros m n. induction n as [|n IHn]; intros ns; [discriminate|]. induction ns as [|nd r IH]; intros t out t' H.
  - rewrite nodes_nil in H. apply tret_ok in H as [<- _]. exists []. split; constructor.
  - rewrite nodes_cons in H. apply tbind_ok in H as (h & t1 & H1 & H). apply tbind_ok in H as (rs & t2 & H2 & H).
    apply tret_ok in H as [<- _]. destruct (IH _ _ _ H2) as (fr & F1 & F2).
    destruct nd as [r0|a]; cbn [oneNode] in H1.
    + exists (NRule r0 :: fr). split; [apply fl_other; [discriminate|auto]|].
      apply tbind_ok in H1 as (x & t3 & H1 & H3). apply tret_ok in H3 as [<- _]. rewrite map_app.
      apply (sub_app _ _ [origin (NRule r0)]); [|exact F2]. destruct x as [r'|]; [|apply sub_nil_l].
      apply rule_origin in H1 as [E1 E2]. cbn [map origin]. rewrite E1, E2. apply sub_refl.
    + destruct (beq (ar_name a) (B "import")) eqn:Ei.
      * destruct (plookup (atRuleId a) m) as [imp|] eqn:El.
        { apply tbind_ok in H1 as (? & t3 & _ & H1). apply IHn in H1 as (fi & F3 & F4).
          exists (fi ++ fr). split; [apply fl_import with (imported := imp); auto; apply beq_eq; auto|].
          rewrite !map_app. apply sub_app; auto. }
        { apply tret_ok in H1 as [<- _]. exists (NAt a :: fr). split; [apply fl_other; auto|].
          cbn [app map]. constructor. auto. }
      * exists (NAt a :: fr). split; [apply fl_other; [intros K; cbn [isImport] in K; congruence|auto]|].
        rewrite map_app. apply (sub_app _ _ [origin (NAt a)]); [|exact F2].
        destruct (beq (ar_name a) (B "custom-media")).
        { apply tbind_ok in H1 as (? & ? & _ & H1). apply tret_ok in H1 as [<- _]. apply sub_nil_l. }
        destruct (beq (ar_name a) (B "media")); [|apply tret_ok in H1 as [<- _]; apply sub_refl].
        destruct (ar_preludes a) as [|[| |[lsp qs]| |] pres]; try discriminate.
        apply tbind_ok in H1 as (? & ? & _ & H1). apply tret_ok in H1 as [<- _]. apply sub_refl.
Qed.

(** ** Media blocks *)
Lemma media_block : forall repl n pre a post t out t', ar_name a = B "media" ->
  transformNodes o repl n (pre ++ NAt a :: post) t = TOk out t' ->
  exists opre a' opost, out = opre ++ NAt a' :: opost /\ origin (NAt a') = origin (NAt a) /\ ar_name a' = B "media" /\ ar_block a' = ar_block a.
Proof.
  intros repl [|n] pre a post t out t' Hn H; [discriminate|].
  apply nodes_app in H as (oa & t1 & ob & _ & H & ->). rewrite nodes_cons in H.
  apply tbind_ok in H as (h & t2 & H1 & H). apply tbind_ok in H as (rs & t3 & _ & H). apply tret_ok in H as [<- _].
  cbn [oneNode] in H1. rewrite Hn in H1. change (beq (B "media") (B "import")) with false in H1.
  change (beq (B "media") (B "custom-media")) with false in H1. change (beq (B "media") (B "media")) with true in H1.
  cbv iota in H1. destruct (ar_preludes a) as [|[| |[lsp qs]| |] pres]; try discriminate.
  apply tbind_ok in H1 as (? & ? & _ & H1). apply tret_ok in H1 as [<- _].
  exists oa. eexists. exists rs. split; [reflexivity|]. cbn [origin ar_run ar_sp ar_name ar_block]. auto.
Qed.

(** ** No crash *)
Definition vOk (v : value) : Prop := valueOk v /\ topOk v.
Definition varsOk (t : tstate) : Prop :=
  match t_vars t with Some m => forall x vs, lookup x m = Some vs -> Forall vOk vs | None => True end.
Lemma varsOk_keep : forall t t', t_vars t' = t_vars t -> varsOk t -> varsOk t'.
Proof. intros t t' E H. unfold varsOk in *. rewrite E. exact H. Qed.

Definition allOk := fix all (l : list value) : Prop := match l with [] => True | a :: r => valueOk a /\ all r end.
Lemma allOk_Forall : forall l, allOk l <-> Forall valueOk l.
Proof. induction l as [|a r IH]; cbn [allOk]; [split; constructor|]. rewrite Forall_cons_iff, IH. reflexivity. Qed.

Definition total {A} (m : TM A) (t : tstate) (P : A -> Prop) : Prop := exists a t', m t = TOk a t' /\ P a.
Lemma total_bind : forall A C (m : TM A) (k : A -> TM C) t (P : A -> Prop) Q,
  total m t P -> (forall a t1, m t = TOk a t1 -> P a -> total (k a) t1 Q) -> total (tbind m k) t Q.
Proof.
  intros A C m k t P Q (a & t1 & H & HP) K. destruct (K a t1 H HP) as (c & t2 & H2 & HQ).
  exists c, t2. rewrite (tbind_step _ _ _ _ _ _ _ H). auto.
Qed.
Lemma total_ret : forall A (a : A) t (P : A -> Prop), P a -> total (tret a) t P.
Proof. intros A a t P H. exists a, t. auto. Qed.
Lemma total_report : forall r t (P : unit -> Prop), P tt -> total (treport r) t P.
Proof. intros r t P H. eexists; eexists; split; [reflexivity|auto]. Qed.
Lemma total_addError : forall w v msg t (P : unit -> Prop), v <> VNil -> P tt -> total (addErrorAt w v msg) t P.
Proof.
  intros w v msg t P Hv HP. unfold addErrorAt. destruct v; try congruence; cbn [valueSpan]; apply total_report; auto.
Qed.
Lemma total_weaken : forall A (m : TM A) t (P Q : A -> Prop), total m t P -> (forall a, P a -> Q a) -> total m t Q.
Proof. intros A m t P Q (a & t' & H & K) X. exists a, t'. auto. Qed.
Definition T1 {A} (_ : A) : Prop := True.

Ltac tot := repeat first
  [ apply total_ret; try exact I
  | match goal with |- total (if ?b then _ else _) _ _ => destruct b end
  | eapply total_bind with (P := T1); [|intros]
  | apply total_addError; [assumption|exact I]
  | apply total_report; exact I ].

Lemma mathResult_total : forall v res u t, v <> VNil -> total (mathResult v res u) t T1.
Proof. intros v [f|m] u t Hv; cbn [mathResult]; tot. Qed.
Lemma combine_total : forall l r op t, l <> VNil -> total (combine l r op) t T1.
Proof.
  intros l r op t Hl. unfold combine.
  destruct (beq op (B "+") || beq op (B "-")).
  - destruct l; try solve [tot]. destruct r; try solve [tot].
    destruct (negb _); [|apply mathResult_total; auto]. 
    eapply total_bind with (P := T1); [destruct (_ && _); tot|intros].
    eapply total_bind with (P := T1); [destruct (_ && _); tot|intros]. tot.
  - destruct (beq op (B "*")).
    + destruct l; try solve [tot]. destruct r; try solve [tot].
      destruct (_ && _); [tot|]. destruct (isEmpty unit); apply mathResult_total; auto.
    + destruct (beq op (B "/")); [|tot].
      destruct r; try solve [tot]. destruct (negb _); [tot|].
      destruct l; try solve [tot]. apply mathResult_total; auto.
Qed.
Lemma reduce_total : forall v t, valueOk v -> v <> VNil -> total (reduceSide v) t (fun v' => v' <> VNil).
Proof.
  intros v. induction v using value_ind'; intros t Hok Hn; cbn [reduceSide]; try (apply total_ret; exact Hn).
  cbn [valueOk] in Hok. destruct Hok as (N1 & N2 & O1 & O2).
  eapply total_bind; [apply IHv1; auto|]. intros l t1 _ Hl.
  eapply total_bind; [apply IHv2; auto|]. intros r t2 _ Hr.
  eapply total_bind; [apply combine_total; auto|]. intros e t3 _ _.
  apply total_ret. destruct e; cbn [isNil]; discriminate.
Qed.
Lemma eval_total : forall l r op t, valueOk l -> valueOk r -> l <> VNil -> r <> VNil ->
  total (evaluateMathExpression l r op) t T1.
Proof.
  intros l r op t H1 H2 N1 N2. unfold evaluateMathExpression.
  eapply total_bind; [apply reduce_total; auto|]. intros l' t1 _ Hl.
  eapply total_bind; [apply reduce_total; auto|]. intros r' t2 _ Hr. apply combine_total; auto.
Qed.

(** Results of transforming [v]: again sound, and no worse than [v]. *)
Definition outOk (v : value) (out : list value) : Prop :=
  Forall valueOk out /\ (v <> VNil -> Forall (fun x => x <> VNil) out) /\ (~ isMathV v -> Forall (fun x => ~ isMathV x) out).
Lemma outOk_same : forall v, valueOk v -> outOk v [v].
Proof. intros v H. split; [auto|]. split; intros K; constructor; auto. Qed.
Lemma outOk_vs : forall v vs, Forall vOk vs -> outOk v vs.
Proof.
  intros v vs H. split; [|split; intros _]; revert H; apply Forall_impl; intros a (A & C & D); auto.
Qed.
Lemma not_math_func : forall sp n a, ~ isMathV (VFunc sp n a).
Proof. intros sp n a (? & ? & ? & ? & H). discriminate. Qed.
Lemma subst_total : forall sp name args t, valueOk (VFunc sp name args) -> varsOk t ->
  total (substVar sp name args) t (outOk (VFunc sp name args)).
Proof.
  intros sp name args t Hok Hv. assert (S := outOk_same _ Hok). unfold substVar.
  destruct (negb (beq name (B "var"))) eqn:En; [apply total_ret; auto|].
  apply negb_false_iff, beq_eq in En. subst name. cbn [valueOk] in Hok. destruct Hok as [Ha Hall]. specialize (Ha eq_refl).
  fold allOk in Hall. apply allOk_Forall in Hall.
  assert (R : forall r, total (_ <~ treport r ;; tret [VFunc sp (B "var") args]) t (outOk (VFunc sp (B "var") args))).
  { intros r. eapply total_bind with (P := T1); [apply total_report; exact I|]. intros. apply total_ret. exact S. }
  assert (G : total (fun t : tstate =>
     match t_vars t with
     | None => TOk [VFunc sp (B "var") args] t
     | Some m =>
      match args with
      | [] => (_ <~ treport (mkReport false sp (B "expected at least one argument to var()")) ;; tret [VFunc sp (B "var") args]) t
      | a0 :: _ =>
        match a0 with
        | VIdent _ varName =>
          match lookup varName m with
          | Some vals => TOk vals t
          | None =>
            if (2 <? length args)%nat then TOk (skipn 2 args) t
            else (_ <~ treport (mkReport true sp (B "use of undefined variable without fallback: " ++ varName)) ;; tret [VFunc sp (B "var") args]) t
          end
        | _ => (_ <~ treport (mkReport false sp (B "expected identifier as argument to var()")) ;; tret [VFunc sp (B "var") args]) t
        end
      end
    end) t (outOk (VFunc sp (B "var") args))); [|exact G].
  unfold total in *. unfold varsOk in Hv. destruct (t_vars t) as [m|]; [|eauto].
  destruct args as [|a0 rest]; [apply R|]. destruct a0; try apply R.
  destruct (lookup v m) as [vals|] eqn:El.
  - exists vals, t. split; [reflexivity|]. apply outOk_vs. eapply Hv; eauto.
  - destruct (2 <? _)%nat; [|apply R]. eexists; eexists; split; [reflexivity|]. apply outOk_vs.
    assert (X : Forall vOk (VIdent sp0 v :: rest)).
    { clear - Ha Hall. induction Ha; inversion Hall; subst; constructor; [split; auto|auto]. }
    inversion X; subst. destruct rest; [constructor|]. inversion H2; auto.
Qed.

Fixpoint height (v : value) : nat :=
  match v with
  | VFunc _ _ args => S (fold_right (fun a m => Nat.max (height a) m) 0%nat args)
  | VMath _ _ l r => S (Nat.max (height l) (height r))
  | _ => 0%nat
  end.
Lemma value_total : forall n v t, (height v < n)%nat -> valueOk v -> varsOk t ->
  total (transformValue o n v) t (outOk v).
Proof.
  intros n. induction n as [|n IH]; intros v t Hh Hok Hv; [lia|].
  cbn [transformValue]. destruct v as [| | | | | |sp name args| | | |]; try (apply total_ret; apply outOk_same; auto).
  eapply total_bind; [apply subst_total; auto|]. intros new t1 E1 Hnew.
  assert (Hv1 : varsOk t1) by (eapply varsOk_keep; [apply (keeps_subst _ _ _ _ _ _ E1)|auto]).
  destruct (negb (beq name (B "calc")) || negb (o_calc o)); [apply total_ret; auto|].
  assert (W : forall r t, total (_ <~ treport r ;; tret new) t (outOk (VFunc sp name args))).
  { intros r t2. eapply total_bind with (P := T1); [apply total_report; exact I|]. intros. apply total_ret; auto. }
  destruct args as [|a0 [|a1 ar]]; try apply W.
  cbn [valueOk] in Hok. destruct Hok as (_ & Ha0 & _). cbn [height fold_right] in Hh.
  eapply total_bind; [apply IH; [lia|auto|auto]|]. intros args' t2 E2 (A1 & A2 & A3).
  assert (Hv2 : varsOk t2) by (eapply varsOk_keep; [apply (keeps_value o _ _ _ _ _ E2)|auto]).
  destruct args' as [|a [|? ?]]; try apply W.
  destruct a as [| | | | | | |msp op l r| | |]; try (apply total_ret; auto).
  assert (Ea : a0 = VMath msp op l r).
  { destruct n as [|n']; [lia|]. destruct a0 as [| | | | | |fs fn fa|ms mo ml mr| | |];
      try (cbn [transformValue] in E2; apply tret_ok in E2 as [E2 _]; inversion E2; subst; reflexivity).
    exfalso. specialize (A3 (not_math_func _ _ _)). inversion A3 as [|? ? X _]. apply X. repeat eexists. }
  subst a0. cbn [valueOk] in Ha0. destruct Ha0 as (N1 & N2 & O1 & O2). cbn [height] in Hh.
  eapply total_bind; [apply IH; [lia|auto|auto]|]. intros ls t3 E3 (L1 & L2 & _).
  assert (Hv3 : varsOk t3) by (eapply varsOk_keep; [apply (keeps_value o _ _ _ _ _ E3)|auto]).
  eapply total_bind; [apply IH; [lia|auto|auto]|]. intros rs t4 E4 (R1 & R2 & _).
  specialize (L2 N1). specialize (R2 N2).
  assert (WE : forall w v msg t, v <> VNil -> total (_ <~ addErrorAt w v msg ;; tret new) t (outOk (VFunc sp name [VMath msp op l r]))).
  { intros w v msg t5 Hn. eapply total_bind with (P := T1); [apply total_addError; [auto|exact I]|]. intros. apply total_ret; auto. }
  destruct ls as [|l1 [|? ?]]; try (apply WE; auto). destruct rs as [|r1 [|? ?]]; try (apply WE; auto).
  inversion L1; inversion L2; inversion R1; inversion R2; subst.
  assert (EV := eval_total l1 r1 op t4). destruct EV as (e & t5 & E5 & _); auto.
  exists (if isNil e then new else [e]), t5. rewrite (tbind_step _ _ _ _ _ _ _ E5). split; [reflexivity|].
  destruct (isNil e) eqn:Ee; [exact Hnew|].
  assert (Hd : exists f u, e = VDim zsp f u).
  { clear - E5 Ee. unfold evaluateMathExpression in E5. apply tbind_ok in E5 as (x & ? & _ & E5). apply tbind_ok in E5 as (y & ? & _ & E5).
    assert (MR : forall v res u t e t', mathResult v res u t = TOk e t' -> e = VNil \/ exists f u, e = VDim zsp f u).
    { intros v [f|m] u t e0 t' H; cbn [mathResult] in H; [apply tret_ok in H as [<- _]; eauto|].
      apply tbind_ok in H as (? & ? & _ & H). apply tret_ok in H as [<- _]. auto. }
    assert (NR : forall A (m : TM A) t e t', (_ <~ m ;; tret VNil) t = TOk e t' -> e = VNil).
    { intros A m t e0 t' H. apply tbind_ok in H as (? & ? & _ & H). apply tret_ok in H as [<- _]. auto. }
    assert (D : e = VNil \/ exists f u, e = VDim zsp f u); [|destruct D as [->|D]; [discriminate|exact D]].
    unfold combine in E5.
    repeat match type of E5 with
    | (if ?b then _ else _) _ = _ => destruct b
    | match ?b with _ => _ end _ = _ => destruct b
    | (let _ := _ in _) _ = _ => cbv zeta in E5
    end; try (apply NR in E5; auto; fail); try (apply MR in E5; auto; fail);
    try (apply tret_ok in E5 as [<- _]; auto; fail).
    apply tbind_ok in E5 as (? & ? & _ & E5). apply NR in E5. auto. }
  destruct Hd as (f & u & ->). split; [constructor; [exact I|constructor]|].
  split; intros _; constructor; try constructor; try discriminate. intros (? & ? & ? & ? & X); discriminate.
Qed.

(** A bound on the fuel needed by a list of values, declarations, nodes. *)
Definition vmax (vs : list value) : nat := fold_right (fun v m => Nat.max (height v) m) 0%nat vs.
Definition dmax (ds : list decl) : nat :=
  fold_right (fun d m => Nat.max (match d with DDecl _ _ vs _ => vmax vs | DRaw _ _ => 0%nat end) m) 0%nat ds.
Definition dheight (d : decl) : nat := match d with DDecl _ _ vs _ => vmax vs | DRaw _ _ => 0%nat end.
Lemma vmax_cons : forall v r, vmax (v :: r) = Nat.max (height v) (vmax r). Proof. reflexivity. Qed.
Lemma dmax_cons : forall d r, dmax (d :: r) = Nat.max (dheight d) (dmax r). Proof. reflexivity. Qed.
Lemma values_total : forall n vs t, (vmax vs < n)%nat -> Forall valueOk vs -> varsOk t -> total (transformValues o n vs) t T1.
Proof.
  intros n vs. induction vs as [|v r IH]; intros t Hn Ho Hv; cbn [transformValues].
  - apply total_ret; exact I.
  - rewrite vmax_cons in Hn. inversion Ho; subst.
    eapply total_bind; [apply value_total; [lia|auto|auto]|]. intros a t1 E1 _.
    eapply total_bind; [apply IH; [lia|auto|]|intros; apply total_ret; exact I].
    eapply varsOk_keep; [apply (keeps_value o _ _ _ _ _ E1)|auto].
Qed.
Lemma decls_total : forall n ds t, (dmax ds < n)%nat -> Forall declOk ds -> varsOk t -> total (transformDecls o n ds) t T1.
Proof.
  intros n ds. induction ds as [|d r IH]; intros t Hn Ho Hv; cbn [transformDecls].
  - apply total_ret; exact I.
  - rewrite dmax_cons in Hn. inversion Ho; subst.
    eapply total_bind with (P := T1).
    + destruct d as [sp prop vs imp|]; [|apply total_ret; exact I]. cbn [declOk] in H1.
      eapply total_bind; [apply values_total; [cbn [dheight] in Hn; lia| |auto]|intros; apply total_ret; exact I].
      revert H1. apply Forall_impl. intros a [A _]; exact A.
    + intros d' t1 E1 _. eapply total_bind; [apply IH; [lia|auto|]|intros; apply total_ret; exact I].
      destruct d as [sp prop vs imp|]; [|apply tret_ok in E1 as [_ <-]; auto].
      apply tbind_ok in E1 as (vs' & t2 & E1 & E2). apply tret_ok in E2 as [_ <-].
      eapply varsOk_keep; [apply (keeps_values o _ _ _ _ _ E1)|auto].
Qed.
Lemma collect_total : forall ds t, Forall declOk ds -> varsOk t -> exists ds' t',
  collectRoot ds t = TOk ds' t' /\ varsOk t' /\ Forall declOk ds' /\ (dmax ds' <= dmax ds)%nat.
Proof.
  intros ds. induction ds as [|d r IH]; intros t Ho Hv.
  - exists [], t. cbn. auto.
  - inversion Ho; subst. cbn [collectRoot].
    assert (K : exists ds' t', (r' <~ collectRoot r;; tret (d :: r')) t = TOk ds' t' /\ varsOk t' /\ Forall declOk ds' /\ (dmax ds' <= dmax (d :: r))%nat).
    { destruct (IH t H2 Hv) as (r' & t' & E & V & O & M). exists (d :: r'), t'. rewrite (tbind_step _ _ _ _ _ _ _ E).
      split; [reflexivity|]. split; [auto|]. split; [auto|]. rewrite !dmax_cons; lia. }
    destruct d as [sp prop vals imp|]; [|exact K]. destruct (t_vars t) as [m|] eqn:Em; [|exact K].
    destruct (hasPrefix (B "--") prop); [|exact K].
    destruct (IH (mkT (Some ((prop, vals) :: m)) (t_cmedia t) (t_reports t)) H2) as (r' & t' & E & V & O & M).
    + unfold varsOk in *. rewrite Em in Hv. cbn [t_vars]. intros x vs. cbn [lookup].
      destruct (beq x prop); [intros X; inversion X; subst; exact H1|eauto].
    + exists r', t'. split; [exact E|]. split; [auto|]. split; [auto|]. rewrite !dmax_cons; lia.
Qed.
Lemma rule_total : forall n r t, (dmax (r_decls r) < n)%nat -> ruleOk r -> Forall declOk (r_decls r) -> varsOk t ->
  exists x t', transformRule o n r t = TOk x t' /\ varsOk t'.
Proof.
  intros n r t Hn (lsp & sels & Hp & Hs) Hd Hv. unfold transformRule. rewrite Hp.
  assert (S : exists ds' t', scanRoot (PrSel (lsp, sels)) (r_decls r) t = TOk ds' t' /\ varsOk t' /\ Forall declOk ds' /\ (dmax ds' <= dmax (r_decls r))%nat).
  { cbn [scanRoot]. assert (K : exists ds' t', tret (r_decls r) t = TOk ds' t' /\ varsOk t' /\ Forall declOk ds' /\ (dmax ds' <= dmax (r_decls r))%nat)
      by (exists (r_decls r), t; auto).
    destruct (existsb _ _); [|exact K]. destruct sels as [|[ss ps] rest]; [exact K|]. inversion Hs; subst. cbn [snd] in *.
    destruct ps as [|p ps]; [congruence|]. destruct (isRootPseudo p); [apply collect_total; auto|exact K]. }
  destruct S as (ds & t1 & E1 & V1 & O1 & M1). rewrite (tbind_step _ _ _ _ _ _ _ E1).
  destruct (decls_total n ds t1) as (ds' & t2 & E2 & _); [lia|auto|auto|].
  rewrite (tbind_step _ _ _ _ _ _ _ E2).
  assert (V2 : varsOk t2) by (eapply varsOk_keep; [apply (keeps_decls o _ _ _ _ _ E2)|auto]).
  destruct ds'; eexists; eexists; (split; [reflexivity|auto]).
Qed.
Lemma mqparts_total : forall ps t, total (transformMqParts o ps) t T1.
Proof.
  intros ps. induction ps as [|p r IH]; intros t; [apply total_ret; exact I|].
  rewrite (mqparts_cons o). eapply total_bind with (P := T1).
  - destruct p as [|sp psp prop v|sp psp prop lv op rv]; cbn [onePart]; [apply total_ret; exact I| |].
    + destruct (_ || _); [apply total_ret; exact I|]. unfold total. destruct (t_cmedia t); [|repeat eexists].
      destruct (lookup prop l) as [[? ?]|]; repeat eexists.
    + unfold transformRange. destruct (negb _); [apply total_ret; exact I|].
      assert (AT : forall v d t, v <> VNil -> total (addToValue v d) t T1).
      { intros v d t0 Hv. unfold addToValue. destruct d; [|apply total_ret; exact I].
        destruct v; try (congruence); try solve [tot]. destruct (fparse v); tot. }
      eapply total_bind with (P := T1).
      * destruct (isNil lv) eqn:El; [apply total_ret; exact I|]. destruct (leftDir op). eapply total_bind; [apply AT|intros; apply total_ret; exact I].
        intros ->; discriminate.
      * intros. eapply total_bind with (P := T1); [|intros; apply total_ret; exact I].
        destruct (isNil rv) eqn:Er; [apply total_ret; exact I|]. destruct (rightDir op). eapply total_bind; [apply AT|intros; apply total_ret; exact I].
        intros ->; discriminate.
  - intros. eapply total_bind; [apply IH|]. intros. apply total_ret; exact I.
Qed.
Lemma mqs_total : forall qs t, total (transformMqs o qs) t T1.
Proof.
  intros qs. induction qs as [|[sp ps] r IH]; intros t; cbn [transformMqs]; [apply total_ret; exact I|].
  eapply total_bind; [apply mqparts_total|intros]. eapply total_bind; [apply IH|intros]. apply total_ret; exact I.
Qed.

Lemma at_total : forall repl n a t, nodeOk (NAt a) -> isImport (NAt a) = false -> varsOk t ->
  exists x t', oneNode o repl n (NAt a) t = TOk x t' /\ varsOk t'.
Proof.
  intros repl n a t Hok Hi Hv. cbn [oneNode isImport] in *. rewrite Hi.
  destruct (beq (ar_name a) (B "custom-media")).
  { unfold addCustomMedia. unfold tbind. destruct (t_cmedia t); [|eexists; eexists; split; [reflexivity|auto]].
    destruct (ar_preludes a) as [|[] [|[] [|]]]; eexists; eexists; (split; [reflexivity|auto]). }
  destruct (beq (ar_name a) (B "media")) eqn:Em; [|eexists; eexists; split; [reflexivity|auto]].
  apply beq_eq in Em. destruct (Hok Em) as ([lsp qs] & pres & ->).
  destruct (mqs_total qs t) as (qs' & t1 & E & _). rewrite (tbind_step _ _ _ _ _ _ _ E).
  eexists; eexists; split; [reflexivity|]. eapply varsOk_keep; [apply (keeps_mqs o _ _ _ _ E)|auto].
Qed.
Definition nmax (ns : list node) : nat := fold_right (fun nd m => Nat.max (dmax (ruleDecls nd)) m) 0%nat ns.
Lemma nmax_cons : forall d r, nmax (d :: r) = Nat.max (dmax (ruleDecls d)) (nmax r). Proof. reflexivity. Qed.
Lemma nodes_total_none : forall n ns t, (nmax ns < n)%nat -> sheetOk ns -> varsOk t ->
  exists out t', transformNodes o None (S n) ns t = TOk out t' /\ varsOk t'.
Proof.
  intros n ns. induction ns as [|nd r IH]; intros t Hn [Ho Hd] Hv.
  - exists [], t. auto.
  - inversion Ho; inversion Hd; subst. rewrite nmax_cons in Hn. rewrite nodes_cons.
    assert (X : exists x t', oneNode o None n nd t = TOk x t' /\ varsOk t').
    { destruct nd as [r0|a].
      - cbn [oneNode]. destruct (rule_total n r0 t) as (x & t1 & E & V); [cbn [ruleDecls] in Hn; lia|auto|auto|auto|].
        rewrite (tbind_step _ _ _ _ _ _ _ E). eexists; eexists; split; [reflexivity|auto].
      - destruct (isImport (NAt a)) eqn:Ei; [|apply at_total; auto].
        cbn [oneNode isImport] in *. rewrite Ei. eexists; eexists; split; [reflexivity|auto]. }
    destruct X as (h & t1 & E1 & V1). rewrite (tbind_step _ _ _ _ _ _ _ E1).
    destruct (IH t1) as (rs & t2 & E2 & V2); [lia|split; auto|auto|].
    rewrite (tbind_step _ _ _ _ _ _ _ E2). eexists; eexists; split; [reflexivity|auto].
Qed.
(** With inlining: enough fuel exists when the imports flatten to a finite sheet. *)
Lemma nodes_total : forall m ns flat, flattens (fun p => plookup p m) ns flat -> sheetOk flat ->
  exists N, forall n t, (N <= n)%nat -> varsOk t -> exists out t', transformNodes o (Some m) n ns t = TOk out t' /\ varsOk t'.
Proof.
  intros m ns flat H. induction H as [|a ns imp x y Hn Hl Hx IHx Hy IHy|nd ns y Hc Hy IHy]; intros [Ho Hd].
  - exists 1%nat. intros [|n] t Hn Hv; [lia|]. exists [], t. auto.
  - apply Forall_app in Ho as [Ho1 Ho2]. apply Forall_app in Hd as [Hd1 Hd2].
    destruct IHx as (N1 & K1); [split; auto|]. destruct IHy as (N2 & K2); [split; auto|].
    exists (S (Nat.max N1 N2)). intros [|n] t Hle Hv; [lia|]. rewrite nodes_cons. cbn [oneNode]. rewrite Hn.
    change (beq (B "import") (B "import")) with true. cbv iota. rewrite Hl.
    set (rep := if (1 <? length (ar_preludes a))%nat then _ else _).
    assert (R : exists t0, rep t = TOk tt t0 /\ varsOk t0).
    { unfold rep. destruct (_ <? _)%nat; [|exists t; auto]. eexists; split; [reflexivity|]. exact Hv. }
    destruct R as (t0 & E0 & V0). destruct (K1 n t0) as (xo & t1 & E1 & V1); [lia|auto|].
    destruct (K2 (S n) t1) as (yo & t2 & E2 & V2); [lia|auto|].
    exists (xo ++ yo), t2. split; [|auto]. apply tbind_ok. exists xo, t1. split.
    + rewrite (tbind_step _ _ _ _ _ _ _ E0). exact E1.
    + rewrite (tbind_step _ _ _ _ _ _ _ E2). reflexivity.
  - inversion Ho; inversion Hd; subst. destruct IHy as (N2 & K2); [split; auto|].
    exists (S (Nat.max (S (dmax (ruleDecls nd))) N2)). intros [|n] t Hle Hv; [lia|]. rewrite nodes_cons.
    assert (X : exists x t', oneNode o (Some m) n nd t = TOk x t' /\ varsOk t').
    { destruct nd as [r0|a].
      - cbn [oneNode]. destruct (rule_total n r0 t) as (x & t1 & E & V); [cbn [ruleDecls] in Hle; lia|auto|auto|auto|].
        rewrite (tbind_step _ _ _ _ _ _ _ E). eexists; eexists; split; [reflexivity|auto].
      - destruct (isImport (NAt a)) eqn:Ei; [|apply at_total; auto].
        cbn [nodeId] in Hc. cbn [oneNode isImport] in *. rewrite Ei, (Hc eq_refl). eexists; eexists; split; [reflexivity|auto]. }
    destruct X as (h & t1 & E1 & V1). rewrite (tbind_step _ _ _ _ _ _ _ E1).
    destruct (K2 (S n) t1) as (rs & t2 & E2 & V2); [lia|auto|].
    rewrite (tbind_step _ _ _ _ _ _ _ E2). eexists; eexists; split; [reflexivity|auto].
Qed.
End O.
