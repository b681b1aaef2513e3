(** Proofs on where the transformer's reports point. *)
From Verif Require Import Bytes Utf8 Source Lexer LexSpec Ast AstInd Walk WalkSpec SpanSpec Transformer BytesFacts.

(** Holds of a node and all below it. *)
Inductive under (P : anode -> Prop) : anode -> Prop := un n : P n -> Forall (under P) (kids n) -> under P n.
Lemma under_mono (P P' : anode -> Prop) : (forall n, P n -> P' n) -> forall n, under P n -> under P' n.
Proof.
  intros H. fix IH 2. intros n [n0 Pn K]. constructor; auto. clear Pn. induction K; constructor; auto.
Qed.
Lemma under_preorder_in : forall n vs, preorder kids n vs -> forall all, (forall m, In m vs -> In m all) -> under (fun m => In m all) n.
Proof.
  fix IH 3. intros n vs [n0 vss F] all Y. constructor; [apply Y; left; reflexivity|].
  assert (Y' : forall m, In m (concat vss) -> In m all) by (intros m Hm; apply Y; right; exact Hm). clear Y.
  induction F as [|k ws ks wss Hk F IHF]; constructor.
  - apply (IH k ws Hk). intros m Hm. apply Y'. cbn. apply in_or_app. auto.
  - apply IHF. intros m Hm. apply Y'. cbn. apply in_or_app. auto.
Qed.
Lemma under_preorder n vs : preorder kids n vs -> under (fun m => In m vs) n.
Proof. intros H. apply (under_preorder_in n vs H). auto. Qed.

Section Within.
Variable Q : span -> Prop.
Hypothesis Qz : Q zsp.
Definition atQ (n : anode) : Prop := forall sp, locate n = Some sp -> Q sp.
Definition uQ := under atQ.
Definition vOk (v : value) : Prop := Forall uQ (ofValue v).
Definition tOk (t : tstate) : Prop :=
  (forall m, t_vars t = Some m -> Forall (fun kv => Forall vOk (snd kv)) m) /\
  (forall m, t_cmedia t = Some m -> Forall (fun kv => uQ (NdQuery (snd kv))) m) /\
  Forall (fun r => Q (rp_sp r)) (t_reports t).
Definition keeps {A} (m : TM A) (R : A -> Prop) : Prop :=
  forall t, tOk t -> match m t with TOk a t' => tOk t' /\ R a | _ => True end.

Lemma atQ_some n sp : locate n = Some sp -> Q sp -> atQ n.
Proof. intros H Hq sp' H'. congruence. Qed.
Lemma uQ_inv n : uQ n -> atQ n /\ Forall uQ (kids n).
Proof. intros H. inversion H; auto. Qed.
Lemma uQ_at n sp : uQ n -> locate n = Some sp -> Q sp.
Proof. intros H L. apply uQ_inv in H as [H _]. exact (H _ L). Qed.
Lemma flat_ok vs : Forall uQ (flat_map ofValue vs) <-> Forall vOk vs.
Proof.
  induction vs; cbn; split; intros H; try constructor.
  - apply Forall_app in H. apply H.
  - apply Forall_app in H. apply IHvs, H.
  - inversion H; subst. apply Forall_app. split; [auto|apply IHvs; auto].
Qed.
Lemma map_in {A} (f : A -> anode) l : Forall uQ (map f l) -> Forall (fun x => uQ (f x)) l.
Proof. apply Forall_map. Qed.
Lemma map_ok {A} (f : A -> anode) l : Forall (fun x => uQ (f x)) l -> Forall uQ (map f l).
Proof. apply Forall_map. Qed.
Lemma vOk_span v sp : vOk v -> valueSpan v = Some sp -> Q sp.
Proof.
  unfold vOk, ofValue. destruct (isNil v) eqn:E; intros H V; [destruct v; discriminate|]. inversion H; subst. eapply uQ_at; eauto.
Qed.
Lemma vOk_nil : vOk VNil. Proof. constructor. Qed.
Lemma vOk_dim n u : vOk (VDim zsp n u).
Proof. constructor; [|constructor]. constructor; [|constructor]. intros sp H. cbn in H. injection H as <-. exact Qz. Qed.
Lemma vOk_kids v : vOk v -> Forall uQ (kids (NdValue v)).
Proof. unfold vOk, ofValue. destruct v; cbn [isNil]; intros H; try constructor; inversion H; subst; apply uQ_inv in H2; apply H2. Qed.
Lemma vOk_func sp n args : vOk (VFunc sp n args) -> Q sp /\ Forall vOk args.
Proof. intros H. split; [eapply vOk_span; eauto; reflexivity|]. apply vOk_kids in H. apply flat_ok. exact H. Qed.
Lemma vOk_math sp op l r : vOk (VMath sp op l r) -> Q sp /\ vOk l /\ vOk r.
Proof. intros H. split; [eapply vOk_span; eauto; reflexivity|]. apply vOk_kids in H. cbn [kids] in H. apply Forall_app in H. exact H. Qed.

Lemma k_ret {A} (a : A) (R : A -> Prop) : R a -> keeps (tret a) R.
Proof. intros H t T. cbn. auto. Qed.
Lemma k_crash {A} (R : A -> Prop) : keeps tcrash R. Proof. intros t T. exact I. Qed.
Lemma k_timeout {A} (R : A -> Prop) : keeps ttimeout R. Proof. intros t T. exact I. Qed.
Lemma k_bind {A C} (m : TM A) (k : A -> TM C) (R : A -> Prop) (R' : C -> Prop) :
  keeps m R -> (forall a, R a -> keeps (k a) R') -> keeps (tbind m k) R'.
Proof.
  intros H K t T. unfold tbind. specialize (H t T). destruct (m t) as [a t'| |]; auto. destruct H as [T' Ra]. exact (K a Ra t' T').
Qed.
Lemma k_report r : Q (rp_sp r) -> keeps (treport r) (fun _ => True).
Proof.
  intros H t [V [C R]]. cbn. split; auto. split; [exact V|]. split; [exact C|]. cbn. apply Forall_app. auto.
Qed.
Lemma k_at w v msg : vOk v -> keeps (addErrorAt w v msg) (fun _ => True).
Proof.
  intros H. unfold addErrorAt. destruct (valueSpan v) eqn:E; [|apply k_crash]. apply k_report. cbn. eapply vOk_span; eauto.
Qed.
Lemma lookup_ok {A} (R : A -> Prop) k (m : list (bytes * A)) v : Forall (fun kv => R (snd kv)) m -> lookup k m = Some v -> R v.
Proof.
  induction 1 as [|[k' v'] r H F IH]; cbn; [discriminate|]. destruct (beq k k'); [intros [= <-]; exact H|exact IH].
Qed.

Definition declsOk (ds : list decl) : Prop := Forall (fun d => uQ (NdDecl d)) ds.
Lemma declOk_inv sp p vs i : uQ (NdDecl (DDecl sp p vs i)) <-> Q sp /\ Forall vOk vs.
Proof.
  split.
  - intros H. split; [eapply uQ_at; eauto; reflexivity|]. apply uQ_inv in H as [_ H]. apply flat_ok. exact H.
  - intros [H1 H2]. constructor; [intros s E; cbn in E; injection E as <-; exact H1|]. apply flat_ok. exact H2.
Qed.
Lemma k_collect ds : declsOk ds -> keeps (collectRoot ds) declsOk.
Proof.
  induction ds as [|d r IH]; intros D; [apply k_ret; constructor|]. inversion D as [|x l D1 D2]; subst. specialize (IH D2).
  assert (K : keeps (r' <~ collectRoot r ;; tret (d :: r')) declsOk).
  { eapply k_bind; [exact IH|]. intros a Ha. apply k_ret. constructor; auto. }
  cbn [collectRoot]. destruct d as [sp p vs i|sp v]; [|exact K]. intros t T. destruct (t_vars t) as [m|] eqn:E; [|exact (K t T)].
  destruct (hasPrefix (B "--") p); [|exact (K t T)]. apply IH. destruct T as [V [C R]]. split; [|split; auto].
  cbn. intros m' [= <-]. constructor; [|auto]. cbn. apply declOk_inv in D1. apply D1.
Qed.
Lemma k_scan pr ds : declsOk ds -> keeps (scanRoot pr ds) declsOk.
Proof.
  intros D. unfold scanRoot. destruct pr as [|[lsp sels]|]; try (apply k_ret; exact D).
  destruct (existsb _ sels); [|apply k_ret; exact D]. destruct sels as [|[ssp [|p ps]] sels]; [apply k_ret; exact D|apply k_crash|].
  destruct (isRootPseudo p); [apply k_collect; exact D|apply k_ret; exact D].
Qed.

Context {FO : FloatOps}.
Variable o : topts.
Lemma k_add v d : vOk v -> keeps (addToValue v d) vOk.
Proof.
  intros H. unfold addToValue. destruct d; [|apply k_ret; exact H].
  assert (K : forall m, keeps (_ <~ addErrorAt false v m ;; tret v) vOk).
  { intros m. eapply k_bind; [apply k_at; exact H|]. intros _ _. apply k_ret. exact H. }
  destruct v; try apply K. destruct (fparse _); [apply k_ret, vOk_dim|apply K].
Qed.
Definition pOk (p : mqpart) : Prop := uQ (NdQueryPart p).
Lemma pOk_plain name v : vOk v -> pOk (MPlain zsp zsp name v).
Proof.
  intros H. constructor; [intros s E; injection E as <-; exact Qz|]. constructor; [|exact H].
  constructor; [intros s E; injection E as <-; exact Qz|constructor].
Qed.
Lemma pOk_ident n : pOk (MIdent zsp n).
Proof. constructor; [intros s E; injection E as <-; exact Qz|constructor]. Qed.
Lemma k_range p psp prop lv op rv : pOk p -> vOk lv -> vOk rv -> keeps (transformRange o p psp prop lv op rv) (Forall pOk).
Proof.
  intros P L R. unfold transformRange. destruct (negb (o_ranges o)); [apply k_ret; auto|].
  eapply k_bind with (R := Forall pOk).
  - destruct (isNil lv); [apply k_ret; constructor|]. destruct (leftDir op) as [dir diff].
    eapply k_bind; [apply k_add; exact L|]. intros a Ha. apply k_ret. constructor; [apply pOk_plain; exact Ha|constructor].
  - intros a Ha. eapply k_bind with (R := Forall pOk).
    + destruct (isNil rv); [apply k_ret; constructor|]. destruct (rightDir op) as [dir diff].
      eapply k_bind; [apply k_add; exact R|]. intros b Hb. apply k_ret. apply Forall_app. split.
      * destruct (isNil lv); repeat constructor. intros s E; injection E as <-; exact Qz.
      * constructor; [apply pOk_plain; exact Hb|constructor].
    + intros b Hb. apply k_ret. apply Forall_app. auto.
Qed.
Lemma k_parts ps : Forall pOk ps -> keeps (transformMqParts o ps) (Forall pOk).
Proof.
  induction ps as [|p r IH]; intros H; [apply k_ret; constructor|]. inversion H as [|x l P PS]; subst. cbn [transformMqParts].
  eapply k_bind with (R := Forall pOk).
  - destruct p as [sp v|sp psp prop v|sp psp prop l op rv].
    + apply k_ret. auto.
    + destruct (_ || _); [apply k_ret; auto|]. intros t T. destruct (t_cmedia t) as [m|] eqn:E; [|auto].
      destruct (lookup prop m) as [[qsp parts]|] eqn:El; [|auto]. split; auto. destruct T as [_ [C _]]. specialize (C m E).
      pose proof (lookup_ok (fun q => uQ (NdQuery q)) _ _ _ C El) as X. apply uQ_inv in X as [_ X]. apply (map_in NdQueryPart) in X. exact X.
    + pose proof (uQ_inv _ P) as [_ K]. cbn [kids] in K. inversion K as [|x l0 K1 K2]; subst. apply Forall_app in K2 as [K2 K3].
      apply k_range; auto.
  - intros a Ha. eapply k_bind; [apply IH; auto|]. intros b Hb. apply k_ret. apply Forall_app. auto.
Qed.
Definition qOk (q : mquery) : Prop := uQ (NdQuery q).
Lemma k_mqs qs : Forall qOk qs -> keeps (transformMqs o qs) (Forall qOk).
Proof.
  induction qs as [|[sp ps] r IH]; intros H; [apply k_ret; constructor|]. inversion H as [|x l P PS]; subst. cbn [transformMqs].
  pose proof (uQ_inv _ P) as [A K]. cbn [kids snd] in K. apply map_in in K.
  eapply k_bind; [apply k_parts; exact K|]. intros ps' Hps. eapply k_bind; [apply IH; auto|]. intros r' Hr. apply k_ret. constructor; auto.
  constructor; [intros s E; apply A; exact E|]. cbn [kids snd]. apply map_ok. exact Hps.
Qed.
Lemma k_result v res u : vOk v -> keeps (mathResult v res u) vOk.
Proof.
  intros H. unfold mathResult. destruct res; [apply k_ret, vOk_dim|]. eapply k_bind; [apply k_at; exact H|]. intros _ _. apply k_ret, vOk_nil.
Qed.
Lemma k_combine l r op : vOk l -> vOk r -> keeps (combine l r op) vOk.
Proof.
  intros L R. unfold combine.
  assert (K : forall m, keeps (_ <~ addErrorAt false l m ;; tret VNil) vOk).
  { intros m. eapply k_bind; [apply k_at; exact L|]. intros _ _. apply k_ret, vOk_nil. }
  destruct (beq op (B "+") || beq op (B "-")).
  { destruct l; try apply K. destruct r; try (apply k_ret, vOk_nil). destruct (negb _); [|apply k_result; exact L].
    eapply k_bind with (R := fun _ => True); [destruct (_ && _); [apply k_at; exact L|apply k_ret; exact I]|]. intros _ _.
    eapply k_bind with (R := fun _ => True); [destruct (_ && _); [apply k_at; exact L|apply k_ret; exact I]|]. intros _ _. apply k_ret, vOk_nil. }
  destruct (beq op (B "*")).
  { destruct l; try (apply k_ret, vOk_nil). destruct r; try (apply k_ret, vOk_nil). destruct (_ && _); [apply K|].
    destruct (isEmpty _); apply k_result; exact L. }
  destruct (beq op (B "/")); [|apply K].
  destruct r; try apply K. destruct (negb _); [apply K|]. destruct l; try apply K. apply k_result; exact L.
Qed.
Lemma k_side v : vOk v -> keeps (reduceSide v) vOk.
Proof.
  induction v using value_ind'; intros V; try (apply k_ret; exact V). cbn [reduceSide].
  pose proof (vOk_math _ _ _ _ V) as [_ [L R]].
  eapply k_bind; [apply IHv1; exact L|]. intros a Ha. eapply k_bind; [apply IHv2; exact R|]. intros b Hb.
  eapply k_bind; [apply k_combine; eauto|]. intros e He. apply k_ret. destruct (isNil e); auto.
Qed.
Lemma k_eval l r op : vOk l -> vOk r -> keeps (evaluateMathExpression l r op) vOk.
Proof.
  intros L R. unfold evaluateMathExpression. eapply k_bind; [apply k_side; exact L|]. intros a Ha.
  eapply k_bind; [apply k_side; exact R|]. intros b Hb. apply k_combine; auto.
Qed.
Lemma Forall_skipn' {A} (R : A -> Prop) k l : Forall R l -> Forall R (skipn k l).
Proof. revert l. induction k; intros l H; [exact H|]. destruct H; cbn; auto. Qed.
Lemma k_subst sp name args : vOk (VFunc sp name args) -> keeps (substVar sp name args) (Forall vOk).
Proof.
  intros V. pose proof (vOk_func _ _ _ V) as [Hs A]. unfold substVar. destruct (negb _); [apply k_ret; auto|].
  assert (K : forall w m, keeps (_ <~ treport (mkReport w sp m) ;; tret [VFunc sp name args]) (Forall vOk)).
  { intros w m. eapply k_bind; [apply k_report; exact Hs|]. intros _ _. apply k_ret. auto. }
  intros t T. destruct (t_vars t) as [m|] eqn:E; [|auto]. destruct args as [|a0 args]; [exact (K _ _ t T)|].
  destruct a0; try exact (K _ _ t T). destruct (lookup v m) eqn:El.
  - split; auto. destruct T as [V0 _]. exact (lookup_ok (Forall vOk) _ _ _ (V0 m E) El).
  - destruct (2 <? _)%nat; [|exact (K _ _ t T)]. split; auto. apply Forall_skipn'. exact A.
Qed.
Lemma k_value n v : vOk v -> keeps (transformValue o n v) (Forall vOk).
Proof.
  revert v. induction n as [|n IH]; intros v V; [apply k_timeout|]. cbn [transformValue].
  destruct v as [| | | | | |sp name args| | | |]; try (apply k_ret; auto). pose proof (vOk_func _ _ _ V) as [Hs A].
  eapply k_bind; [apply k_subst; exact V|]. intros new N. destruct (_ || _); [apply k_ret; exact N|].
  assert (K : forall w m, keeps (_ <~ treport (mkReport w sp m) ;; tret new) (Forall vOk)).
  { intros w m. eapply k_bind; [apply k_report; exact Hs|]. intros _ _. apply k_ret. auto. }
  destruct args as [|a0 [|a1 args]]; try apply K. inversion A as [|x l A0 _]; subst.
  eapply k_bind; [apply IH; exact A0|]. intros args' A'. destruct args' as [|a [|a1 args']]; try apply K. inversion A' as [|x l Aa _]; subst.
  destruct a as [| | | | | | |msp op l r| | |]; try (apply k_ret; exact N). pose proof (vOk_math _ _ _ _ Aa) as [_ [L R]].
  eapply k_bind; [apply IH; exact L|]. intros ls Ls. eapply k_bind; [apply IH; exact R|]. intros rs Rs.
  assert (Kl : forall m, keeps (_ <~ addErrorAt true l m ;; tret new) (Forall vOk)).
  { intros m. eapply k_bind; [apply k_at; exact L|]. intros _ _. apply k_ret. exact N. }
  assert (Kr : forall m, keeps (_ <~ addErrorAt true r m ;; tret new) (Forall vOk)).
  { intros m. eapply k_bind; [apply k_at; exact R|]. intros _ _. apply k_ret. exact N. }
  destruct ls as [|l1 [|l2 ls]]; try apply Kl. destruct rs as [|r1 [|r2 rs]]; try apply Kr.
  inversion Ls; subst. inversion Rs; subst. eapply k_bind; [apply k_eval; eauto|]. intros e He. apply k_ret. destruct (isNil e); auto.
Qed.
Lemma k_values n vs : Forall vOk vs -> keeps (transformValues o n vs) (Forall vOk).
Proof.
  induction 1; cbn [transformValues]; [apply k_ret; constructor|]. eapply k_bind; [apply k_value; eauto|]. intros a Ha.
  eapply k_bind; [apply IHForall|]. intros b Hb. apply k_ret. apply Forall_app. auto.
Qed.
Lemma k_decls n ds : declsOk ds -> keeps (transformDecls o n ds) declsOk.
Proof.
  induction 1 as [|d r D DS IH]; cbn [transformDecls]; [apply k_ret; constructor|].
  eapply k_bind with (R := fun d => uQ (NdDecl d)).
  - destruct d as [sp p vs i|sp v]; [|apply k_ret; exact D]. apply declOk_inv in D as [D1 D2].
    eapply k_bind; [apply k_values; exact D2|]. intros vs' Hv. apply k_ret. apply declOk_inv. auto.
  - intros d' Hd. eapply k_bind; [apply IH|]. intros r' Hr. apply k_ret. constructor; auto.
Qed.
Lemma uQ_kids n sp (ks : list anode) : locate n = Some sp -> kids n = ks -> (uQ n <-> Q sp /\ Forall uQ ks).
Proof.
  intros L <-. split.
  - intros H. split; [eapply uQ_at; eauto|apply uQ_inv in H; apply H].
  - intros [H1 H2]. constructor; auto. eapply atQ_some; eauto.
Qed.
Lemma selectors_ok sels : Forall (fun s => uQ (NdSelector s)) sels -> Forall (fun s => uQ (NdSelector s)) (transformSelectors o sels).
Proof.
  intros H. unfold transformSelectors. destruct (o_anylink o); [|exact H]. induction H as [|[sp ps] r Hs F IH]; cbn [flat_map]; [constructor|].
  apply Forall_app. split; [|exact IH]. unfold transformSelector.
  assert (X : forall name, uQ (NdSelector (sp, map (setPseudo name) ps))).
  { intros name. eapply uQ_kids; [reflexivity|reflexivity|]. eapply uQ_kids in Hs as [H1 H2]; [|reflexivity|reflexivity]. split; [exact H1|].
    cbn [snd] in *. apply map_ok. apply map_in in H2. apply Forall_map. eapply Forall_impl; [|exact H2]. intros p Hp. cbn. unfold setPseudo.
    destruct (isAnyLink p); [|exact Hp]. constructor; [intros s E; injection E as <-; exact Qz|constructor]. }
  apply Forall_app. split; [|auto]. apply Forall_forall. intros x Hx. apply repeat_spec in Hx. subst. apply X.
Qed.
Lemma k_rule n r : uQ (NdRule r) -> keeps (transformRule o n r) (fun r' => forall x, r' = Some x -> uQ (NdRule x)).
Proof.
  intros H. eapply uQ_kids in H as [Hs K]; [|reflexivity|reflexivity]. apply Forall_app in K as [Kp Kd].
  inversion Kd as [|x l D _]; subst. eapply uQ_kids in D as [Db D]; [|reflexivity|reflexivity]. apply map_in in D.
  unfold transformRule. eapply k_bind; [apply k_scan; exact D|]. intros ds Hds. destruct (r_prelude r) as [|[lsp sels]|sp ks].
  - apply k_crash.
  - eapply k_bind; [apply k_decls; exact Hds|]. intros ds' Hd. inversion Kp as [|x l Kl _]; subst.
    eapply uQ_kids in Kl as [Hl Kl]; [|reflexivity|reflexivity]. cbn [fst snd] in *. apply map_in in Kl.
    destruct ds' as [|d ds']; apply k_ret; [discriminate|]. intros x [= <-].
    eapply uQ_kids; [reflexivity|reflexivity|]. cbn. split; [exact Hs|]. constructor; [|constructor; [|constructor]].
    + eapply uQ_kids; [reflexivity|reflexivity|]. split; [exact Hl|]. cbn [snd]. apply map_ok. apply selectors_ok. exact Kl.
    + eapply uQ_kids; [reflexivity|reflexivity|]. split; [exact Db|]. apply map_ok. exact Hd.
  - eapply k_bind; [|intros _ _; apply k_crash]. apply k_report. inversion Kp as [|x l Kl _]; subst.
    eapply uQ_kids in Kl as [Hl _]; [exact Hl|reflexivity|reflexivity].
Qed.
Definition ndOk (nd : node) : Prop := uQ (ofNode nd).
Lemma plookup_ok {A} (R : A -> Prop) k (m : list (ptr * A)) v : Forall (fun kv => R (snd kv)) m -> plookup k m = Some v -> R v.
Proof.
  induction 1 as [|[k' v'] r H F IH]; cbn; [discriminate|]. destruct (ptrEq k k'); [intros [= <-]; exact H|exact IH].
Qed.
Lemma k_custom pres : Forall (fun p => uQ (ofAtPrelude p)) pres -> keeps (addCustomMedia pres) (fun _ => True).
Proof.
  intros H t T. unfold addCustomMedia. destruct (t_cmedia t) as [m|] eqn:E; [|auto].
  destruct pres as [|[] [|[] [|]]]; auto. split; auto. destruct T as [V [C R]]. split; [exact V|]. split; [|exact R].
  cbn. intros m' [= <-]. constructor; [|auto]. cbn. inversion H as [|x l _ H2]; subst. inversion H2; subst. auto.
Qed.
Lemma k_nodes repl n : (forall m, repl = Some m -> Forall (fun kv => Forall ndOk (snd kv)) m) ->
  forall ns, Forall ndOk ns -> keeps (transformNodes o repl n ns) (Forall ndOk).
Proof.
  intros HR. induction n as [|n IH]; intros ns N; [apply k_timeout|]. cbn [transformNodes].
  induction N as [|nd rest Hn N IHN]; [apply k_ret; constructor|].
  eapply k_bind with (R := Forall ndOk); [|intros a Ha; eapply k_bind; [exact IHN|]; intros b Hb; apply k_ret, Forall_app; auto].
  destruct nd as [r|a].
  - eapply k_bind; [apply k_rule; exact Hn|]. intros [x|] Hx; apply k_ret; [|constructor]. constructor; [|constructor]. apply Hx. reflexivity.
  - eapply uQ_kids in Hn as Hn'; [|reflexivity|reflexivity]. destruct Hn' as [Hs K]. apply Forall_app in K as [Kp Kb]. apply map_in in Kp.
    destruct (beq (ar_name a) (B "import")).
    + destruct repl as [m|]; [|apply k_ret; auto]. destruct (plookup (atRuleId a) m) as [im|] eqn:E; [|apply k_ret; auto].
      eapply k_bind with (R := fun _ => True); [destruct (1 <? _)%nat; [apply k_report; exact Hs|apply k_ret; exact I]|]. intros _ _.
      apply IH. exact (plookup_ok (Forall ndOk) _ _ _ (HR m eq_refl) E).
    + destruct (beq (ar_name a) (B "custom-media")).
      * eapply k_bind; [apply k_custom; exact Kp|]. intros _ _. apply k_ret. constructor.
      * destruct (beq (ar_name a) (B "media")); [|apply k_ret; auto].
        destruct (ar_preludes a) as [|[| |[lsp qs]| |] pres] eqn:Ep; try apply k_crash. inversion Kp as [|x l Kq Kr]; subst.
        eapply uQ_kids in Kq as [Hl Kq]; [|reflexivity|reflexivity]. cbn [fst snd] in *. apply map_in in Kq.
        eapply k_bind; [apply k_mqs; exact Kq|]. intros qs' Hq. apply k_ret. constructor; [|constructor].
        eapply uQ_kids; [reflexivity|reflexivity|]. cbn. split; [exact Hs|]. constructor.
        -- eapply uQ_kids; [reflexivity|reflexivity|]. split; [exact Hl|]. cbn [snd]. apply map_ok. exact Hq.
        -- apply Forall_app. split; [|exact Kb]. apply map_ok. exact Kr.
Qed.
Lemma transform_within repl n ss ss' t :
  (forall m, repl = Some m -> Forall (fun kv => Forall ndOk (snd kv)) m) -> Forall ndOk (ss_nodes ss) ->
  transform o repl n ss = TOk ss' t -> Forall ndOk (ss_nodes ss') /\ Forall (fun r => Q (rp_sp r)) (t_reports t).
Proof.
  intros HR N H. unfold transform in H.
  assert (T0 : tOk (initState o repl)).
  { split; [|split]; cbn.
    - destruct (o_props o); [intros m [= <-]; constructor|discriminate].
    - destruct (o_cmedia o); [intros m [= <-]; constructor|discriminate].
    - destruct repl; [constructor|]. destruct (o_imports o); repeat constructor; exact Qz. }
  pose proof (k_nodes repl n HR _ N _ T0) as K. destruct (transformNodes _ _ _ _ _) as [ns t0| |]; try discriminate.
  injection H as <- <-. destruct K as [K1 K2]. split; [exact K2|]. apply K1.
Qed.
End Within.
