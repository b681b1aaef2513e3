(** Proofs on the positions of the nodes in a tree. *)
From Verif Require Import Bytes Utf8 Source Lexer LexSpec Ast AstInd Walk WalkSpec ReadSpec ReadProofs SpanSpec Parser.

Lemma chain_app a x y b : chain a (x ++ y) b <-> exists m, chain a x m /\ chain m y b.
Proof.
  revert a. induction x as [|s x IH]; intros a; cbn [app chain].
  - split; [intros H; exists a; auto|]. intros (m & H & K). destruct y as [|s y]; cbn [chain] in *; [lia|]. intuition lia.
  - rewrite IH. split; [intros (H1 & H2 & k & H3 & H4); exists k; auto|]. intros (k & (H1 & H2 & H3) & H4). eauto.
Qed.
Lemma chain_le a x b : chain a x b -> (a <= b)%nat.
Proof. revert a. induction x as [|s x IH]; intros a; cbn [chain]; auto. intros (H1 & H2 & H3). apply IH in H3. lia. Qed.
Lemma chain_weak a x b a' b' : chain a x b -> (a' <= a)%nat -> (b <= b')%nat -> chain a' x b'.
Proof.
  revert a a'. induction x as [|s x IH]; intros a a'; cbn [chain]; [lia|]. intros (H1 & H2 & H3) L1 L2. split; [lia|]. split; auto. eapply IH; eauto.
Qed.
Lemma chain_one a sp b : chain a [sp] b <-> (a <= sp_start sp)%nat /\ (sp_start sp <= sp_end sp)%nat /\ (sp_end sp <= b)%nat.
Proof. reflexivity. Qed.
Lemma chain_cons a sp x b : chain a (sp :: x) b <-> exists m, chain a [sp] m /\ chain m x b.
Proof. apply (chain_app a [sp] x b). Qed.
(** From the first to the last of a chain. *)
Lemma chain_spanning a x b : chain a x b -> x <> [] -> chain a [spanning x] b /\ chain (sp_start (spanning x)) x (sp_end (spanning x)).
Proof.
  intros H N. destruct x as [|s x]; [congruence|]. clear N. unfold spanning. cbn [hd sp_start sp_end].
  assert (X : forall x s a, chain a (s :: x) b -> (sp_end (last (s :: x) (mkSpan 0 0)) <= b)%nat /\ chain (sp_end s) x (sp_end (last (s :: x) (mkSpan 0 0)))).
  { clear. induction x as [|s' x IH]; intros s a (H1 & H2 & H3); [cbn in *; lia|]. destruct (IH s' (sp_end s) H3) as [I1 I2].
    change (last (s :: s' :: x) (mkSpan 0 0)) with (last (s' :: x) (mkSpan 0 0)). split; auto. cbn [chain]. destruct H3 as (H3 & H4 & _). auto. }
  destruct (X x s a H) as [X1 X2]. destruct H as (H1 & H2 & H3). pose proof (chain_le _ _ _ X2). cbn [chain sp_start sp_end]. repeat split; auto; lia.
Qed.

Section Content.
Variable content : bytes.
Notation len := (length content).
(** A node is placed, and so are all below it. *)
Inductive well : anode -> Prop := wl n : placed content n -> Forall well (kids n) -> well n.
Lemma well_preorder : forall n vs, preorder kids n vs -> well n -> Forall (placed content) vs.
Proof.
  fix IH 3. intros n vs [n0 vss F] W. inversion W as [n1 P K]; subst. constructor; auto. clear P W.
  induction F as [|k ws ks wss Hk F IHF]; cbn [concat]; [constructor|]. inversion K; subst. apply Forall_app. split; [apply (IH k); auto|apply IHF; auto].
Qed.

(** Nodes given in order between two offsets. *)
Definition row (a : nat) (ns : list anode) (b : nat) : Prop := chain a (spansOf ns) b /\ Forall well ns.
Lemma row_app a x y b : row a (x ++ y) b <-> exists m, row a x m /\ row m y b.
Proof.
  unfold row, spansOf. rewrite flat_map_app, chain_app, Forall_app. split; [intros ((m & H1 & H2) & H3 & H4); exists m; auto|]. intros (m & (H1 & H2) & H3 & H4). eauto.
Qed.
Lemma row_nil a b : (a <= b)%nat -> row a [] b. Proof. split; [auto|constructor]. Qed.
Lemma row_le a x b : row a x b -> (a <= b)%nat. Proof. intros [H _]. eapply chain_le; eauto. Qed.
Lemma row_weak a x b a' b' : row a x b -> (a' <= a)%nat -> (b <= b')%nat -> row a' x b'.
Proof. intros [H1 H2] L1 L2. split; auto. eapply chain_weak; eauto. Qed.
Lemma row_one a n sp b : locate n = Some sp -> chain a [sp] b -> well n -> row a [n] b.
Proof. intros E H W. unfold row, spansOf. cbn [flat_map]. rewrite E. cbn [app]. auto. Qed.
Lemma row_cons a n x b m : row a [n] m -> row m x b -> row a (n :: x) b.
Proof. intros H K. apply (row_app a [n] x b). eauto. Qed.
Lemma row_span a n sp b : row a [n] b -> locate n = Some sp -> chain a [sp] b.
Proof. intros [H _] E. unfold spansOf in H. cbn [flat_map] in H. rewrite E in H. exact H. Qed.

(** The node with span [sp] whose parts form a row inside it. *)
Definition simple (n : anode) : Prop :=
  match n with NdSheet _ | NdNilMql | NdQueryPart (MRange _ _ _ _ _ _) | NdValue (VFunc _ _ _) => False | _ => True end.
Lemma row_node a b n sp : (b <= len)%nat -> simple n -> locate n = Some sp -> chain a [sp] b -> row (sp_start sp) (kids n) (sp_end sp) -> row a [n] b.
Proof.
  intros L S0 E H [K1 K2]. apply (row_one a n sp b E H). constructor; auto. unfold placed. rewrite E. rewrite chain_one in H.
  split; [split; lia|]. destruct n as [| | | | | | | | | | | | | |[| |]| | | | |[]]; cbn [simple] in S0; auto; contradiction.
Qed.
Lemma row_leaf a b n sp : (b <= len)%nat -> simple n -> locate n = Some sp -> chain a [sp] b -> kids n = [] -> row a [n] b.
Proof. intros L S0 E H K. eapply row_node; eauto. rewrite K. apply row_nil. rewrite chain_one in H. lia. Qed.

Ltac ch := repeat match goal with
  | H : chain _ (map k_sp (_ ++ _)) _ |- _ => rewrite map_app in H
  | H : chain _ (_ ++ _) _ |- _ => apply chain_app in H as (? & ? & ?)
  | H : chain _ (map k_sp (_ :: _)) _ |- _ => cbn [map] in H
  | H : chain _ (map k_sp []) _ |- _ => cbn [map] in H
  | H : chain _ (_ :: _) _ |- _ => cbn [chain] in H; destruct H as (? & ? & ?)
  | H : (_ <= _)%nat /\ _ |- _ => destruct H
  | H : chain _ [] _ |- _ => cbn [chain] in H
  end.
Ltac les := repeat match goal with
  | H : chain ?a ?x ?b |- _ => lazymatch goal with _ : (a <= b)%nat |- _ => fail | _ => pose proof (chain_le _ _ _ H) end
  | H : row ?a ?x ?b |- _ => lazymatch goal with _ : (a <= b)%nat |- _ => fail | _ => pose proof (row_le _ _ _ H) end
  end.
Ltac pos := unfold across, from, upto in *; cbn [sp_start sp_end chain partSpan mqpartSpan keySpan fst r_sp ar_sp] in *; les; intuition lia.

Context {L : Liberties}.
Scheme gValue_p := Minimality for gValue Sort Prop
with gValues_p := Minimality for gValues Sort Prop
with gArgs_p := Minimality for gArgs Sort Prop
with gMathArgs_p := Minimality for gMathArgs Sort Prop
with gSum_p := Minimality for gSum Sort Prop
with gProduct_p := Minimality for gProduct Sort Prop
with gOperand_p := Minimality for gOperand Sort Prop.
Combined Scheme values_p from gValue_p, gValues_p, gArgs_p, gMathArgs_p, gSum_p, gProduct_p, gOperand_p.

(** The tokens [ts] make up the nodes [ns]. *)
Definition spells (ts : list tk) (ns : list anode) : Prop := forall a b, chain a (map k_sp ts) b -> (b <= len)%nat -> row a ns b.
Definition V (ts : list tk) (v : value) : Prop := spells ts (ofValue v) /\ valueSpan v <> None.
Definition Vs (ts : list tk) (vs : list value) : Prop := spells ts (flat_map ofValue vs).
Lemma ofValue_some v sp : valueSpan v = Some sp -> ofValue v = [NdValue v].
Proof. destruct v; cbn; congruence. Qed.
Lemma V_leaf x v : valueSpan v = Some (k_sp x) -> kids (NdValue v) = [] -> (match v with VFunc _ _ _ => False | _ => True end) -> V [x] v.
Proof.
  intros E K F. split; [|congruence]. intros a b H Hb. rewrite (ofValue_some _ _ E). apply (row_leaf a b (NdValue v) (k_sp x)); auto.
Qed.
Lemma V_cons ts v ts2 vs : V ts v -> Vs ts2 vs -> Vs (ts ++ ts2) (v :: vs).
Proof. intros [H1 _] H2 a b H Hb. ch. cbn [flat_map]. apply row_app. les. eexists. split; [apply H1|apply H2]; eauto; lia. Qed.
Lemma V_comma x ts vs : Vs ts vs -> Vs (x :: ts) (VComma (k_sp x) :: vs).
Proof. intros H. apply (V_cons [x]); auto. apply V_leaf; cbn; auto. Qed.
Lemma V_wrap x ts vs y v : spells ts vs -> valueSpan v = Some (across x y) -> kids (NdValue v) = vs -> (match v with VFunc _ _ _ => False | _ => True end) ->
  V (x :: ts ++ [y]) v.
Proof.
  intros H E K F. split; [|congruence]. intros a b Hc Hb. rewrite (ofValue_some _ _ E). ch. eapply row_node; [exact Hb|destruct v; cbn in *; auto; contradiction|exact E|pos|].
  rewrite K. eapply row_weak; [apply H; [eassumption|]|..]; pos.
Qed.
Lemma V_math ts a x ts2 b spa spb op : V ts a -> V ts2 b -> valueSpan a = Some spa -> valueSpan b = Some spb ->
  V (ts ++ x :: ts2) (VMath (mkSpan (sp_start spa) (sp_end spb)) op a b).
Proof.
  intros [Ha _] [Hb _] Ea Eb. split; [|discriminate]. intros p q Hc Hq. ch. les. change (ofValue (VMath (mkSpan (sp_start spa) (sp_end spb)) op a b)) with [NdValue (VMath (mkSpan (sp_start spa) (sp_end spb)) op a b)].
  match goal with H1 : chain p (map k_sp ts) ?m, H2 : chain ?m2 (map k_sp ts2) q |- _ => pose proof (Ha _ _ H1 ltac:(lia)) as Ra; pose proof (Hb _ _ H2 ltac:(lia)) as Rb end.
  rewrite (ofValue_some _ _ Ea) in Ra. rewrite (ofValue_some _ _ Eb) in Rb. pose proof (row_span _ _ _ _ Ra Ea) as Ca. pose proof (row_span _ _ _ _ Rb Eb) as Cb.
  eapply row_node; [exact Hq|exact I|reflexivity|pos|]. cbn [kids sp_start sp_end]. rewrite (ofValue_some _ _ Ea), (ofValue_some _ _ Eb).
  apply row_app. exists (sp_end spa). split.
  - eapply row_one; [exact Ea|pos|]. destruct Ra as [_ Ra]. inversion Ra; auto.
  - eapply row_one; [exact Eb|pos|]. destruct Rb as [_ Rb]. inversion Rb; auto.
Qed.
Lemma V_func x ts vs e : Vs ts vs -> e = [] \/ (exists y, e = [y]) -> forall name sp,
  sp = match e with [] => k_sp x | y :: _ => across x y end -> V (x :: ts ++ e) (VFunc sp name vs).
Proof.
  intros H He name sp Es. split; [|discriminate]. intros a b Hc Hb. change (ofValue (VFunc sp name vs)) with [NdValue (VFunc sp name vs)].
  destruct He as [->|(y & ->)]; subst sp; ch.
  - les. match goal with H1 : chain _ (map k_sp ts) _ |- _ => pose proof (H _ _ H1 ltac:(lia)) as R end.
    eapply row_one; [reflexivity|pos|]. constructor; [|exact (proj2 R)]. split; [split; pos|]. right. left. eapply chain_weak; [exact (proj1 R)|lia|lia].
  - les. match goal with H1 : chain _ (map k_sp ts) _ |- _ => pose proof (H _ _ H1 ltac:(lia)) as R end.
    eapply row_one; [reflexivity|pos|]. constructor; [|exact (proj2 R)]. split; [split; pos|]. left. eapply chain_weak; [exact (proj1 R)|pos|pos].
Qed.
Lemma V_url x s : V [x] (VFunc (k_sp x) (B "url") [VIdent (mkSpan 0 0) s]).
Proof.
  split; [|discriminate]. intros a b H Hb. ch. eapply row_one; [reflexivity|pos|]. constructor.
  - split; [split; pos|]. right. right. split; [reflexivity|]. exists s. reflexivity.
  - cbn. constructor; [|constructor]. constructor; [|constructor]. cbn. repeat split; cbn; lia.
Qed.
Lemma values_spelled : (forall ts v, gValue ts v -> V ts v) /\ (forall ts vs, gValues ts vs -> Vs ts vs) /\
  (forall ts vs, gArgs ts vs -> Vs ts vs) /\ (forall ts vs, gMathArgs ts vs -> Vs ts vs) /\
  (forall ts v, gSum ts v -> V ts v) /\ (forall ts v, gProduct ts v -> V ts v) /\ (forall ts v, gOperand ts v -> V ts v).
Proof.
  assert (N : Vs [] []) by (intros a b H _; apply row_nil; exact H).
  apply values_p; auto; try (intros; apply V_leaf; cbn; auto; fail); try (intros; apply V_cons; auto; fail); try (intros; apply V_comma; auto; fail).
  - intros x _. apply V_url.
  - intros x ts vs y _ _ H _. eapply V_wrap; try reflexivity. exact H.
  - intros x ts vs y _ _ _ H _. eapply V_func; eauto.
  - intros x ts vs y _ _ _ H _. eapply V_func; eauto.
  - intros x ts vs _ _ _ _ H. rewrite <- (app_nil_r ts). eapply V_func; eauto.
  - intros ts a x ts2 b spa spb _ Ha _ _ _ Hb Ea Eb. apply V_math; auto.
  - intros ts a x ts2 b spa spb _ Ha _ _ _ Hb Ea Eb. apply V_math; auto.
  - intros x ts v y _ _ [H _] _. eapply V_wrap; try reflexivity. exact H.
  - intros x y _ _. apply (V_wrap x [] [] y); try reflexivity. intros a b H _. apply row_nil. exact H.
Qed.
Lemma value_spelled ts v : gValue ts v -> V ts v. Proof. apply values_spelled. Qed.
Lemma opt_spelled ts v : gOpt ts v -> spells ts (ofValue v).
Proof. intros [[-> ->]|H]; [intros a b H _; apply row_nil; exact H|apply value_spelled; auto]. Qed.

Lemma spells_nil : spells [] []. Proof. intros a b H _. apply row_nil. exact H. Qed.
Lemma spells_app ts ns ts2 ns2 : spells ts ns -> spells ts2 ns2 -> spells (ts ++ ts2) (ns ++ ns2).
Proof. intros H1 H2 a b H Hb. ch. les. apply row_app. eexists. split; [apply H1|apply H2]; eauto; lia. Qed.
Lemma spells_cons ts n ts2 ns : spells ts [n] -> spells ts2 ns -> spells (ts ++ ts2) (n :: ns).
Proof. intros H1 H2. apply (spells_app ts [n] ts2 ns H1 H2). Qed.
Lemma spells_skip x ts ns : spells ts ns -> spells (x :: ts) ns.
Proof. intros H a b Hc Hb. ch. eapply row_weak; [apply H; eauto|pos|pos]. Qed.
Lemma spells_leaf x n : simple n -> locate n = Some (k_sp x) -> kids n = [] -> spells [x] [n].
Proof. intros S0 E K a b H Hb. eapply row_leaf; eauto. Qed.
Lemma firstFrom_chain a ts b : chain a (map k_sp ts) b -> ts <> [] -> (a <= firstFrom ts)%nat /\ chain (firstFrom ts) (map k_sp ts) b.
Proof. intros H N. destruct ts as [|x ts]; [congruence|]. cbn [firstFrom]. ch. split; [pos|]. cbn [map chain]. pos. Qed.
Lemma spells_first ts ns a b : spells ts ns -> ts <> [] -> chain a (map k_sp ts) b -> (b <= len)%nat -> (a <= firstFrom ts)%nat /\ row (firstFrom ts) ns b.
Proof. intros H N Hc Hb. destruct (firstFrom_chain _ _ _ Hc N) as [F1 F2]. split; auto. Qed.

(** The last of a row. *)
Lemma row_to_last {A} (f : A -> anode) (g : A -> span) a l b d : (forall x, locate (f x) = Some (g x)) -> row a (map f l) b -> l <> [] ->
  (sp_end (last (map g l) d) <= b)%nat /\ row a (map f l) (sp_end (last (map g l) d)).
Proof.
  intros E. revert a. induction l as [|x l IH]; intros a H N; [congruence|]. apply (row_app a [f x] (map f l) b) in H as (m & H1 & H2).
  destruct l as [|y l].
  - cbn [map last]. pose proof (row_span _ _ _ _ H1 (E x)) as C. rewrite chain_one in C. les. split; [lia|]. cbn [map].
    eapply row_one; [apply E|rewrite chain_one; lia|]. destruct H1 as [_ H1]. inversion H1; auto.
  - destruct (IH m H2) as [I1 I2]; [discriminate|]. change (last (map g (x :: y :: l)) d) with (last (map g (y :: l)) d). split; auto. eapply row_cons; eauto.
Qed.
Lemma row_spanning {A} (f : A -> anode) (g : A -> span) a l b : (forall x, locate (f x) = Some (g x)) -> row a (map f l) b -> l <> [] ->
  chain a [spanning (map g l)] b /\ row (sp_start (spanning (map g l))) (map f l) (sp_end (spanning (map g l))).
Proof.
  intros E [H W] N. assert (X : spansOf (map f l) = map g l).
  { clear H W N. induction l as [|x l IH]; [reflexivity|]. unfold spansOf in *. cbn [map flat_map]. rewrite E, IH. reflexivity. }
  rewrite X in H. apply chain_spanning in H as [H1 H2]; [|destruct l; [congruence|discriminate]]. split; auto. split; auto. rewrite X. auto.
Qed.

(** * Declarations *)
Definition spanned (v : value) : Prop := valueSpan v <> None.
Lemma items_spelled ts vs i : gItems ts vs i -> Vs ts vs /\ Forall spanned vs /\
  forall a b e, chain a (map k_sp ts) b -> i = Some e -> (a <= e <= b)%nat.
Proof.
  assert (One : forall t v ts vs i, V t v -> Vs ts vs /\ Forall spanned vs /\ (forall a b e, chain a (map k_sp ts) b -> i = Some e -> (a <= e <= b)%nat) ->
    Vs (t ++ ts) (v :: vs) /\ Forall spanned (v :: vs) /\ forall a b e, chain a (map k_sp (t ++ ts)) b -> i = Some e -> (a <= e <= b)%nat).
  { intros t v ts0 vs0 i0 Hv (I1 & I2 & I3). split; [apply V_cons; auto|]. split; [constructor; auto; apply Hv|].
    intros a b e H E. ch. match goal with H : chain _ (map k_sp ts0) b |- _ => specialize (I3 _ _ _ H E) end. les. lia. }
  induction 1 as [|ts v ts2 vs i G _ IH|x ts vs i _ _ IH|x ts vs i _ _ _ IH|x y ts vs i _ _ _ _ _ IH].
  - split; [apply spells_nil|]. split; [constructor|]. discriminate.
  - apply One; auto. apply value_spelled; auto.
  - apply (One [x]); auto. apply V_leaf; cbn; auto.
  - apply (One [x]); auto. apply V_leaf; cbn; auto.
  - destruct IH as (I1 & I2 & I3). split; [do 2 apply spells_skip; auto|]. split; auto. intros a b e H E. ch. injection E as <-.
    destruct i as [e|]; [match goal with H : chain _ (map k_sp ts) b |- _ => specialize (I3 _ _ _ H eq_refl) end; les; lia|pos].
Qed.
Lemma values_end vs : Forall spanned vs -> vs <> [] -> forall a b, row a (flat_map ofValue vs) b -> (valuesEnd vs <= b)%nat /\ row a (flat_map ofValue vs) (valuesEnd vs).
Proof.
  induction 1 as [|v vs Hv _ IH]; [congruence|]. intros _ a b H. cbn [flat_map] in *. apply row_app in H as (m & H1 & H2).
  destruct (valueSpan v) as [sp|] eqn:E; [|elim (Hv E)]. rewrite (ofValue_some _ _ E) in *.
  destruct vs as [|w vs].
  - unfold valuesEnd. cbn [last]. rewrite E. pose proof (row_span _ _ _ _ H1 E) as C. rewrite chain_one in C. les. split; [lia|]. cbn [flat_map app].
    eapply row_one; [exact E|rewrite chain_one; lia|]. destruct H1 as [_ H1]. inversion H1; auto.
  - destruct (IH ltac:(discriminate) m b H2) as [I1 I2]. change (valuesEnd (v :: w :: vs)) with (valuesEnd (w :: vs)). split; auto. apply row_app. eauto.
Qed.
Lemma decl_spelled ts d : gDecl content ts d -> spells ts [NdDecl d].
Proof.
  intros [star p c ts0 vs i _ _ _ G N|ts0 s _ _ _] a b H Hb.
  - destruct (items_spelled _ _ _ G) as (I1 & I2 & I3). ch.
    match goal with H : chain ?m (map k_sp ts0) b |- _ => pose proof (I1 _ _ H Hb) as R; pose proof (fun e => I3 _ _ e H) as I4 end.
    destruct (values_end vs I2 N _ _ R) as [E1 E2]. les.
    assert (X : forall e, i = Some e -> (e <= b)%nat) by (intros e E; apply I4 in E; lia).
    assert (Y : (upto p <= match i with Some e => e | None => upto p end <= b)%nat).
    { destruct i as [e|]; [specialize (I4 e eq_refl)|]; unfold upto; lia. }
    unfold from, upto in *. eapply row_node; [exact Hb|exact I|reflexivity|cbn [chain sp_start sp_end]; lia|].
    cbn [kids sp_start sp_end]. eapply row_weak; [exact E2|lia|lia].
  - destruct (firstFrom_chain _ _ _ H) as [F1 F2]; [destruct ts0; discriminate|]. ch.
    eapply row_leaf; [exact Hb|exact I|reflexivity| |reflexivity]. les. cbn [chain sp_start sp_end]. pos.
Qed.
Lemma decls_spelled ts ds : gDecls content ts ds -> spells ts (map NdDecl ds).
Proof.
  induction 1 as [|ts d ts2 ds _ H _ IH|ts d x ts2 ds H _ _ IH]; cbn [map].
  - apply spells_nil.
  - apply spells_cons; auto. apply decl_spelled; auto.
  - apply spells_cons; [apply decl_spelled; auto|apply spells_skip; auto].
Qed.
Lemma body_spelled o ts sp ds : gBody content o ts sp ds -> spells (o :: ts) [NdDecls sp ds] /\ sp_start sp = from o /\
  forall a b, chain a (map k_sp (o :: ts)) b -> (sp_end sp <= b)%nat.
Proof.
  intros (ts1 & y & -> & G & _ & ->). split; [|split; [reflexivity|intros; ch; pos]]. intros a b H Hb. ch.
  eapply row_node; [exact Hb|exact I|reflexivity|pos|]. cbn [kids]. eapply row_weak; [eapply decls_spelled; eauto|pos|pos]. les. lia.
Qed.

(** * Selectors *)
Scheme gPart_p := Minimality for gPart Sort Prop
with gPseudo_p := Minimality for gPseudo Sort Prop
with gParts_p := Minimality for gParts Sort Prop
with gSelectors_p := Minimality for gSelectors Sort Prop.
Combined Scheme selectors_p from gPart_p, gPseudo_p, gParts_p, gSelectors_p.
Definition pseudo (ts : list tk) (args : pargs selpart) (e : nat) : Prop :=
  forall a b, chain a (map k_sp ts) b -> (b <= len)%nat -> row a (ofArgs args) e /\ (e <= b)%nat.
Lemma nth_spelled ts args k : gNth ts args k -> spells ts (ofArgs args).
Proof.
  intros [|x _ _|x a s b _ _|x a s b ts0 s2 b2 e _ _ G]; cbn [ofArgs].
  - apply spells_nil.
  - apply spells_leaf; cbn; auto.
  - apply spells_leaf; cbn; auto.
  - intros p q H Hq. ch. destruct G as [y s3 b3 _ _ _|y z _ _ _]; ch; (eapply row_leaf; [exact Hq|exact I|reflexivity|pos|reflexivity]).
Qed.
Lemma selectors_spelled :
  (forall k ts p k1, gPart k ts p k1 -> spells ts [NdPart p] /\ ts <> []) /\
  (forall ts name args e, gPseudo ts name args e -> pseudo ts args e) /\
  (forall k ts ps k1, gParts k ts ps k1 -> spells ts (map NdPart ps) /\ (ps <> [] -> ts <> [])) /\
  (forall k ts sels k1, gSelectors k ts sels k1 -> spells ts (map NdSelector sels) /\ sels <> [] /\ ts <> []).
Proof.
  assert (Sel : forall ts ps, spells ts (map NdPart ps) -> ps <> [] -> spells ts [NdSelector (spanning (map partSpan ps), ps)]).
  { intros ts ps H N a b Hc Hb. destruct (row_spanning NdPart partSpan a ps b (fun _ => eq_refl) (H _ _ Hc Hb) N) as [R1 R2].
    eapply row_node; [exact Hb|exact I|reflexivity|exact R1|exact R2]. }
  apply selectors_p; try (intros; split; [apply spells_leaf; cbn; auto|discriminate]; fail).
  - intros k x y _ _ _. split; [|discriminate]. intros a b H Hb. ch. eapply row_leaf; [exact Hb|exact I|reflexivity|pos|reflexivity].
  - intros k x ts name args e _ _ H. split; [|discriminate]. intros a b Hc Hb. ch.
    match goal with Hc : chain _ (map k_sp ts) b |- _ => destruct (H _ _ Hc Hb) as [R1 R2] end. les.
    eapply row_node; [exact Hb|exact I|reflexivity|pos|]. cbn [kids]. eapply row_weak; [exact R1|pos|pos].
  - intros k x y ts name args e _ _ _ H. split; [|discriminate]. intros a b Hc Hb. ch.
    match goal with Hc : chain _ (map k_sp ts) b |- _ => destruct (H _ _ Hc Hb) as [R1 R2] end. les.
    eapply row_node; [exact Hb|exact I|reflexivity|pos|]. cbn [kids sp_start sp_end partSpan].
    eapply (row_node (from x) e); [lia|exact I|reflexivity|cbn [partSpan]; pos|]. cbn [kids]. eapply row_weak; [exact R1|pos|pos].
  - intros k x y z _ _ _. split; [|discriminate]. intros a b H Hb. ch. eapply row_leaf; [exact Hb|exact I|reflexivity|pos|reflexivity].
  - intros k x y op pre ts v z _ _ _ G _. split; [|discriminate]. intros a b H Hb. ch. les.
    eapply row_node; [exact Hb|exact I|reflexivity|pos|]. cbn [kids]. eapply row_weak; [apply (value_spelled _ _ G); [eassumption|lia]|pos|pos].
  - intros k x y op pre ts v m z _ _ _ G _ _ _. split; [|discriminate]. intros a b H Hb. ch. les.
    eapply row_node; [exact Hb|exact I|reflexivity|pos|]. cbn [kids]. eapply row_weak; [apply (value_spelled _ _ G); [eassumption|lia]|pos|pos].
  - intros x _ a b H Hb. ch. cbn [ofArgs]. split; [apply row_nil; pos|pos].
  - intros x ts args k y _ _ G _ a b H Hb. ch. les. split; [|pos]. eapply row_weak; [eapply (nth_spelled _ _ _ G); [eassumption|lia]|pos|pos].
  - intros x ts sels k y _ _ _ [H [N _]] _ a b Hc Hb. ch. les. split; [|pos].
    match goal with Hc : chain _ (map k_sp ts) _ |- _ => pose proof (H _ _ Hc ltac:(lia)) as R end.
    destruct (row_spanning NdSelector fst _ sels _ (fun _ => eq_refl) R N) as [R1 R2]. cbn [ofArgs].
    eapply row_node; [|exact I|reflexivity| |exact R2]; unfold upto; [lia|]. cbn [fst]. eapply chain_weak; [exact R1|lia|lia].
  - intros k. split; [apply spells_nil|congruence].
  - intros k ts p k1 ts2 ps k2 _ [H N] _ [H2 _]. split; [apply spells_cons; auto|]. intros _ E. apply app_eq_nil in E as [E _]. auto.
  - intros k ts ps k1 _ [H H2] N. split; [apply Sel; auto|]. split; [discriminate|auto].
  - intros k ts ps k1 c ts2 sels k2 _ [H _] N _ _ [H2 _]. split; [|split; [discriminate|destruct ts; discriminate]]. cbn [map]. apply spells_cons; [apply Sel; auto|apply spells_skip; auto].
Qed.
Lemma selectors_list k ts sels k1 : gSelectors k ts sels k1 -> spells ts [NdSelectors (spanning (map fst sels), sels)] /\ ts <> [].
Proof.
  intros G. apply (proj2 (proj2 (proj2 selectors_spelled))) in G as (H & N & M). split; auto. intros a b Hc Hb.
  destruct (row_spanning NdSelector fst a sels b (fun _ => eq_refl) (H _ _ Hc Hb) N) as [R1 R2]. eapply row_node; [exact Hb|exact I|reflexivity|exact R1|exact R2].
Qed.

(** * Rules *)
Lemma keys_spelled ts ks : gKeys ts ks -> spells ts (map NdKey ks) /\ ks <> [] /\ ts <> [].
Proof.
  assert (K : forall x key, gKey x key -> spells [x] [NdKey key]) by (intros x key []; apply spells_leaf; cbn; auto).
  induction 1 as [x key G|x key c ts ks G _ _ (IH & _)]; (split; [|split; discriminate]); cbn [map]; auto.
  apply (spells_cons [x] (NdKey key) (c :: ts)); auto. apply spells_skip; auto.
Qed.
Lemma keylists_spelled ts ks : gKeyLists ts ks -> spells ts [NdKeys (spanning (map keySpan ks)) ks] /\ ts <> [].
Proof.
  induction 1 as [ts ks G|ts ks ts2 ks2 _ G _ (IH & _)]; apply keys_spelled in G as (H & N & M).
  - split; auto. intros a b Hc Hb. destruct (row_spanning NdKey keySpan a ks b (fun _ => eq_refl) (H _ _ Hc Hb) N) as [R1 R2].
    eapply row_node; [exact Hb|exact I|reflexivity|exact R1|exact R2].
  - split; [|destruct ts; [congruence|discriminate]]. intros a b Hc Hb. ch. les. eapply row_weak; [eapply IH; eauto|lia|lia].
Qed.
Variable run : nat.
Lemma rule_spelled kf ts r : gRule content run kf ts r -> spells ts [NdRule r].
Proof.
  assert (With : forall ts n o ts2 sp ds pr, spells ts [n] -> ts <> [] -> gBody content o ts2 sp ds ->
    match pr with PrNil => [] | PrSel l => [NdSelectors l] | PrKey sp ks => [NdKeys sp ks] end = [n] ->
    spells (ts ++ o :: ts2) [NdRule (mkRule run (mkSpan (firstFrom ts) (sp_end sp)) pr sp ds)]).
  { intros ts0 n o ts2 sp ds pr H N G E a b Hc Hb. rewrite map_app in Hc. apply chain_app in Hc as (m & C1 & C2).
    destruct (body_spelled _ _ _ _ G) as (B1 & B2 & B3). specialize (B3 _ _ C2). pose proof (B1 _ _ C2 Hb) as R2. les.
    destruct (spells_first _ _ _ _ H N C1 ltac:(lia)) as [F1 R1]. les. pose proof (row_span _ _ _ _ R2 eq_refl) as C3. rewrite chain_one in C3.
    eapply row_node; [exact Hb|exact I|reflexivity|pos|]. cbn [kids r_prelude r_bsp r_decls r_sp sp_start sp_end]. rewrite E. apply row_app. exists m. split; auto.
    eapply row_one; [reflexivity|rewrite chain_one; lia|]. destruct R2 as [_ R2]. inversion R2; auto. }
  intros [kf0 o ts0 sp ds _ G|ts0 sels k o ts2 sp ds G _ G2|ts0 ks o ts2 sp ds G _ G2].
  - intros a b Hc Hb. destruct (body_spelled _ _ _ _ G) as (B1 & _). pose proof (B1 _ _ Hc Hb) as R. pose proof (row_span _ _ _ _ R eq_refl) as C. rewrite chain_one in C.
    eapply row_node; [exact Hb|exact I|reflexivity|cbn; lia|]. cbn [kids r_prelude app r_bsp r_decls r_sp].
    eapply row_one; [reflexivity|rewrite chain_one; lia|]. destruct R as [_ R]. inversion R; auto.
  - apply selectors_list in G as [G N]. eapply With; eauto.
  - apply keylists_spelled in G as [G N]. eapply With; eauto.
Qed.
Lemma rules_spelled kf ts rs : gRules content run kf ts rs -> spells ts (map NdRule rs).
Proof. induction 1 as [|kf ts r ts2 rs G _ IH]; cbn [map]; [apply spells_nil|]. apply spells_cons; auto. eapply rule_spelled; eauto. Qed.
Lemma ruleBody_spelled kf o ts sp rs : gRuleBody content run kf o ts sp rs -> spells (o :: ts) [NdRules sp rs].
Proof.
  intros (ts1 & y & -> & G & _ & ->). intros a b H Hb. ch.
  eapply row_node; [exact Hb|exact I|reflexivity|pos|]. cbn [kids]. eapply row_weak; [eapply rules_spelled; eauto|pos|pos]. les. lia.
Qed.

(** * Media queries *)
Lemma range_spelled a b sp psp prop l op r : (b <= len)%nat -> chain a [sp] b -> chain (sp_start sp) [psp] (sp_end sp) ->
  row (sp_start sp) (ofValue l ++ ofValue r) (sp_end sp) -> row a [NdQueryPart (MRange sp psp prop l op r)] b.
Proof.
  intros Hb C P [R W]. eapply row_one; [reflexivity|exact C|]. rewrite chain_one in C. constructor.
  - split; [split; cbn [mqpartSpan]; lia|]. split; auto.
  - cbn [kids]. constructor; auto. rewrite chain_one in P. constructor; [|constructor]. split; [split; lia|]. cbn. lia.
Qed.
Lemma queryPart_spelled ts p : gQueryPart ts p -> spells ts [NdQueryPart p] /\ ts <> [].
Proof.
  intros [x _|x p0 y _ _ _|x p0 c ts0 v y _ _ _ G _|x ts0 v o op p0 y _ G _ _ _|x ts0 v o op p0 o2 ts2 v2 y _ G _ _ _ G2 _|x p0 o op ts0 v y _ _ _ G _ _]; (split; [|discriminate]).
  - apply spells_leaf; cbn; auto.
  - intros a b H Hb. ch. eapply row_node; [exact Hb|exact I|reflexivity|pos|]. cbn [kids ofValue isNil mqpartSpan].
    eapply row_leaf; [|exact I|reflexivity| |reflexivity]; pos.
  - intros a b H Hb. ch. les. eapply row_node; [exact Hb|exact I|reflexivity|pos|]. cbn [kids mqpartSpan].
    eapply row_cons; [eapply (row_leaf _ (sp_end (k_sp p0))); [|exact I|reflexivity| |reflexivity]; pos|].
    eapply row_weak; [apply (opt_spelled _ _ G); [eassumption|lia]|pos|pos].
  - intros a b H Hb. ch. les. eapply range_spelled; [exact Hb|pos|pos|]. cbn [ofValue isNil]. rewrite app_nil_r.
    eapply row_weak; [apply (opt_spelled _ _ G); [eassumption|lia]|pos|pos].
  - intros a b H Hb. ch. les. eapply range_spelled; [exact Hb|pos|pos|]. apply row_app. exists (sp_end (k_sp p0)). split.
    + eapply row_weak; [apply (opt_spelled _ _ G); [eassumption|lia]|pos|pos].
    + eapply row_weak; [apply (opt_spelled _ _ G2); [eassumption|lia]|pos|pos].
  - intros a b H Hb. ch. les. eapply range_spelled; [exact Hb|pos|pos|]. cbn [ofValue isNil app].
    eapply row_weak; [apply (opt_spelled _ _ G); [eassumption|lia]|pos|pos].
Qed.
Lemma query_spelled ts ps : gQuery ts ps -> spells ts (map NdQueryPart ps) /\ (ps <> [] -> ts <> []).
Proof.
  induction 1 as [|ts p ts2 ps G _ (IH & _)]; [split; [apply spells_nil|congruence]|]. apply queryPart_spelled in G as [G N]. split; [apply spells_cons; auto|].
  destruct ts; [congruence|discriminate].
Qed.
Lemma asQuery_spelled ts ps : gQuery ts ps -> spells ts (map NdQuery (asQuery ps)) /\ (asQuery ps <> [] -> ts <> []).
Proof.
  intros G. apply query_spelled in G as [G N]. destruct ps as [|p ps]; [split; [exact G|cbn; congruence]|]. split; [|intros _; apply N; discriminate].
  unfold asQuery. cbn [map] in *. intros a b Hc Hb. destruct (row_spanning NdQueryPart mqpartSpan a (p :: ps) b (fun _ => eq_refl) (G _ _ Hc Hb)) as [R1 R2]; [discriminate|].
  eapply row_node; [exact Hb|exact I|reflexivity|exact R1|exact R2].
Qed.
Lemma queries_spelled ts qs : gQueries ts qs -> spells ts (map NdQuery qs) /\ (qs <> [] -> ts <> []).
Proof.
  induction 1 as [ts ps G|ts ps c ts2 qs G _ _ (IH & _)]; apply asQuery_spelled in G as [G N]; auto. rewrite map_app. split; [|destruct ts; discriminate].
  apply spells_app; auto. apply spells_skip; auto.
Qed.
Lemma queriesList_spelled ts qs : gQueries ts qs -> qs <> [] -> forall a b, chain a (map k_sp ts) b -> (b <= len)%nat ->
  row a [NdQueries (queriesSpan ts qs, qs)] b.
Proof.
  intros G N a b Hc Hb. apply queries_spelled in G as [G M]. destruct (spells_first _ _ _ _ G (M N) Hc Hb) as [F R].
  destruct (row_to_last NdQuery fst _ qs _ (mkSpan 0 0) (fun _ => eq_refl) R N) as [R1 R2]. les.
  eapply row_node; [exact Hb|exact I|reflexivity|unfold queriesSpan; change (fst (mkSpan (firstFrom ts) (sp_end (last (map fst qs) (mkSpan 0 0))), qs)) with (mkSpan (firstFrom ts) (sp_end (last (map fst qs) (mkSpan 0 0)))); rewrite chain_one; cbn [sp_start sp_end]; auto|]. exact R2.
Qed.

(** * The file *)
Lemma target_spelled ts sp s : gTarget ts sp s -> forall a b, chain a (map k_sp ts) b -> chain a [sp] b.
Proof. intros [x _|x _|x y z _ _ _ _] a b H; ch; pos. Qed.
(** The end of the last node of a row. *)
Lemma row_shrink a n sp b : row a [n] b -> locate n = Some sp -> row a [n] (sp_end sp) /\ (a <= sp_start sp)%nat /\ (sp_start sp <= sp_end sp)%nat /\ (sp_end sp <= b)%nat.
Proof.
  intros R E. pose proof (row_span _ _ _ _ R E) as C. rewrite chain_one in C. split; [|lia]. eapply row_one; [exact E|rewrite chain_one; lia|]. destruct R as [_ R]. inversion R; auto.
Qed.
Lemma at_spelled ts at_ : gAt content run ts at_ -> spells ts [NdAt at_].
Proof.
  intros [x ts0 sp s _ _ G ts2 _|x ts0 sp s ts2 qs _ _ G G2 N|x ts0 qs o ts2 sp rs _ _ G _ G2|x y pre o ts0 sp rs _ _ G _ G2|x y ts0 q _ _ _ G|x o ts0 sp ds _ _ _ _ G] a b H Hb.
  - ch. match goal with H : chain _ (map k_sp ts0) _ |- _ => pose proof (target_spelled _ _ _ G _ _ H) as C end. les. rewrite chain_one in C.
    eapply row_node; [exact Hb|exact I|reflexivity|cbn [ar_sp chain]; pos|]. cbn [kids ar_preludes ar_block map ofAtPrelude app ar_sp sp_start sp_end].
    eapply row_leaf; [|exact I|reflexivity|cbn [chain]; pos|reflexivity]. lia.
  - ch. match goal with H : chain _ (map k_sp ts0) _ |- _ => pose proof (target_spelled _ _ _ G _ _ H) as C end. les. rewrite chain_one in C.
    match goal with H : chain _ (map k_sp ts2) b |- _ => pose proof (queriesList_spelled _ _ G2 N _ _ H Hb) as R end.
    apply (row_shrink _ _ (queriesSpan ts2 qs)) in R as (R & Q1 & Q2 & Q3); [|reflexivity].
    eapply row_node; [exact Hb|exact I|reflexivity|cbn [ar_sp chain]; pos|]. cbn [kids ar_preludes ar_block map ofAtPrelude app ar_sp sp_start sp_end].
    eapply row_cons; [|exact R]. eapply row_leaf; [|exact I|reflexivity|cbn [chain]; pos|reflexivity]. lia.
  - cbn [map] in H. rewrite map_app in H. apply (chain_app a [k_sp x]) in H as (m & C1 & H). apply chain_app in H as (m2 & C2 & C3). rewrite chain_one in C1.
    pose proof (ruleBody_spelled _ _ _ _ _ G2 _ _ C3 Hb) as R. apply (row_shrink _ _ sp) in R as (R & Q1 & Q2 & Q3); [|reflexivity]. les.
    eapply row_node; [exact Hb|exact I|reflexivity|cbn [ar_sp chain]; pos|]. cbn [kids ar_preludes ar_block map ofAtPrelude app ar_sp sp_start sp_end].
    destruct qs as [|q qs].
    + split.
      * destruct R as [R _]. unfold spansOf in *. cbn [flat_map locate app] in *. eapply chain_weak; [exact R|pos|lia].
      * constructor; [|apply R]. constructor; constructor.
    + eapply row_cons; [|exact R]. eapply row_weak; [eapply queriesList_spelled; [exact G|discriminate|exact C2|lia]|pos|lia].
  - cbn [map] in H. apply (chain_app a [k_sp x]) in H as (m & C1 & H). apply (chain_app m [k_sp y] (k_sp o :: map k_sp ts0)) in H as (m2 & C2 & C3). rewrite chain_one in C1, C2.
    pose proof (ruleBody_spelled _ _ _ _ _ G2 _ _ C3 Hb) as R. apply (row_shrink _ _ sp) in R as (R & Q1 & Q2 & Q3); [|reflexivity]. les.
    eapply row_node; [exact Hb|exact I|reflexivity|cbn [ar_sp chain]; pos|]. cbn [kids ar_preludes ar_block map app ar_sp sp_start sp_end].
    eapply row_cons; [|exact R]. assert (E : locate (ofAtPrelude pre) = Some (k_sp y) /\ simple (ofAtPrelude pre) /\ kids (ofAtPrelude pre) = []) by (destruct G as [[_ ->]|[_ ->]]; cbn; auto).
    destruct E as (E1 & E2 & E3). eapply row_leaf; [|exact E2|exact E1|cbn [chain]; pos|exact E3]. lia.
  - ch. apply queries_spelled in G as [G M]. match goal with H : chain _ (map k_sp ts0) b |- _ => pose proof (G _ _ H Hb) as R end. cbn [map] in R.
    apply (row_shrink _ _ (fst q)) in R as (R & Q1 & Q2 & Q3); [|reflexivity]. les.
    eapply row_node; [exact Hb|exact I|reflexivity|cbn [ar_sp chain]; pos|]. cbn [kids ar_preludes ar_block map ofAtPrelude app ar_sp sp_start sp_end].
    eapply row_cons; [|exact R]. eapply row_leaf; [|exact I|reflexivity|cbn [chain]; pos|reflexivity]. lia.
  - cbn [map] in H. apply (chain_app a [k_sp x]) in H as (m & C1 & H). rewrite chain_one in C1.
    destruct (body_spelled _ _ _ _ G) as (B1 & _). pose proof (B1 _ _ H Hb) as R. apply (row_shrink _ _ sp) in R as (R & Q1 & Q2 & Q3); [|reflexivity]. les.
    eapply row_node; [exact Hb|exact I|reflexivity|cbn [ar_sp chain]; pos|]. cbn [kids ar_preludes ar_block map app ar_sp sp_start sp_end].
    eapply row_weak; [exact R|pos|lia].
Qed.
Lemma nodes_spelled ts nds : gNodes content run ts nds -> spells ts (map ofNode nds).
Proof.
  induction 1 as [|x ts nds _ _ IH|ts r ts2 nds G _ IH|ts a ts2 nds G _ IH _]; cbn [map ofNode].
  - apply spells_nil.
  - apply spells_skip; auto.
  - apply spells_cons; auto. eapply rule_spelled; eauto.
  - apply spells_cons; auto. apply at_spelled; auto.
Qed.
End Content.

Lemma laid_chain content a ts b : laidOut content a ts b -> (a <= length content)%nat -> chain a (map k_sp ts) (length content).
Proof. induction 1 as [a|a x ts b H1 H2 _ _ _ IH]; intros La; cbn [map chain]; auto. split; [lia|]. split; [lia|]. apply IH. auto. Qed.
Lemma reads_placed {U : UnicodeDigits} run content nds : reads run content nds -> well content (NdSheet nds).
Proof.
  intros (ts & T & G). apply C47_layout_lemma in T as (b & T & _). apply laid_chain in T; [|lia]. apply nodes_spelled in G.
  destruct (G _ _ T (le_n _)) as [R W]. constructor; auto.
Qed.
Lemma C51_tree_well {U : UnicodeDigits} run n content ss lines : parse run n content = ParseOk ss lines -> well content (NdSheet (ss_nodes ss)).
Proof. intros H. apply C47_lemma in H. apply reads_placed in H. exact H. Qed.
Lemma C51_tree_lemma {U : UnicodeDigits} run n content ss lines : parse run n content = ParseOk ss lines -> placedTree content (ss_nodes ss).
Proof. intros H vs P. apply C51_tree_well in H. eapply well_preorder; eauto. Qed.
