(** Proofs about white space in selectors (C62). *)
From Verif Require Import Bytes Utf8 Source Lexer BytesFacts LexSpec LexGrammar Ast Walk WalkSpec Parser ReadSpec ReadProofs LexStreamSpec LexStream SpanProofs SelectorSpec.

Open Scope nat_scope.
Section Content.
Local Instance allowed : Liberties := true.
Variable content : bytes.
(** Neighbours in a selector. *)
Definition next_to (p q : selpart) : Prop :=
  (isAttr p = false -> onlyComments (between content p q)) /\ (isAttr p = true -> isSpace q = false).
Fixpoint adjacent (ps : list selpart) : Prop :=
  match ps with p :: ((q :: _) as r) => next_to p q /\ adjacent r | _ => True end.
Definition fine (p : selpart) : Prop := isSpace p = true -> wsRun (sub content (sp_start (partSpan p)) (sp_end (partSpan p))).
Definition good (n : anode) : Prop := match n with NdSelector s => adjacent (snd s) /\ Forall fine (snd s) | _ => True end.
(** ... and so are all nodes below. *)
Definition deep (n : anode) : Prop := forall vs, preorder kids n vs -> Forall good vs.
Lemma deep_node n : good n -> Forall deep (kids n) -> deep n.
Proof.
  intros G K vs H. inversion H as [n0 vss F]; subst. constructor; auto. clear G H. revert K.
  induction F as [|k ws ks wss Hk F IHF]; intros K; cbn [concat]; [constructor|]. inversion K; subst. apply Forall_app. split; auto.
Qed.
(** Tokens that lie one after the other in the file. *)
Definition lies (ts : list tk) : Prop := (exists a b, laidOut content a ts b) /\ Forall (fun x => k_kept x = false -> k_tok x <> Whitespace) ts.
Lemma laid_app a ts ts2 b : laidOut content a (ts ++ ts2) b -> exists m, laidOut content a ts m /\ laidOut content m ts2 b.
Proof.
  revert a. induction ts as [|x ts IH]; intros a H; [exists a; split; [constructor|exact H]|].
  cbn [app] in H. inversion H as [|a0 x0 ts0 b0 H1 H2 H3 H4 H5]; subst. apply IH in H5 as (m & H5 & H6). exists m. split; auto. constructor; auto.
Qed.
Lemma lies_app ts ts2 : lies (ts ++ ts2) -> lies ts /\ lies ts2.
Proof.
  intros [(a & b & H) F]. apply Forall_app in F as [F1 F2]. apply laid_app in H as (m & H1 & H2). split; split; eauto.
Qed.
Lemma lies_cons x ts : lies (x :: ts) -> lies ts. Proof. intros H. apply (lies_app [x] ts) in H. tauto. Qed.
Lemma lies_gap ts x y ts2 : lies (ts ++ x :: y :: ts2) -> skipped (k_kept y) false (sub content (upto x) (from y)) /\ (k_kept y = false -> k_tok y <> Whitespace).
Proof.
  intros H. apply lies_app in H as [_ [(a & b & H) F]]. inversion H as [|a0 x0 ts0 b0 H1 H2 H3 H4 H5]; subst. inversion H5 as [|a1 x1 ts1 b1 I1 I2 I3 I4 I5]; subst.
  split; auto. inversion F as [|? ? _ F2]; subst. inversion F2; subst. auto.
Qed.
Lemma lies_text x ts : lies (x :: ts) -> k_tok x = Whitespace -> wsRun (sub content (from x) (upto x)).
Proof. intros [(a & b & H) _] E. inversion H as [|a0 x0 ts0 b0 H1 H2 H3 H4 H5]; subst. rewrite E in H4. exact H4. Qed.

(** Nodes without selectors below them. *)
Definition plainNode (n : anode) : Prop :=
  match n with NdSheet _ | NdRule _ | NdAt _ | NdSelectors _ | NdSelector _ | NdPart _ | NdRules _ _ => False | _ => True end.
Lemma ofValue_plain v : Forall plainNode (ofValue v). Proof. unfold ofValue. destruct (isNil v); repeat constructor. Qed.
Lemma ofValues_plain vs : Forall plainNode (flat_map ofValue vs).
Proof. induction vs; cbn; [constructor|]. apply Forall_app. split; [apply ofValue_plain|auto]. Qed.
Lemma map_plain {A} (f : A -> anode) l : (forall x, plainNode (f x)) -> Forall plainNode (map f l).
Proof. intros H. induction l; constructor; auto. Qed.
Lemma plain_kids n : plainNode n -> Forall plainNode (kids n).
Proof.
  destruct n; cbn [plainNode kids]; intros H; try contradiction; repeat match goal with |- context [match ?x with _ => _ end] => destruct x end; repeat first
    [apply Forall_nil|apply ofValue_plain|apply ofValues_plain|apply Forall_app; split|apply map_plain; intros; exact I|apply Forall_cons; [exact I|]].
Qed.
Lemma plain_all : forall n vs, preorder kids n vs -> plainNode n -> Forall plainNode vs.
Proof.
  fix IH 3. intros n vs [n0 vss F] W. constructor; auto. apply plain_kids in W. clear n. revert W.
  induction F as [|k ws ks wss Hk F IHF]; intros K; cbn [concat]; [constructor|]. inversion K; subst. apply Forall_app. split; [apply (IH k); auto|apply IHF; auto].
Qed.
Lemma plain_deep n : plainNode n -> deep n.
Proof. intros H vs P. apply (plain_all n vs P) in H. eapply Forall_impl; [|exact H]. intros m Hm. destruct m; try exact I. destruct Hm. Qed.
Lemma plains_deep ns : Forall plainNode ns -> Forall deep ns.
Proof. intros H. eapply Forall_impl; [|exact H]. intros m. apply plain_deep. Qed.

(** Where the tokens of a part are. *)
Lemma last_snoc {A} (l : list A) y d : last (l ++ [y]) d = y.
Proof. induction l as [|x l IH]; [reflexivity|]. cbn [app]. destruct (l ++ [y]) eqn:E; [destruct l; discriminate|]. exact IH. Qed.
Lemma last_cons_snoc {A} (x : A) l y d : last (x :: l ++ [y]) d = y.
Proof. exact (last_snoc (x :: l) y d). Qed.
Lemma pseudo_end ts name args e : gPseudo ts name args e -> exists ts' y, ts = ts' ++ [y] /\ e = upto y.
Proof.
  intros [x _|x ts0 a k y _ _ _ _|x ts0 sels k y _ _ _ _]; [exists [], x|exists (x :: ts0), y|exists (x :: ts0), y]; auto.
Qed.
Lemma part_tokens k ts p k1 : gPart k ts p k1 -> exists x ts', ts = x :: ts' /\ k_kept x = k /\ from x = sp_start (partSpan p) /\ (isSpace p = true -> k_tok x = Whitespace /\ partSpan p = k_sp x) /\ (isAttr p = false -> k1 = true /\ upto (last ts x) = sp_end (partSpan p)) /\ (isAttr p = true -> k1 = false).
Proof.
  intros G. destruct G as [k x H|k x H|k x H _|k x H|k x y H _ _|k x H _|k x ts name args e H P|k x y ts name args e H _ P|k x y z H _ _|k x y op pre ts v z H _ _ _ _|k x y op pre ts v m z H _ _ _ _ _ _];
    destruct H as [H1 H2]; (eexists x, _; split; [reflexivity|]; split; [exact H2|]; split; [reflexivity|]); cbn [isSpace isAttr];
    repeat split; auto; intros; try discriminate.
  - destruct (pseudo_end _ _ _ _ P) as (ts' & z & -> & ->). rewrite last_cons_snoc. reflexivity.
  - destruct (pseudo_end _ _ _ _ P) as (ts' & z & -> & ->). exact (f_equal upto (last_cons_snoc x (y :: ts') z x)).
Qed.
Lemma last_split {A} (x : A) l d : exists l0, x :: l = l0 ++ [last (x :: l) d].
Proof.
  revert x. induction l as [|y l IH]; intros x; [exists []; reflexivity|]. destruct (IH y) as (l0 & E). exists (x :: l0).
  change (last (x :: y :: l) d) with (last (y :: l) d). cbn [app]. rewrite <- E. reflexivity.
Qed.
Lemma parts_next k ts p k1 ts2 q k2 ts3 : gPart k ts p k1 -> gPart k1 ts2 q k2 -> lies (ts ++ ts2 ++ ts3) -> next_to p q.
Proof.
  intros G1 G2 L. apply part_tokens in G1 as (x & ts' & E1 & _ & _ & _ & A1 & A2). apply part_tokens in G2 as (y & ts2' & E2 & K & F & S2 & _ & _).
  destruct (last_split x ts' x) as (ts0 & E0). rewrite <- E1 in E0. rewrite E0, E2 in L. rewrite <- app_assoc in L. cbn [app] in L.
  apply lies_gap in L as [L1 L2]. split.
  - intros H. destruct (A1 H) as [-> A]. unfold onlyComments, between. rewrite <- F, <- A, <- K. exact L1.
  - intros H. pose proof (A2 H) as ->. destruct (isSpace q); auto. destruct (S2 eq_refl) as [W _]. destruct (L2 K W).
Qed.
Lemma part_fine k ts p k1 : gPart k ts p k1 -> lies ts -> fine p.
Proof.
  intros G L H. apply part_tokens in G as (x & ts' & -> & _ & _ & S2 & _ & _). destruct (S2 H) as [W ->]. exact (lies_text _ _ L W).
Qed.
Lemma part_none k ts p k1 : gPart k ts p k1 -> kids (NdPart p) = [] -> deep (NdPart p).
Proof. intros _ E. apply deep_node; [exact I|]. rewrite E. constructor. Qed.
Lemma selectors_deep :
  (forall k ts p k1, gPart k ts p k1 -> lies ts -> deep (NdPart p)) /\ (forall ts name args e, gPseudo ts name args e -> lies ts -> Forall deep (ofArgs args)) /\ (forall k ts ps k1, gParts k ts ps k1 -> lies ts -> Forall deep (map NdPart ps) /\ adjacent ps /\ Forall fine ps) /\ (forall k ts sels k1, gSelectors k ts sels k1 -> lies ts -> Forall deep (map NdSelector sels)).
Proof.
  apply selectors_p; try (intros; apply deep_node; [exact I|constructor]; fail).
  - intros k x ts name args e _ _ H L. apply lies_cons in L. apply deep_node; [exact I|]. cbn [kids]. auto.
  - intros k x y ts name args e _ _ _ H L. do 2 apply lies_cons in L. apply deep_node; [exact I|]. constructor; [|constructor].
    apply deep_node; [exact I|]. cbn [kids]. auto.
  - intros k x y op pre ts v z _ _ _ _ _ _. apply deep_node; [exact I|]. apply plains_deep. apply ofValue_plain.
  - intros k x y op pre ts v m z _ _ _ _ _ _ _ _. apply deep_node; [exact I|]. apply plains_deep. apply ofValue_plain.
  - intros x _ _. constructor.
  - intros x ts args k y _ _ G _ _. apply plains_deep. destruct G; repeat constructor.
  - intros x ts sels k y _ _ _ H _ L. apply lies_cons in L. apply lies_app in L as [L _]. constructor; [|constructor].
    apply deep_node; [exact I|]. cbn [kids snd]. auto.
  - intros k _. repeat constructor.
  - intros k ts p k1 ts2 ps k2 G H G2 H2 L. pose proof L as L0. apply lies_app in L as [L1 L2]. destruct (H2 L2) as (D & A & F). split; [|split].
    + constructor; auto.
    + destruct G2 as [|k1 ts2 q k3 ts3 ps k4 Gq _]; [exact I|]. split; [exact (parts_next _ _ _ _ _ _ _ _ G Gq L0)|exact A].
    + constructor; auto. exact (part_fine _ _ _ _ G L1).
  - intros k ts ps k1 _ H _ L. destruct (H L) as (D & A & F). constructor; [|constructor]. apply deep_node; [split; auto|exact D].
  - intros k ts ps k1 c ts2 sels k2 _ H _ _ _ H2 L. apply lies_app in L as [L1 L2]. apply lies_cons in L2. destruct (H L1) as (D & A & F).
    cbn [map]. constructor; [apply deep_node; [split; auto|exact D]|auto].
Qed.
Lemma decls_deep sp ds : deep (NdDecls sp ds). Proof. apply plain_deep. exact I. Qed.
Variable run : nat.
Lemma rule_deep kf ts r : gRule (L := true) content run kf ts r -> lies ts -> deep (NdRule r).
Proof.
  intros G L. destruct G as [kf o ts sp ds _ _|ts sels k o ts2 sp ds G _ _|ts ks o ts2 sp ds _ _ _]; (apply deep_node; [exact I|]); cbn [kids r_prelude r_bsp r_decls app].
  - constructor; [apply decls_deep|constructor].
  - apply lies_app in L as [L _]. constructor; [|constructor; [apply decls_deep|constructor]]. apply deep_node; [exact I|]. exact (proj2 (proj2 (proj2 selectors_deep)) _ _ _ _ G L).
  - constructor; [apply plain_deep; exact I|constructor; [apply decls_deep|constructor]].
Qed.
Lemma rules_deep kf ts rs : gRules (L := true) content run kf ts rs -> lies ts -> Forall deep (map NdRule rs).
Proof.
  induction 1 as [|kf ts r ts2 rs G _ IH]; intros L; [constructor|]. apply lies_app in L as [L1 L2]. cbn [map]. constructor; [exact (rule_deep _ _ _ G L1)|auto].
Qed.
Lemma ruleBody_deep kf o ts sp rs : gRuleBody (L := true) content run kf o ts sp rs -> lies ts -> deep (NdRules sp rs).
Proof.
  intros (ts1 & y & -> & G & _ & _) L. apply lies_app in L as [L _]. apply deep_node; [exact I|]. exact (rules_deep _ _ _ G L).
Qed.
Lemma preludes_deep aps : Forall deep (map ofAtPrelude aps).
Proof. apply plains_deep. apply map_plain. intros []; exact I. Qed.
Lemma at_deep ts a : gAt (L := true) content run ts a -> lies ts -> deep (NdAt a).
Proof.
  intros G L. apply deep_node; [exact I|]. cbn [kids]. apply Forall_app. split; [apply preludes_deep|].
  destruct G as [x ts sp s _ _ _ ts2 _|x ts sp s ts2 qs _ _ _ _ _|x ts qs o ts2 sp rs _ _ _ _ G|x y pre o ts sp rs _ _ _ _ G|x y ts q _ _ _ _|x o ts sp ds _ _ _ _ _]; cbn [ar_block]; try constructor; try constructor.
  - apply lies_cons in L. apply lies_app in L as [_ L]. apply lies_cons in L. exact (ruleBody_deep _ _ _ _ _ G L).
  - do 3 apply lies_cons in L. exact (ruleBody_deep _ _ _ _ _ G L).
  - apply decls_deep.
Qed.
Lemma nodes_deep ts nds : gNodes (L := true) content run ts nds -> lies ts -> Forall deep (map ofNode nds).
Proof.
  induction 1 as [|x ts nds _ _ IH|ts r ts2 nds G _ IH|ts a ts2 nds G _ IH _]; intros L.
  - constructor.
  - apply IH. exact (lies_cons _ _ L).
  - apply lies_app in L as [L1 L2]. cbn [map ofNode]. constructor; [exact (rule_deep _ _ _ G L1)|auto].
  - apply lies_app in L as [L1 L2]. cbn [map ofNode]. constructor; [exact (at_deep _ _ G L1)|auto].
Qed.
End Content.

Section WithUnicode.
Context {U : UnicodeDigits}.
Lemma scanned_spaces content a s n ts : scanned content a s n ts -> Forall (fun x => k_kept x = false -> k_tok x <> Whitespace) ts.
Proof.
  induction 1 as [|a s n x ts p o T _ _ _ IH]; constructor; auto. intros K W. destruct T as (g & t & r & _ & _ & _ & [D _] & _). rewrite (D W) in K. discriminate.
Qed.
Lemma file_deep run n content ss lines : parse run n content = ParseOk ss lines -> deep content (NdSheet (ss_nodes ss)).
Proof.
  intros H. apply C47_lemma in H as (ts & T & G). pose proof T as T2. apply C47_layout_lemma in T as (b & T & _). apply C50_tokens_lemma in T2 as [T2 _].
  apply deep_node; [exact I|]. apply (nodes_deep content run ts); auto. split; eauto. exact (scanned_spaces _ _ _ _ _ T2).
Qed.
Lemma adjacent_in content ps1 p q ps2 : adjacent content (ps1 ++ p :: q :: ps2) -> next_to content p q.
Proof. induction ps1 as [|x ps1 IH]; cbn [app]; [intros [H _]; exact H|]. intros H. apply IH. destruct ps1; cbn in *; tauto. Qed.
Lemma selector_good run n content ss lines s : parse run n content = ParseOk ss lines -> selectorIn (ss_nodes ss) s -> adjacent content (snd s) /\ Forall (fine content) (snd s).
Proof. intros H (vs & P & I). apply file_deep in H. apply H in P. rewrite Forall_forall in P. exact (P _ I). Qed.
Lemma C62_kept_lemma run n content ss lines sp ps1 p q ps2 : parse run n content = ParseOk ss lines -> selectorIn (ss_nodes ss) (sp, ps1 ++ p :: q :: ps2) ->
  isAttr p = false -> onlyComments (between content p q).
Proof. intros H K. apply (selector_good _ _ _ _ _ _ H) in K as [A _]. apply adjacent_in in A. apply A. Qed.
Lemma C62_lost_lemma run n content ss lines sp ps1 p q ps2 : parse run n content = ParseOk ss lines -> selectorIn (ss_nodes ss) (sp, ps1 ++ p :: q :: ps2) ->
  isAttr p = true -> isSpace q = false.
Proof. intros H K. apply (selector_good _ _ _ _ _ _ H) in K as [A _]. apply adjacent_in in A. apply A. Qed.
Lemma C62_text_lemma run n content ss lines sp ps wsp : parse run n content = ParseOk ss lines -> selectorIn (ss_nodes ss) (sp, ps) ->
  In (SWhitespace wsp) ps -> wsRun (sub content (sp_start wsp) (sp_end wsp)).
Proof. intros H K I. apply (selector_good _ _ _ _ _ _ H) in K as [_ A]. rewrite Forall_forall in A. exact (A _ I eq_refl). Qed.
End WithUnicode.
