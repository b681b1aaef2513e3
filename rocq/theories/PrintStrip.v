(** The printed text does not depend on source positions. *)
From Verif Require Import Bytes Utf8 Source Ast AstInd Printer Strip BytesFacts PrinterProofs.

Lemma sepBy_map {A C} sep (f : C -> ops) (g : A -> C) l : sepBy sep f (map g l) = sepBy sep (fun x => f (g x)) l.
Proof. induction l as [|x [|y l] IH]; auto. cbn [map sepBy] in *. rewrite IH. reflexivity. Qed.
Lemma all_map {A C} (f : C -> ops) (g : A -> C) l : all f (map g l) = all (fun x => f (g x)) l.
Proof. induction l as [|x l IH]; auto. cbn [map all]. rewrite IH. reflexivity. Qed.
Lemma sepBy_ext {A} sep (f g : A -> ops) l : Forall (fun x => f x = g x) l -> sepBy sep f l = sepBy sep g l.
Proof. induction 1 as [|x l Hx Hl IH]; auto. destruct l; [exact Hx|]. cbn [sepBy] in *. rewrite Hx, IH. reflexivity. Qed.
Lemma all_ext {A} (f g : A -> ops) l : Forall (fun x => f x = g x) l -> all f l = all g l.
Proof. induction 1 as [|x l Hx Hl IH]; auto. cbn [all]. rewrite Hx, IH. reflexivity. Qed.
Lemma every {A} (P : A -> Prop) l : (forall x, P x) -> Forall P l.
Proof. intros H. apply Forall_forall. auto. Qed.

Lemma printValue_strip v : printValue (stripValue v) = printValue v.
Proof.
  induction v using value_ind'; cbn [stripValue printValue]; try reflexivity.
  - rewrite sepBy_map. erewrite sepBy_ext; [reflexivity|auto].
  - rewrite all_map. erewrite all_ext; [reflexivity|auto].
  - rewrite IHv1, IHv2. reflexivity.
  - rewrite IHv. reflexivity.
Qed.
Lemma isNil_strip v : isNil (stripValue v) = isNil v. Proof. destruct v; reflexivity. Qed.
Lemma isComma_strip v : isComma (stripValue v) = isComma v. Proof. destruct v; reflexivity. Qed.
Lemma printValues_strip vs : printValues (map stripValue vs) = printValues vs.
Proof.
  induction vs as [|v [|v' vs] IH]; auto; cbn [map printValues] in *; [apply printValue_strip|].
  rewrite IH, printValue_strip, !isComma_strip. reflexivity.
Qed.
Lemma printParts_map g l : Forall (fun p => printPart (g p) = printPart p) l -> (forall p, isWs (g p) = isWs p) -> printParts (map g l) = printParts l.
Proof.
  intros F N. induction F as [|p l Hp F IH]; auto. cbn [map printParts]. rewrite IH, Hp, N. destruct l; reflexivity.
Qed.
Lemma isWs_strip p : isWs (stripPart p) = isWs p. Proof. destruct p; reflexivity. Qed.
Lemma printSels_strip sels : Forall (fun s => Forall (fun p => printPart (stripPart p) = printPart p) (snd s)) sels ->
  printSelList (map stripSel sels) = printSelList sels.
Proof.
  intros F. unfold printSelList. rewrite sepBy_map. apply sepBy_ext. eapply Forall_impl; [|exact F].
  intros s H. unfold printSelector, stripSel. cbn [snd]. apply printParts_map; auto. apply isWs_strip.
Qed.
Lemma printPart_strip p : printPart (stripPart p) = printPart p.
Proof.
  induction p using selpart_ind'; rewrite !printPart_eq; cbn [stripPart]; try reflexivity.
  - destruct a; try reflexivity. cbn [printArgs]. cbn [argParts] in H. rewrite <- (printSels_strip _ H). reflexivity.
  - destruct a; try reflexivity. cbn [printArgs]. cbn [argParts] in H. rewrite <- (printSels_strip _ H). reflexivity.
  - rewrite isNil_strip, printValue_strip. reflexivity.
Qed.
Lemma printPrelude_strip p : printPrelude (stripPrelude p) = printPrelude p.
Proof.
  destruct p as [|[? sels]|? ks]; cbn [stripPrelude printPrelude]; auto.
  - apply printSels_strip. apply every. intros x. apply every. apply printPart_strip.
  - rewrite all_map. apply all_ext. apply every. intros [|]; reflexivity.
Qed.
Lemma printDecls_strip ds : printDecls (map stripDecl ds) = printDecls ds.
Proof.
  unfold printDecls. rewrite sepBy_map. apply sepBy_ext. apply every. intros [|]; cbn [stripDecl printDecl]; [rewrite printValues_strip|]; reflexivity.
Qed.
Lemma printMqPart_strip p : printMqPart (stripQPart p) = printMqPart p.
Proof. destruct p; cbn [stripQPart printMqPart]; rewrite ?isNil_strip, ?printValue_strip; reflexivity. Qed.
Lemma printMq_strip q : printMq (stripQuery q) = printMq q.
Proof. unfold printMq, stripQuery. cbn [snd]. rewrite sepBy_map. apply sepBy_ext, every, printMqPart_strip. Qed.
Lemma printAtPrelude_strip p : printAtPrelude (stripAtPrelude p) = printAtPrelude p.
Proof.
  destruct p; cbn [stripAtPrelude printAtPrelude]; auto using printMq_strip.
  unfold printMql. cbn [snd]. rewrite sepBy_map. apply sepBy_ext, every, printMq_strip.
Qed.

(** Rules and at-rules also record positions for the source map. *)
Definition same (a b : ops) : Prop :=
  match a, b with Some x, Some y => textOf x = textOf y | None, None => True | _, _ => False end.
Lemma same_refl a : same a a. Proof. destruct a; simpl; auto. Qed.
Lemma same_sym a b : same a b -> same b a. Proof. destruct a, b; simpl; auto. Qed.
Lemma same_trans a b c : same a b -> same b c -> same a c.
Proof. destruct a, b, c; simpl; intros; try congruence; tauto. Qed.
Lemma same_cat a b c d : same a b -> same c d -> same (a +++ c) (b +++ d).
Proof. destruct a, b, c, d; simpl; intros; try tauto. rewrite !textOf_app. congruence. Qed.
Lemma same_mark s t : same (Some [M s]) (Some [M t]). Proof. reflexivity. Qed.
Lemma same_all {A} (f g : A -> ops) l : Forall (fun x => same (f x) (g x)) l -> same (all f l) (all g l).
Proof. induction 1; [apply same_refl|]. cbn [all]. apply same_cat; auto. Qed.
Lemma same_print ns ms : same (printNodes ns) (printNodes ms) -> print None ns = print None ms.
Proof.
  intros H. destruct (printNodes ns) as [x|] eqn:E1, (printNodes ms) as [y|] eqn:E2; try contradiction.
  - rewrite (print_none _ _ E1), (print_none _ _ E2). simpl in H. congruence.
  - unfold print. rewrite E1, E2. reflexivity.
Qed.
Lemma rule_same r : same (printRule (stripRule r)) (printRule r).
Proof.
  unfold printRule, stripRule. cbn [r_sp r_prelude r_decls]. rewrite printPrelude_strip, printDecls_strip.
  apply same_cat; [apply same_mark|apply same_refl].
Qed.
Lemma node_same nd : same (printNode (stripNode nd)) (printNode nd).
Proof.
  destruct nd as [r|a]; cbn [stripNode printNode]; [apply rule_same|]. unfold printAt, stripAt. cbn [ar_sp ar_name ar_preludes ar_block].
  apply same_cat; [apply same_mark|]. apply same_cat; [apply same_refl|]. apply same_cat; [apply same_refl|]. apply same_cat.
  - destruct (ar_preludes a) as [|p ps]; [apply same_refl|]. change (map stripAtPrelude (p :: ps)) with (stripAtPrelude p :: map stripAtPrelude ps).
    cbv iota. change (stripAtPrelude p :: map stripAtPrelude ps) with (map stripAtPrelude (p :: ps)). rewrite sepBy_map.
    erewrite sepBy_ext; [apply same_refl|]. apply every, printAtPrelude_strip.
  - destruct (ar_block a) as [[? ds|? rs]|]; cbn [option_map stripBlock printBlock]; try apply same_refl.
    + rewrite printDecls_strip. apply same_refl.
    + apply same_cat; [apply same_refl|]. apply same_cat; [|apply same_refl]. rewrite all_map. apply same_all, every, rule_same.
Qed.
Theorem print_strip ns : print None (strip ns) = print None ns.
Proof. apply same_print. unfold printNodes, strip. rewrite all_map. apply same_all, every, node_same. Qed.
