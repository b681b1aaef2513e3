(** Transforming and printing do not look at which parse a node comes from. *)
From Verif Require Import Bytes Utf8 Source Ast BytesFacts Parser ParseRerun Printer Transformer TransSpec TransProofs.

Section WithFloats.
Context {FO : FloatOps}.
Variables (o : topts) (k : nat).
Definition mapT {A C} (f : A -> C) (m : tres A) : tres C :=
  match m with TOk a t => TOk (f a) t | TCrash => TCrash | TTimeout => TTimeout end.
Lemma mapT_bind {A A' C C'} (f : A -> A') (h : C -> C') (m : TM A) (m' : TM A') (kk : A -> TM C) (kk' : A' -> TM C') t :
  m' t = mapT f (m t) -> (forall a u, kk' (f a) u = mapT h (kk a u)) -> tbind m' kk' t = mapT h (tbind m kk t).
Proof. intros H1 H2. unfold tbind. rewrite H1. destruct (m t); cbn; auto. Qed.
Lemma rule_rerun n r t : transformRule o n (ruleOfRun k r) t = mapT (option_map (ruleOfRun k)) (transformRule o n r t).
Proof.
  unfold transformRule. cbn [ruleOfRun r_prelude r_decls r_run r_sp r_bsp]. apply mapT_bind with (f := fun x => x).
  - destruct (scanRoot _ _ _); reflexivity.
  - intros ds u. destruct (r_prelude r) as [|[lsp sels]|sp sl]; [reflexivity| |reflexivity].
    apply mapT_bind with (f := fun x => x); [destruct (transformDecls _ _ _ _); reflexivity|]. intros ds' u'. destruct ds'; reflexivity.
Qed.
Lemma one_rerun n nd t : oneNode o None n (nodeOfRun k nd) t = mapT (map (nodeOfRun k)) (oneNode o None n nd t).
Proof.
  destruct nd as [r|a]; cbn [oneNode nodeOfRun].
  - apply mapT_bind with (f := option_map (ruleOfRun k)); [apply rule_rerun|]. intros [r'|] u; reflexivity.
  - cbn [atOfRun ar_name ar_preludes ar_run ar_sp ar_block]. destruct (beq (ar_name a) (B "import")); [reflexivity|].
    destruct (beq (ar_name a) (B "custom-media")).
    { apply mapT_bind with (f := fun x => x); [destruct (addCustomMedia _ _); reflexivity|]. reflexivity. }
    destruct (beq (ar_name a) (B "media")); [|reflexivity]. destruct (ar_preludes a) as [|[| |[lsp qs]| |] pres]; try reflexivity.
    apply mapT_bind with (f := fun x => x); [destruct (transformMqs _ _ _); reflexivity|]. reflexivity.
Qed.
Lemma nodes_rerun n ns t : transformNodes o None n (map (nodeOfRun k) ns) t = mapT (map (nodeOfRun k)) (transformNodes o None n ns t).
Proof.
  destruct n as [|n]; [reflexivity|]. revert t. induction ns as [|nd ns IH]; intros t; [cbn [map]; rewrite nodes_nil; reflexivity|].
  cbn [map]. rewrite !nodes_cons. apply mapT_bind with (f := map (nodeOfRun k)); [apply one_rerun|]. intros h u.
  apply mapT_bind with (f := map (nodeOfRun k)); [apply IH|]. intros r u'. cbn. rewrite map_app. reflexivity.
Qed.
Lemma transform_rerun n ss : transform o None n (sheetOfRun k ss) = mapT (sheetOfRun k) (transform o None n ss).
Proof.
  unfold transform. cbn [sheetOfRun ss_nodes ss_imports]. rewrite nodes_rerun. destruct (transformNodes o None n (ss_nodes ss) (initState o None)); reflexivity.
Qed.
End WithFloats.
Lemma printRule_rerun k r : printRule (ruleOfRun k r) = printRule r. Proof. reflexivity. Qed.
Lemma all_rerun {A} (f : A -> ops) g (l : list A) : (forall x, f (g x) = f x) -> all f (map g l) = all f l.
Proof. intros H. induction l as [|x l IH]; cbn; auto. rewrite H, IH. auto. Qed.
Lemma printNode_rerun k nd : printNode (nodeOfRun k nd) = printNode nd.
Proof.
  destruct nd as [r|a]; cbn [printNode nodeOfRun]; [apply printRule_rerun|]. unfold printAt. cbn [atOfRun ar_name ar_preludes ar_sp ar_block].
  destruct (ar_block a) as [[sp ds|sp rs]|]; try reflexivity. cbn [option_map blockOfRun printBlock]. rewrite all_rerun; auto.
Qed.
Lemma print_rerun k s ns : print s (map (nodeOfRun k) ns) = print s ns.
Proof. unfold print, printNodes. rewrite all_rerun; [auto|apply printNode_rerun]. Qed.
