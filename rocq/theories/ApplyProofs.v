(** Inlining @imports that come first and have no condition keeps what applies. *)
From Verif Require Import Bytes Utf8 Source Lexer Ast BytesFacts Parser ParserSpec ParseResults Printer Transformer TransSpec TransProofs TransMedia TransInline TransDefs Resolver Compile CompileSpec
  InlineSpec InlineProofs ApplySpec.

Definition keepNode (nd : node) : list node := if isEmptyRule nd || isCustomMedia nd then [] else [nd].
Definition importRule (a : atrule) : Prop := ar_name a = B "import".
Definition plain (nd : node) : Prop := isImport nd = false.

(** ** Views *)
Section View.
Variable holds : list mquery -> bool.
Notation contributes := (contributes holds).
Notation view := (view holds).
Lemma import_beq a : importRule a -> beq (ar_name a) (B "import") = true.
Proof. intros ->. reflexivity. Qed.
Lemma heads_front imps rest : Forall importRule imps -> Forall plain rest -> heads (map NAt imps ++ rest) = imps.
Proof.
  intros Hi Hr. induction Hi as [|a l Ha _ IH]; cbn [map app heads].
  - destruct Hr as [|nd r N _]; [reflexivity|]. destruct nd as [|a]; [reflexivity|]. unfold plain in N. cbn [isImport] in N. cbn [heads]. rewrite N. reflexivity.
  - rewrite import_beq by exact Ha. rewrite IH. reflexivity.
Qed.
Lemma imports_nothing imps : Forall importRule imps -> flat_map contributes (map NAt imps) = [].
Proof. induction 1 as [|a l Ha _ IH]; [reflexivity|]. cbn [map flat_map ApplySpec.contributes]. rewrite import_beq by exact Ha. exact IH. Qed.
Lemma view_front imps rest : Forall importRule imps -> Forall plain rest ->
  view (map NAt imps ++ rest) = flat_map (fun a => if importApplies holds a then [NAt a] else []) imps ++ flat_map contributes rest.
Proof. intros Hi Hr. unfold ApplySpec.view, applied. rewrite heads_front by auto. rewrite flat_map_app, imports_nothing by auto. reflexivity. Qed.
Lemma view_imports imps : Forall importRule imps -> view (map NAt imps) = flat_map (fun a => if importApplies holds a then [NAt a] else []) imps.
Proof. intros H. rewrite <- (app_nil_r (map NAt imps)), view_front by auto. cbn. rewrite app_nil_r. reflexivity. Qed.
Lemma view_plain rest : Forall plain rest -> view rest = flat_map contributes rest.
Proof. intros H. apply (view_front [] rest); auto. Qed.
Lemma front_plain rest : Forall plain rest -> inFront rest.
Proof. intros H. exists [], rest. auto. Qed.
Lemma split_imports imps l1 l2 rest : Forall importRule imps -> Forall plain rest -> map NAt imps ++ rest = l1 ++ l2 ->
  (exists i1 i2, imps = i1 ++ i2 /\ l1 = map NAt i1 /\ l2 = map NAt i2 ++ rest) \/ (exists r1, rest = r1 ++ l2 /\ l1 = map NAt imps ++ r1).
Proof.
  intros Hi Hr. revert l1. induction Hi as [|a imps Ha _ IH]; cbn [map app]; intros l1 E.
  - right. exists l1. auto.
  - destruct l1 as [|x l1].
    + left. exists [], (a :: imps). cbn in E. subst l2. auto.
    + injection E as <- E. destruct (IH l1 E) as [(i1 & i2 & -> & -> & ->)|(r1 & -> & ->)].
      * left. exists (a :: i1), i2. auto.
      * right. exists r1. auto.
Qed.
Lemma front_app a b : inFront (a ++ b) -> inFront a /\ inFront b /\ view (a ++ b) = view a ++ view b.
Proof.
  intros (imps & rest & E & Hi & Hr). symmetry in E. destruct (split_imports _ _ _ _ Hi Hr E) as [(i1 & i2 & -> & -> & ->)|(r1 & -> & ->)].
  - apply Forall_app in Hi as [H1 H2]. split; [|split].
    + exists i1, []. rewrite app_nil_r. auto.
    + exists i2, rest. auto.
    + rewrite app_assoc, <- map_app, view_front, view_imports, view_front by (auto; apply Forall_app; auto). rewrite flat_map_app, app_assoc. reflexivity.
  - apply Forall_app in Hr as [H1 H2]. split; [|split].
    + exists imps, r1. auto.
    + apply front_plain. exact H2.
    + rewrite <- app_assoc, !view_front, view_plain by (auto; apply Forall_app; auto). rewrite flat_map_app, app_assoc. reflexivity.
Qed.
Lemma keep_imports imps : Forall importRule imps -> flat_map keepNode (map NAt imps) = map NAt imps.
Proof. induction 1 as [|a l Ha _ IH]; [reflexivity|]. cbn [map flat_map]. rewrite IH. unfold keepNode. cbn [isEmptyRule isCustomMedia orb]. rewrite Ha. reflexivity. Qed.
Lemma keep_plain rest : Forall plain rest -> Forall plain (flat_map keepNode rest).
Proof. induction 1 as [|nd l H _ IH]; [constructor|]. cbn [flat_map]. apply Forall_app. split; [|exact IH]. unfold keepNode. destruct (_ || _); auto. Qed.
Lemma keep_contributes l : flat_map contributes (flat_map keepNode l) = flat_map contributes l.
Proof.
  induction l as [|nd l IH]; [reflexivity|]. cbn [flat_map]. rewrite flat_map_app, IH. f_equal. unfold keepNode.
  destruct nd as [r|a]; cbn [isEmptyRule isCustomMedia orb ApplySpec.contributes].
  - rewrite orb_false_r. unfold styles. destruct (r_decls r) eqn:E; [reflexivity|]. cbn [flat_map ApplySpec.contributes]. unfold styles. rewrite E. reflexivity.
  - destruct (beq (ar_name a) (B "custom-media")) eqn:E; [apply beq_eq in E; rewrite E; reflexivity|]. cbn [flat_map ApplySpec.contributes]. rewrite E, app_nil_r. reflexivity.
Qed.
Lemma keep_front l : inFront l -> inFront (flat_map keepNode l) /\ view (flat_map keepNode l) = view l.
Proof.
  intros (imps & rest & -> & Hi & Hr). rewrite flat_map_app, keep_imports by auto. split.
  - exists imps, (flat_map keepNode rest). split; [reflexivity|]. split; [auto|apply keep_plain; auto].
  - rewrite !view_front by (auto; apply keep_plain; auto). rewrite keep_contributes. reflexivity.
Qed.

(** ** Replacing *)
Variable m : list (ptr * list node).
Notation look a := (find (fun e => ptrEq (atRuleId a) (fst e)) m).
Definition seg (a : atrule) : list node := match look a with Some (_, nds') => nds' | None => [NAt a] end.
Lemma replaced_front imps rest : Forall importRule imps -> Forall plain rest -> replaced m (map NAt imps ++ rest) = flat_map seg imps ++ rest.
Proof.
  intros Hi Hr. unfold replaced. rewrite flat_map_app. f_equal.
  - induction Hi as [|a l Ha _ IH]; [reflexivity|]. cbn [map flat_map]. rewrite IH. f_equal. cbn [isImport]. rewrite import_beq by exact Ha. reflexivity.
  - induction Hr as [|nd l H _ IH]; [reflexivity|]. cbn [flat_map]. rewrite IH. destruct nd as [|a]; [reflexivity|]. rewrite H. reflexivity.
Qed.
Lemma ptrEq_true a b : ptrEq a b = true -> a = b.
Proof. destruct a, b. unfold ptrEq. cbn. intros H. apply andb_true_iff in H as [H1 H2]. apply Nat.eqb_eq in H1, H2. congruence. Qed.
Lemma seg_view a : importRule a -> (isReplaced m a -> unconditional a) -> inFront (seg a) ->
  view (seg a) = if importApplies holds a then match look a with Some (_, nds') => view nds' | None => [NAt a] end else [].
Proof.
  intros Ha Hu Hf. unfold seg in *. destruct (look a) as [[k nds']|] eqn:E.
  - apply find_some in E as [E1 E2]. apply ptrEq_true in E2. cbn in E2. subst k.
    assert (Un : unconditional a). { apply Hu. exists nds'. exact E1. }
    unfold importApplies. unfold unconditional in Un. destruct (ar_preludes a) as [|p1 [|p2 ps]]; try reflexivity. cbn in Un. lia.
  - change [NAt a] with (map NAt [a]) at 1. rewrite view_imports by auto. cbn [flat_map]. rewrite app_nil_r. reflexivity.
Qed.
Lemma replaced_view nds : inFront nds -> inFront (replaced m nds) -> (forall a, In (NAt a) nds -> importRule a -> isReplaced m a -> unconditional a) ->
  view (replaced m nds) = viewWith holds m nds.
Proof.
  intros (imps & rest & -> & Hi & Hr) Hf Hu. rewrite replaced_front in * by auto. unfold viewWith, applied. rewrite heads_front, flat_map_app, imports_nothing by auto.
  assert (Hu' : forall a, In a imps -> isReplaced m a -> unconditional a).
  { intros a Ia R. apply Hu; [apply in_or_app; left; apply in_map; exact Ia| |exact R]. rewrite Forall_forall in Hi. exact (Hi a Ia). }
  clear Hu. cbn [app]. induction Hi as [|a l Ha _ IH]; cbn [flat_map app] in *; [apply view_plain; auto|].
  rewrite <- app_assoc in Hf. destruct (front_app _ _ Hf) as (F1 & F2 & F3). rewrite <- app_assoc, F3, IH; [|exact F2|intros; apply Hu'; [right|]; auto].
  rewrite <- app_assoc. f_equal. apply seg_view; [exact Ha|apply Hu'; left; reflexivity|exact F1].
Qed.
End View.

(** ** The transformer with everything but inlining off *)
Section Off.
Context {FO : FloatOps}.
Variable o : topts.
Hypothesis Ho : passOpts o.
Definition idle (t : tstate) : Prop := t_vars t = None /\ t_cmedia t = None.
Lemma scan_off p ds t x t' : t_vars t = None -> scanRoot p ds t = TOk x t' -> x = ds /\ t' = t.
Proof.
  intros Ht H. unfold scanRoot in H. repeat match type of H with (match ?b with _ => _ end) _ = _ => destruct b | (if ?b then _ else _) _ = _ => destruct b end;
    try discriminate H; try (apply tret_ok in H as [<- <-]; auto); rewrite collect_pass in H by exact Ht; injection H as <- <-; auto.
Qed.
Lemma rule_off n r t x t' : idle t -> transformRule o n r t = TOk x t' -> x = (match r_decls r with [] => None | _ => Some r end) /\ idle t'.
Proof.
  intros [Ht Hc] H. destruct Ho as (H1 & H2 & H3 & H4 & H5).
  destruct (le_rule o n (S n) r (le_S _ _ (le_n n)) t t (conj eq_refl eq_refl) x t' H) as (u & Hu & E1 & E2).
  unfold transformRule in Hu. apply tbind_ok in Hu as (ds & t1 & K1 & Hu). apply scan_off in K1 as [-> ->]; [|exact Ht].
  destruct (r_prelude r) as [|[lsp sels]|] eqn:Ep; try discriminate Hu.
  rewrite (tbind_step _ _ _ _ _ _ _ (decls_pass o n (r_decls r) t H5 Ht)) in Hu. unfold transformSelectors in Hu. rewrite H2 in Hu.
  destruct r as [run sp pr bsp ds]. cbn [r_prelude r_decls r_run r_sp r_bsp] in *. subst pr.
  destruct ds; apply tret_ok in Hu as [<- <-]; (split; [reflexivity|split; congruence]).
Qed.
Lemma one_off m n nd t h t' : idle t -> (isImport nd = true -> plookup (nodeId nd) m = None) -> oneNode o (Some m) n nd t = TOk h t' ->
  h = keepNode nd /\ idle t'.
Proof.
  intros It Hi H. pose proof It as [Ht Hc]. destruct Ho as (H1 & H2 & H3 & H4 & H5). unfold keepNode. destruct nd as [r|a]; cbn [oneNode isEmptyRule isCustomMedia isImport nodeId orb] in *.
  - apply tbind_ok in H as (r' & t1 & K & H). apply tret_ok in H as [<- <-]. apply rule_off in K as [-> K]; [|exact It]. split; [|exact K]. destruct (r_decls r); reflexivity.
  - destruct (beq (ar_name a) (B "import")) eqn:Ei.
    { rewrite (Hi eq_refl) in H. apply tret_ok in H as [<- <-]. apply beq_eq in Ei. rewrite Ei. auto. }
    destruct (beq (ar_name a) (B "custom-media")).
    { unfold addCustomMedia, tbind in H. rewrite Hc in H. apply tret_ok in H as [<- <-]. auto. }
    destruct (beq (ar_name a) (B "media")); [|apply tret_ok in H as [<- <-]; auto].
    destruct (ar_preludes a) as [|[ | |[lsp qs]| | ] pres] eqn:Ep; try discriminate H.
    rewrite (tbind_step _ _ _ _ _ _ _ (mqs_pass o qs t H1 Hc)) in H. apply tret_ok in H as [<- <-].
    destruct a as [ru asp nm prs bl]. cbn [ar_run ar_sp ar_name ar_preludes ar_block] in *. subst. auto.
Qed.
Definition strange (m : list (ptr * list node)) (l : list node) : Prop := Forall (fun nd => isImport nd = true -> plookup (nodeId nd) m = None) l.
Lemma nodes_off m n : forall ns t out t', idle t -> strange m ns -> transformNodes o (Some m) n ns t = TOk out t' -> out = flat_map keepNode ns /\ idle t'.
Proof.
  destruct n as [|n]; [discriminate|]. intros ns. induction ns as [|nd ns IH]; intros t out t' It Hs H.
  - rewrite nodes_nil in H. apply tret_ok in H as [<- <-]. auto.
  - rewrite nodes_cons in H. apply tbind_ok in H as (h & t1 & K1 & H). apply tbind_ok in H as (rs & t2 & K2 & H). apply tret_ok in H as [<- <-].
    inversion Hs as [|? ? S1 S2]; subst. apply one_off in K1 as [-> I1]; auto. apply IH in K2 as [-> I2]; auto.
Qed.
Lemma find_lookup m k : plookup k m = match find (fun e => ptrEq k (fst e)) m with Some (_, l) => Some l | None => @None (list node) end.
Proof. induction m as [|[k' l] m IH]; [reflexivity|]. cbn [plookup find fst]. destruct (ptrEq k k'); auto. Qed.
(** Replacements bring in no @imports that are replaced. *)
Definition separate (m : list (ptr * list node)) : Prop := forall k l, In (k, l) m -> strange m l.
Lemma nodes_replace m n : separate m -> forall ns t out t', idle t -> transformNodes o (Some m) n ns t = TOk out t' -> out = flat_map keepNode (replaced m ns) /\ idle t'.
Proof.
  intros Hm. destruct n as [|n]; [discriminate|]. intros ns. induction ns as [|nd ns IH]; intros t out t' It H.
  - rewrite nodes_nil in H. apply tret_ok in H as [<- <-]. auto.
  - rewrite nodes_cons in H. apply tbind_ok in H as (h & t1 & K1 & H). apply tbind_ok in H as (rs & t2 & K2 & H). apply tret_ok in H as [<- <-].
    unfold replaced. cbn [flat_map]. rewrite flat_map_app. fold (replaced m ns).
    assert (Q : h = flat_map keepNode (match nd with
      | NAt a => if isImport nd then match find (fun e => ptrEq (atRuleId a) (fst e)) m with Some (_, nds') => nds' | None => [nd] end else [nd]
      | NRule _ => [nd] end) /\ idle t1).
    { destruct nd as [r|a].
      - cbn [flat_map]. rewrite app_nil_r. eapply one_off; eauto. discriminate.
      - destruct (isImport (NAt a)) eqn:Ei; [|cbn [flat_map]; rewrite app_nil_r; eapply one_off; eauto; congruence].
        pose proof (find_lookup m (atRuleId a)) as L. destruct (find _ m) as [[k l]|] eqn:F.
        + apply find_some in F as [F1 _]. cbn [isImport] in Ei. cbn [oneNode] in K1. rewrite Ei, L in K1. apply tbind_ok in K1 as (u & t3 & H3 & K1).
          eapply nodes_off; [|eapply Hm; exact F1|exact K1]. destruct It as [Ht Hc]. destruct (_ <? _)%nat; [|apply tret_ok in H3 as [_ <-]; split; auto]. injection H3 as _ <-. split; auto.
        + cbn [flat_map]. rewrite app_nil_r. eapply one_off; eauto. }
    destruct Q as [-> I1]. apply IH in K2 as [-> I2]; auto.
Qed.
Lemma init_idle repl : idle (initState o repl).
Proof. destruct Ho as (H1 & H2 & H3 & H4 & H5). unfold idle, initState. cbn. rewrite H3, H4. auto. Qed.
Lemma transform_off m n ss ss' t : separate m -> transform o (Some m) n ss = TOk ss' t -> ss_nodes ss' = flat_map keepNode (replaced m (ss_nodes ss)).
Proof.
  intros Hm H. unfold transform in H. destruct (transformNodes o (Some m) n (ss_nodes ss) (initState o (Some m))) as [ns t1| |] eqn:E; try discriminate H.
  injection H as <- <-. eapply nodes_replace; eauto using init_idle.
Qed.
End Off.
