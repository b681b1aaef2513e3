(** C56: files that import settled files. *)
From Verif Require Import Bytes Utf8 Source Lexer Ast AstInd BytesFacts Parser ParserSpec ParseResults ParseRerun Printer PrinterProofs PrinterSpec MapProofs Transformer TransSpec TransProofs TransMedia TransInline
  TransRerun TwiceSpec Resolver Compile CompileSpec InlineSpec InlineRefs InlineProofs TransDefs TwiceProofs.

(** ** Depth only names the pointers *)
Definition moveRule (c : nat) (r : qrule) : qrule := mkRule (c + r_run r) (r_sp r) (r_prelude r) (r_bsp r) (r_decls r).
Definition moveBlock (c : nat) (b : block) : block := match b with BDecls sp ds => BDecls sp ds | BRules sp rs => BRules sp (map (moveRule c) rs) end.
Definition moveAt (c : nat) (a : atrule) : atrule := mkAt (c + ar_run a) (ar_sp a) (ar_name a) (ar_preludes a) (option_map (moveBlock c) (ar_block a)).
Definition moveNode (c : nat) (nd : node) : node := match nd with NRule r => NRule (moveRule c r) | NAt a => NAt (moveAt c a) end.
Definition movePtr (c : nat) (p : ptr) : ptr := ((c + fst p)%nat, snd p).
Definition moveImport (c : nat) (i : bytes * ptr) : bytes * ptr := (fst i, movePtr c (snd i)).
Definition moveSheet (c : nat) (ss : stylesheet) : stylesheet := mkSheet (map (moveNode c) (ss_nodes ss)) (map (moveImport c) (ss_imports ss)).
Definition moveRepl (c : nat) (m : list (ptr * list node)) : list (ptr * list node) := map (fun e => (movePtr c (fst e), map (moveNode c) (snd e))) m.
Lemma plookup_move c k m : plookup (movePtr c k) (moveRepl c m) = option_map (map (moveNode c)) (plookup k m).
Proof.
  induction m as [|[k' v] m IH]; [reflexivity|]. cbn [moveRepl map plookup fst snd]. assert (E : ptrEq (movePtr c k) (movePtr c k') = ptrEq k k').
  { unfold ptrEq, movePtr. cbn [fst snd]. f_equal. destruct (Nat.eqb_spec (fst k) (fst k')), (Nat.eqb_spec (c + fst k) (c + fst k')); auto; lia. }
  rewrite E. destruct (ptrEq k k'); [reflexivity|]. exact IH.
Qed.
Section WithFloats.
Context {FO : FloatOps}.
Variables (o : topts) (c : nat).
Lemma rule_move n r t : transformRule o n (moveRule c r) t = mapT (option_map (moveRule c)) (transformRule o n r t).
Proof.
  unfold transformRule. cbn [moveRule r_prelude r_decls r_run r_sp r_bsp]. apply mapT_bind with (f := fun x => x).
  - destruct (scanRoot _ _ _); reflexivity.
  - intros ds u. destruct (r_prelude r) as [|[lsp sels]|sp sl]; [reflexivity| |reflexivity].
    apply mapT_bind with (f := fun x => x); [destruct (transformDecls _ _ _ _); reflexivity|]. intros ds' u'. destruct ds'; reflexivity.
Qed.
Lemma nodes_move m n : forall ns t, transformNodes o (Some (moveRepl c m)) n (map (moveNode c) ns) t = mapT (map (moveNode c)) (transformNodes o (Some m) n ns t).
Proof.
  induction n as [|n IHn]; [reflexivity|]. induction ns as [|nd ns IH]; intros t; [cbn [map]; rewrite !nodes_nil; reflexivity|].
  cbn [map]. rewrite !nodes_cons. apply mapT_bind with (f := map (moveNode c)).
  - destruct nd as [r|a]; cbn [oneNode moveNode].
    + apply mapT_bind with (f := option_map (moveRule c)); [apply rule_move|]. intros [r'|] u; reflexivity.
    + cbn [moveAt ar_name ar_preludes ar_run ar_sp ar_block]. destruct (beq (ar_name a) (B "import")).
      * change (atRuleId (moveAt c a)) with (movePtr c (atRuleId a)). rewrite plookup_move. destruct (plookup (atRuleId a) m) as [im|]; [|reflexivity]. cbn [option_map].
        apply mapT_bind with (f := fun x => x); [destruct (_ <? _)%nat; reflexivity|]. intros _ u. apply IHn.
      * destruct (beq (ar_name a) (B "custom-media")).
        { apply mapT_bind with (f := fun x => x); [destruct (addCustomMedia _ _); reflexivity|]. reflexivity. }
        destruct (beq (ar_name a) (B "media")); [|reflexivity]. destruct (ar_preludes a) as [|[| |[lsp qs]| |] pres]; try reflexivity.
        apply mapT_bind with (f := fun x => x); [destruct (transformMqs _ _ _); reflexivity|]. reflexivity.
  - intros h u. apply mapT_bind with (f := map (moveNode c)); [apply IH|]. intros r u'. cbn. rewrite map_app. reflexivity.
Qed.
Lemma transform_move m n ss : transform o (Some (moveRepl c m)) n (moveSheet c ss) = mapT (moveSheet c) (transform o (Some m) n ss).
Proof.
  unfold transform. cbn [moveSheet ss_nodes ss_imports]. change (initState o (Some (moveRepl c m))) with (initState o (Some m)). rewrite nodes_move. destruct (transformNodes _ _ _ _ _); reflexivity.
Qed.
End WithFloats.
Lemma move_run c d nd : moveNode c (nodeOfRun d nd) = nodeOfRun (c + d) nd.
Proof.
  destruct nd as [r|a]; [reflexivity|]. cbn. f_equal. unfold moveAt, atOfRun. cbn. f_equal. destruct (ar_block a) as [[sp ds|sp rs]|]; try reflexivity. cbn. rewrite map_map. reflexivity.
Qed.
Lemma run_run c d nd : nodeOfRun c (nodeOfRun d nd) = nodeOfRun c nd.
Proof.
  destruct nd as [r|a]; [reflexivity|]. cbn. f_equal. unfold atOfRun. cbn. f_equal. destruct (ar_block a) as [[sp ds|sp rs]|]; try reflexivity. cbn. rewrite map_map. reflexivity.
Qed.
Lemma parse_move (U : UnicodeDigits) c d n content : parse (c + d) n content = match parse d n content with ParseOk ss lines => ParseOk (moveSheet c ss) lines | x => x end.
Proof.
  rewrite (C12_rerun_lemma d (c + d)). rewrite (C12_rerun_lemma d d). destruct (parse d n content) as [ss lines|sp msg lines| |]; try reflexivity. cbn. f_equal. unfold sheetOfRun, moveSheet. cbn. f_equal.
  - rewrite !map_map. apply map_ext. intros nd. rewrite move_run, run_run. reflexivity.
  - rewrite !map_map. apply map_ext. intros [spec [r p]]. reflexivity.
Qed.
Lemma print_move c s ns : print s (map (moveNode c) ns) = print s ns.
Proof.
  unfold print, printNodes. rewrite all_rerun; [auto|]. intros [r|a]; cbn [printNode moveNode]; [reflexivity|]. unfold printAt. cbn [moveAt ar_name ar_preludes ar_sp ar_block].
  destruct (ar_block a) as [[sp ds|sp rs]|]; try reflexivity. cbn [option_map moveBlock printBlock]. rewrite all_rerun; auto.
Qed.
Section WithProject.
Context {U : UnicodeDigits} {FO : FloatOps}.
Variable P : project.
Lemma inlined_move c : (forall d f r, inlined P d f r -> inlined P (c + d) f (option_map (map (moveNode c)) r)) /\
  (forall d f imps m, replaces P d f imps m -> replaces P (c + d) f (map (moveImport c) imps) (moveRepl c m)).
Proof.
  apply inlined_both.
  - intros d f Hr. apply inUnread. exact Hr.
  - intros d f content n sp msg lines Hr Hp. eapply inBad; [exact Hr|]. rewrite parse_move, Hp. reflexivity.
  - intros d f content n ss lines m k ss' t Hr Hp _ IH T. cbn [option_map].
    apply (inRules P _ _ content n (moveSheet c ss) lines (moveRepl c m) k (moveSheet c ss') t); [exact Hr|rewrite parse_move, Hp; reflexivity|exact IH|]. rewrite transform_move, T. reflexivity.
  - intros. apply rpNone.
  - intros. apply rpUnresolved. assumption.
  - intros. eapply rpNoPath; eassumption.
  - intros d f spec at_ rel f' H1 H2 _ IH. eapply rpFailed; [exact H1|exact H2|]. cbn [option_map] in IH. rewrite Nat.add_succ_r in IH. exact IH.
  - intros d f spec at_ rel f' nds H1 H2 _ IH. eapply rpRules; [exact H1|exact H2|]. cbn [option_map] in IH. rewrite Nat.add_succ_r in IH. exact IH.
Qed.

(** ** Chains of settled files *)
Notation o := (p_opts P).
Lemma noImports_flat repl ns flat : flattens repl ns flat -> Forall (fun nd => isImport nd = false) ns -> flat = ns.
Proof.
  induction 1 as [|a ns im x y En El _ _ _ _|nd ns y _ _ IH]; intros F; inversion F as [|? ? F1 F2]; subst; [reflexivity| |].
  - cbn [isImport] in F1. rewrite En in F1. discriminate.
  - rewrite IH; auto.
Qed.
Lemma first_import d n content ss lines spec at_ : parse d n content = ParseOk ss lines -> ss_imports ss = [(spec, at_)] -> Forall (fun nd => isImport nd = false) (tl (ss_nodes ss)) ->
  exists a, ss_nodes ss = NAt a :: tl (ss_nodes ss) /\ ar_name a = B "import" /\ atRuleId a = at_.
Proof.
  intros Hp Hi F. apply C14_lemma in Hp as (E & _). rewrite Hi in E. destruct (ss_nodes ss) as [|nd post]; [discriminate|]. cbn [tl flat_map] in *.
  assert (N : flat_map importOf post = []).
  { induction F as [|x l Fx _ IH]; [reflexivity|]. cbn [flat_map] in *.
    assert (Ex : importOf x = []). { destruct x as [r|a]; [reflexivity|]. cbn [isImport importOf] in *. rewrite Fx. reflexivity. }
    rewrite Ex in E |- *. apply IH. rewrite E. reflexivity. }
  rewrite N, app_nil_r in E. destruct nd as [r|a]; [discriminate|]. cbn [importOf] in E. destruct (beq (ar_name a) (B "import")) eqn:Ei; [|discriminate].
  destruct (ar_preludes a) as [|[] ?]; try discriminate. injection E as _ ->. apply beq_eq in Ei. eauto.
Qed.
(** One file, given what its @import is replaced by. *)
Lemma import_step d f content n ss lines m k ss' t : p_read P f = Some content -> parse d n content = ParseOk ss lines -> settledFile P f ->
  replaces P d f (ss_imports ss) m -> (forall at_ nds, In (at_, nds) m -> exists k, Forall (stillNode o k) nds) -> transform o (Some m) k ss = TOk ss' t ->
  (exists k, Forall (stillNode o k) (ss_nodes ss')) /\
  match m with
  | [] => True
  | (_, nds) :: _ => exists k own t, transform o (Some []) k (mkSheet (tl (ss_nodes ss)) []) = TOk own t /\ ss_nodes ss' = nds ++ ss_nodes own
  end.
Proof.
  intros Hr Hp Sf R Hm T. destruct (Sf _ _ _ _ _ Hr Hp) as [Sn Ft]. unfold transform in T. destruct (transformNodes o (Some m) k (ss_nodes ss) _) as [ns1 t1| |] eqn:E; try discriminate. injection T as <- <-. cbn [ss_nodes].
  assert (M : m = [] \/ exists spec at_ nds, ss_imports ss = [(spec, at_)] /\ m = [(at_, nds)]). { destruct R; eauto 6. }
  destruct M as [->|(spec & at_ & nds & Ei & ->)].
  - split; [|exact I]. destruct k as [|k]; [discriminate|]. exists k. eapply nodes_still; [exact E|exact Sn| |apply init_held]. apply Forall_forall. reflexivity.
  - destruct (first_import _ _ _ _ _ _ _ Hp Ei Ft) as (a & En & Ea & <-). destruct (Hm _ _ (or_introl eq_refl)) as (k1 & Hs).
    set (m := [(atRuleId a, nds)]) in *. set (post := tl (ss_nodes ss)) in *. clearbody post.
    destruct (le_nodes_fuel o m k (S (S (Nat.max k k1))) (ss_nodes ss) ltac:(lia) _ _ (eqm_refl _) _ _ E) as (u & Hu & _). clear E. rewrite En, nodes_cons in Hu.
    apply tbind_ok in Hu as (h & t2 & H1 & Hu). apply tbind_ok in Hu as (own & t3 & H2 & Hu). apply tret_ok in Hu as [<- _].
    assert (X : h = nds /\ eqm (initState o (Some m)) t2).
    { cbn [oneNode] in H1. rewrite Ea in H1. change (beq (B "import") (B "import")) with true in H1. cbv iota in H1.
      assert (El : plookup (atRuleId a) m = Some nds). { unfold m. cbn [plookup]. unfold ptrEq. rewrite !Nat.eqb_refl. reflexivity. }
      rewrite El in H1. apply tbind_ok in H1 as (x & t4 & H4 & H1).
      assert (B4 : eqm (initState o (Some m)) t4). { destruct (_ <? _)%nat; [inversion H4; split; reflexivity|apply tret_ok in H4 as [_ <-]; apply eqm_refl]. }
      destruct (nodes_again o m (Nat.max k k1) nds t4) as (t5 & E5 & K5).
      - eapply Forall_impl; [|exact Hs]. intros nd. apply still_more. lia.
      - assert (Rn : Forall (fun nd => (d < runOf nd)%nat) nds) by (eapply (proj2 (inlined_harmless P)); [exact R|left; reflexivity]).
        eapply Forall_impl; [|exact Rn]. cbn beta. intros nd L _. unfold m. cbn [plookup]. destruct (ptrEq (nodeId nd) (atRuleId a)) eqn:Eq; [|reflexivity]. exfalso.
        unfold ptrEq in Eq. apply andb_prop in Eq as [Eq _]. apply Nat.eqb_eq in Eq. pose proof (parse_runs _ _ _ _ _ Hp) as Rs. rewrite En in Rs. inversion Rs as [|? ? R1 _]; subst.
        destruct nd; cbn in *; lia.
      - apply eqm_sym. exact B4.
      - rewrite E5 in H1. injection H1 as <- <-. split; [reflexivity|]. eapply eqm_trans; eauto. }
    destruct X as [-> B2]. rewrite En in Sn. inversion Sn as [|? ? _ Sp]; subst. split.
    + exists (S (Nat.max k k1)). apply Forall_app. split; [eapply Forall_impl; [|exact Hs]; intros nd; apply still_more; lia|].
      eapply nodes_still; [exact H2|exact Sp| |eapply held_eqm; [exact B2|apply init_held]]. eapply Forall_impl; [|exact Ft]. cbn beta. intros nd F1 F2. congruence.
    + destruct (nodes_flat o m _ _ _ _ _ H2) as (flat & Fl & Hf). apply noImports_flat in Fl; auto. subst flat.
      destruct (Hf (initState o (Some []))) as (t6 & E6 & _); [apply eqm_sym; exact B2|]. eexists _, (mkSheet own []), t6. split; [|reflexivity]. unfold transform. cbn [ss_nodes ss_imports]. rewrite E6. reflexivity.
Qed.
Lemma settled_still : (forall d f r, inlined P d f r -> match r with Some ns => settledChain P f -> exists k, Forall (stillNode o k) ns | None => True end) /\
  (forall d f imps m, replaces P d f imps m -> (forall spec, In spec (map fst imps) -> imports P f spec) -> settledChain P f ->
    forall at_ nds, In (at_, nds) m -> exists k, Forall (stillNode o k) nds).
Proof.
  apply inlined_both; auto; try (intros; contradiction).
  - intros d f content n ss lines m k ss' t Hr Hp R IH T Sc. eapply import_step; [exact Hr|exact Hp|exact (proj1 Sc)|exact R| |exact T].
    apply IH; auto. intros spec Hs. exists content, d, n, ss, lines. auto.
  - intros d f spec at_ rel f' nds H1 H2 _ IH Hi Sc at0 nds0 [Hin|[]]. injection Hin as <- <-. apply IH.
    assert (Ed : edge P f f'). { exists spec, rel. split; [apply Hi; left; reflexivity|auto]. }
    split; [apply Sc; constructor; exact Ed|]. intros g Lg. apply Sc. clear - Ed Lg. induction Lg as [g Hg|g h _ IHg Hg]; [eapply leadsStep; [apply leadsEdge; exact Ed|exact Hg]|eapply leadsStep; eauto].
Qed.
(** The rules of a file with a settled import. *)
Lemma inlined_split d f ns f' : settledChain P f -> oneImportEach P -> involved P f -> edge P f f' -> inlined P d f (Some ns) ->
  forall nds, inlined P 0 f' (Some nds) -> exists own, ownPart P f own /\ forall s, print s ns = print s (nds ++ own).
Proof.
  intros Sc One Inv Ed H nds H'. inversion H as [| |d0 f0 content n ss lines m k ss' t Hr Hp R T]; subst.
  destruct Ed as (spec & rel & (content1 & run1 & n1 & ss1 & lines1 & Hr1 & Hp1 & Hs1) & Er & Ea). assert (content1 = content) by congruence. subst content1.
  assert (Is : map fst (ss_imports ss1) = map fst (ss_imports ss)).
  { rewrite (C12_rerun_lemma d run1) in Hp1. destruct (parse d n1 content) as [ss2 l2| | |] eqn:E2; try discriminate. pose proof (parsed_same _ _ _ _ _ _ Hp E2 ltac:(discriminate) ltac:(discriminate)) as X.
    injection X as <- <-. injection Hp1 as <- _. cbn. rewrite map_map. reflexivity. }
  rewrite Is in Hs1. destruct (One f Inv) as [_ L1]. specialize (L1 _ _ _ _ _ Hr Hp).
  assert (M : exists at_ nds1, ss_imports ss = [(spec, at_)] /\ m = [(at_, nds1)] /\ inlined P (S d) f' (Some nds1)).
  { assert (Mv : inlined P (S d) f' (Some (map (moveNode (S d)) nds))). { pose proof (proj1 (inlined_move (S d)) _ _ _ H') as X. rewrite Nat.add_0_r in X. exact X. }
    destruct (ss_imports ss) as [|[spec' at_] [|]]; [contradiction| |cbn in L1; lia]. destruct Hs1 as [Hs1|[]]. cbn in Hs1. subst spec'. exists at_.
    inversion R; subst; try congruence.
    - assert (f'0 = f') by congruence. subst f'0. pose proof (proj1 (inlined_unique_both P) _ _ _ Mv _ ltac:(eassumption)) as X. discriminate.
    - assert (f'0 = f') by congruence. subst f'0. eauto. }
  destruct M as (at_ & nds1 & Ei & -> & H1).
  assert (Nm : nds1 = map (moveNode (S d)) nds).
  { pose proof (proj1 (inlined_move (S d)) _ _ _ H') as X. rewrite Nat.add_0_r in X. pose proof (proj1 (inlined_unique_both P) _ _ _ X _ H1) as Y. cbn [option_map] in Y. congruence. }
  subst nds1. destruct (import_step d f content n ss lines _ k ss' t Hr Hp (proj1 Sc) R ltac:(eapply (proj2 settled_still); [exact R| |exact Sc]; intros sp Hsp; exists content, d, n, ss, lines; auto) T) as [_ X].
  destruct X as (k1 & own & t1 & T1 & E1).
  (* the same rules as allocated by parse 0 *)
  assert (P0 : exists ss0, parse 0 n content = ParseOk ss0 lines /\ ss = moveSheet d ss0).
  { pose proof (parse_move U d 0 n content) as Mv. rewrite Nat.add_0_r, Hp in Mv. destruct (parse 0 n content) as [ss0 l0| | |]; try discriminate. injection Mv as -> <-. eauto. }
  destruct P0 as (ss0 & Hp0 & ->).
  pose proof (transform_move o d [] k1 (mkSheet (tl (ss_nodes ss0)) [])) as Tm. unfold moveSheet in Tm at 1. cbn [ss_nodes ss_imports map moveRepl] in Tm.
  assert (Tl : tl (map (moveNode d) (ss_nodes ss0)) = map (moveNode d) (tl (ss_nodes ss0))) by (destruct (ss_nodes ss0); reflexivity).
  unfold moveSheet in T1. cbn [ss_nodes] in T1. rewrite Tl in T1. rewrite T1 in Tm. destruct (transform o (Some []) k1 (mkSheet (tl (ss_nodes ss0)) [])) as [own0 t0| |] eqn:T0; try discriminate.
  cbn [mapT] in Tm. injection Tm as -> <-. exists (ss_nodes own0). split; [exists content, n, ss0, lines, k1, own0, t1; auto|].
  intros s. rewrite E1. cbn [moveSheet ss_nodes]. clear. unfold print, printNodes.
  assert (X : forall c (l : list node), all printNode (map (moveNode c) l) = all printNode l).
  { intros c l. apply all_rerun. intros [r|a]; cbn [printNode moveNode]; [reflexivity|]. unfold printAt. cbn [moveAt ar_name ar_preludes ar_sp ar_block].
    destruct (ar_block a) as [[sp ds|sp rs]|]; try reflexivity. cbn [option_map moveBlock printBlock]. rewrite all_rerun; auto. }
  assert (Y : forall a b a' b' : list node, all printNode a = all printNode a' -> all printNode b = all printNode b' -> all printNode (a ++ b) = all printNode (a' ++ b')).
  { intros a b a' b' E1 E2. assert (Z : forall x y, all printNode (x ++ y) = cat (all printNode x) (all printNode y)).
    { intros x y. induction x as [|z x IH]; cbn [app all]; [cbn; destruct (all printNode y); reflexivity|]. change (cat (printNode z) (all printNode (x ++ y)) = cat (cat (printNode z) (all printNode x)) (all printNode y)). rewrite IH. clear IH. generalize (printNode z) (all printNode x) (all printNode y). clear. intros [p|] [q|] [r|]; try reflexivity. unfold cat. rewrite app_assoc. reflexivity. }
    rewrite !Z, E1, E2. reflexivity. }
  rewrite (Y _ _ nds (ss_nodes own0)); auto.
Qed.
End WithProject.

(** ** Outputs *)
Section Outputs.
Context {U : UnicodeDigits} {FO : FloatOps}.
Variables (P : project) (e e' p p' : bytes).
Notation Q := (entryOnly P e').
Lemma entry_edge f g : edge Q f g <-> edge P f g. Proof. reflexivity. Qed.
Lemma entry_leads f g : leads Q f g <-> leads P f g.
Proof. split; (induction 1 as [g Hg|g h _ IH Hg]; [apply leadsEdge; exact Hg|eapply leadsStep; [exact IH|exact Hg]]). Qed.
Lemma entry_inlined : (forall d f r, inlined Q d f r -> inlined P d f r) /\ (forall d f imps m, replaces Q d f imps m -> replaces P d f imps m).
Proof.
  apply inlined_both; intros.
  - apply inUnread. assumption.
  - eapply inBad; eassumption.
  - eapply inRules; eassumption.
  - apply rpNone.
  - apply rpUnresolved. assumption.
  - eapply rpNoPath; eassumption.
  - eapply rpFailed; eassumption.
  - eapply rpRules; eassumption.
Qed.
Lemma all_app (a b : list node) l : all printNode (a ++ b) = Some l -> exists la lb, all printNode a = Some la /\ all printNode b = Some lb /\ l = la ++ lb.
Proof.
  revert l. induction a as [|x a IH]; intros l H; cbn [app all] in *; [exists [], l; auto|]. unfold cat in H. destruct (printNode x) as [lx|]; [|discriminate].
  destruct (all printNode (a ++ b)) as [l1|]; [|discriminate]. injection H as <-. destruct (IH _ eq_refl) as (la & lb & Ea & Eb & ->). exists (lx ++ la), lb. rewrite Ea. unfold cat. rewrite app_assoc. auto.
Qed.
Lemma C56_compiled_lemma g fs out g' fs' out' : o_imports (p_opts P) = ImportInline -> oneImportEach P -> p_entries P = [e] -> p_abs P e = Some p -> p_abs P e' = Some p' ->
  edge P p p' -> settledChain P p -> reach P (g, Finished fs) -> lookup p fs = Some out -> reach Q (g', Finished fs') -> lookup p' fs' = Some out' ->
  exists own css text map map', ownPart P p own /\ print None own = Some text /\ out' = css ++ mapComment map' /\ out = css ++ text ++ mapComment map.
Proof.
  intros Im One Ee Ea Ea' Ed Sc R L R' L'.
  assert (Inv : involved P p). { exists e, p. rewrite Ee. cbn. auto. }
  assert (One' : oneImportEach Q).
  { intros f (e0 & a0 & [<-|[]] & Ha & Hf). cbn [entryOnly p_abs] in Ha. assert (a0 = p') by congruence. subst a0.
    assert (If : involved P f). { exists e, p. rewrite Ee. split; [left; reflexivity|]. split; [exact Ea|]. right. destruct Hf as [->|Hf]; [apply leadsEdge; exact Ed|].
      apply entry_leads in Hf. clear - Ed Hf. induction Hf as [g0 Hg|g0 h _ IH Hg]; [eapply leadsStep; [apply leadsEdge; exact Ed|exact Hg]|eapply leadsStep; eauto]. }
    destruct (One f If) as [N1 N2]. split; [rewrite entry_leads; exact N1|exact N2]. }
  apply (C53_lemma P Im One e Ee g fs R) in L as (_ & content & n & ss & lines & ns & R1 & P1 & I1 & Pr1).
  apply (C53_lemma Q Im One' e' eq_refl g' fs' R') in L' as (_ & content' & n' & ss' & lines' & nds & R2 & P2 & I2 & Pr2). apply entry_inlined in I2.
  destruct (inlined_split P 0 p ns p' Sc One Inv Ed I1 nds I2) as (own & Ow & Pe). rewrite Pe in Pr1.
  apply print_text in Pr1 as (css1 & mp1 & T1 & ->). apply print_text in Pr2 as (css2 & mp2 & T2 & ->).
  apply print_none_iff in T1 as (l1 & A1 & ->). apply print_none_iff in T2 as (l2 & A2 & ->). unfold printNodes in A1, A2. apply all_app in A1 as (la & lb & Ax & Ay & ->).
  assert (la = l2) by congruence. subst la. exists own, (textOf l2), (textOf lb), (base64Std (mappingJson (mkSource p content lines) mp1)), (base64Std (mappingJson (mkSource p' content' lines') mp2)).
  split; [exact Ow|]. split; [apply print_none; exact Ay|]. split; [reflexivity|]. rewrite textOf_app, <- app_assoc. reflexivity.
Qed.
End Outputs.
Lemma C56_twice_lemma (FO : FloatOps) o m n ss ss' t : transform o (Some []) n ss = TOk ss' t -> Forall (settledNode o) (ss_nodes ss) ->
  Forall (fun nd => isImport nd = true -> plookup (nodeId nd) m = None) (ss_nodes ss') -> exists t', transform o (Some m) n ss' = TOk ss' t'.
Proof.
  intros T Sn Nm. unfold transform in *. destruct (transformNodes o (Some []) n (ss_nodes ss) _) as [ns t1| |] eqn:E; try discriminate. injection T as <- <-. cbn [ss_nodes ss_imports] in *.
  destruct n as [|n]; [discriminate|]. apply nodes_still in E as [X _]; [|exact Sn|apply Forall_forall; reflexivity|apply init_held].
  destruct (nodes_again o m n ns (initState o (Some m)) X Nm ltac:(apply eqm_refl)) as (t' & E' & _). rewrite E'. eexists. reflexivity.
Qed.
