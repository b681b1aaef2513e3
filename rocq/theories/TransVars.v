(** Custom properties: C27. *)
From Verif Require Import Bytes Utf8 Source Lexer Ast AstInd BytesFacts Transformer TransSpec TransProofs TransMedia.
Open Scope Z_scope.

Definition allFree := fix all (l : list value) : Prop := match l with [] => True | a :: r => varFree a /\ all r end.
Lemma allFree_Forall : forall l, allFree l <-> Forall varFree l.
Proof.
  induction l as [|a r IH]; cbn [allFree]; [split; constructor|]. rewrite Forall_cons_iff, IH. reflexivity.
Qed.
Lemma resolves_free : forall env vs, Forall varFree vs -> resolves env vs vs.
Proof.
  intros env vs H. assert (X : forall v, varFree v -> forall r r', resolves env r r' -> resolves env (v :: r) (v :: r')).
  { intros v. induction v using value_ind'; intros Hv r r' Hr; cbn [varFree] in Hv;
      try (apply rs_leaf; [exact I|exact Hr]).
    - apply rs_brackets; [|exact Hr]. fold allFree in Hv. apply allFree_Forall in Hv.
      induction H0 as [|a l Ha Hl IH]; [constructor|]. inversion Hv; subst. apply Ha; auto.
    - destruct Hv as [Hn Hv]. apply rs_func; [exact Hn| |exact Hr]. fold allFree in Hv. apply allFree_Forall in Hv.
      induction H0 as [|a l Ha Hl IH]; [constructor|]. inversion Hv; subst. apply Ha; auto.
    - destruct Hv as [H1 H2]. apply rs_math; [| |exact Hr].
      + apply IHv1; [exact H1|constructor].
      + apply IHv2; [exact H2|constructor].
    - apply rs_paren; [|exact Hr]. apply IHv; [exact Hv|constructor]. }
  induction H as [|v r Hv Hr IH]; [constructor|]. apply X; auto.
Qed.
Lemma resolves_app : forall env a a' b b', resolves env a a' -> resolves env b b' -> resolves env (a ++ b) (a' ++ b').
Proof.
  intros env a a' b b' Ha Hb. induction Ha; cbn [app].
  - exact Hb.
  - rewrite <- app_assoc. apply rs_def with (d := d); auto.
  - rewrite <- app_assoc. apply rs_fallback; auto.
  - apply rs_keep; auto.
  - apply rs_func; auto.
  - apply rs_brackets; auto.
  - apply rs_math; auto.
  - apply rs_paren; auto.
  - apply rs_leaf; auto.
Qed.

Section V.
Context {FO : FloatOps}.
Variable o : topts.

Lemma value_resolves : forall n v t m, t_vars t = Some m -> flatVar (fun x => lookup x m) v ->
  (o_calc o = true -> isCalc v = false) ->
  exists vs t', transformValue o (S n) v t = TOk vs t' /\ resolves (fun x => lookup x m) [v] vs.
Proof.
  intros n v t m Hm Hf Hc.
  assert (NC : forall sp name args new t1, v = VFunc sp name args ->
     (if negb (beq name (B "calc")) || negb (o_calc o) then tret new else
      match args with
      | [a0] =>
        args' <~ transformValue o n a0 ;;
        match args' with
        | [a] =>
          match a with
          | VMath _ op l r =>
            ls <~ transformValue o n l ;;
            rs <~ transformValue o n r ;;
            match ls with
            | [l1] =>
              match rs with
              | [r1] =>
                e <~ evaluateMathExpression l1 r1 op ;;
                tret (if isNil e then new else [e])
              | _ => _ <~ addErrorAt true r (B "expected right-hand side of math expression to be a single value") ;; tret new
              end
            | _ => _ <~ addErrorAt true l (B "expected left-hand side of math expression to be a single value") ;; tret new
            end
          | _ => tret new
          end
        | _ => _ <~ treport (mkReport true sp (B "expected single argument for calc()")) ;; tret new
        end
      | _ => _ <~ treport (mkReport true sp (B "expected single argument for calc()")) ;; tret new
      end) t1 = TOk new t1).
  { intros sp name args new t1 ->. cbn [isCalc] in Hc. destruct (o_calc o); [rewrite (Hc eq_refl)|rewrite orb_true_r]; reflexivity. }
  destruct Hf as [Hfree|(sp & isp & x & tl & -> & He)].
  - assert (R : resolves (fun x => lookup x m) [v] [v]) by (apply resolves_free; constructor; auto).
    destruct v as [| | | | | |sp name args| | | |]; try (eexists; eexists; split; [reflexivity|exact R]).
    exists [VFunc sp name args], t. split; [|exact R]. cbn [transformValue].
    cbn [varFree] in Hfree. destruct Hfree as [Hn _]. apply beq_neq in Hn.
    rewrite (tbind_step _ _ _ _ _ [VFunc sp name args] t); [apply NC; reflexivity|].
    unfold substVar. rewrite Hn. reflexivity.
  - assert (D : forall new t1, substVar sp (B "var") (VIdent isp x :: tl) t = TOk new t1 ->
                resolves (fun x => lookup x m) [VFunc sp (B "var") (VIdent isp x :: tl)] new ->
                exists vs t', transformValue o (S n) (VFunc sp (B "var") (VIdent isp x :: tl)) t = TOk vs t' /\
                              resolves (fun x => lookup x m) [VFunc sp (B "var") (VIdent isp x :: tl)] vs).
    { intros new t1 H1 H2. exists new, t1. split; [|exact H2]. cbn [transformValue].
      rewrite (tbind_step _ _ _ _ _ _ _ H1). reflexivity. }
    destruct (lookup x m) as [d|] eqn:El.
    + apply (D d t).
      * unfold substVar. change (negb (beq (B "var") (B "var"))) with false. cbv iota beta. rewrite Hm, El. reflexivity.
      * rewrite <- (app_nil_r d). apply rs_def with (d := d); [exact El|apply resolves_free; exact He|constructor].
    + destruct He as [->|(csp & fb & -> & Hne & Hfb)].
      * apply (D [VFunc sp (B "var") [VIdent isp x]] (mkT (Some m) (t_cmedia t) (t_reports t ++ [mkReport true sp (B "use of undefined variable without fallback: " ++ x)]))).
        { unfold substVar. change (negb (beq (B "var") (B "var"))) with false. cbv iota beta. rewrite Hm, El. unfold tbind, treport, tret. rewrite Hm. reflexivity. }
        apply rs_keep; [exact El|constructor].
      * apply (D fb t).
        { unfold substVar. change (negb (beq (B "var") (B "var"))) with false. cbv iota beta. rewrite Hm, El.
          destruct fb as [|f0 fb]; [congruence|]. reflexivity. }
        rewrite <- (app_nil_r fb) at 2. apply rs_fallback; [exact El|exact Hne|apply resolves_free; exact Hfb|constructor].
Qed.
Lemma values_resolve : forall n vs t m, t_vars t = Some m -> Forall (flatVar (fun x => lookup x m)) vs ->
  (o_calc o = true -> Forall (fun v => isCalc v = false) vs) ->
  exists vs' t', transformValues o (S n) vs t = TOk vs' t' /\ resolves (fun x => lookup x m) vs vs'.
Proof.
  intros n vs. induction vs as [|v r IH]; intros t m Hm Hf Hc.
  - exists [], t. split; [reflexivity|constructor].
  - inversion Hf; subst.
    destruct (value_resolves n v t m Hm) as (a & t1 & H3 & H4); [auto|intros Ho; specialize (Hc Ho); inversion Hc; auto|].
    destruct (keeps_value o _ _ _ _ _ H3) as [E1 _].
    destruct (IH t1 m) as (b & t2 & H5 & H6); [congruence|auto|intros Ho; specialize (Hc Ho); inversion Hc; auto|].
    exists (a ++ b), t2. cbn [transformValues]. rewrite (tbind_step _ _ _ _ _ _ _ H3), (tbind_step _ _ _ _ _ _ _ H5).
    split; [reflexivity|]. apply (resolves_app _ [v] a r b); auto.
Qed.

Lemma decls_resolve : forall n ds t m, t_vars t = Some m -> Forall (flatDecl (o_calc o) (fun x => lookup x m)) ds ->
  exists ds' t', transformDecls o (S n) ds t = TOk ds' t' /\ Forall2 (declResolves (fun x => lookup x m)) ds ds'.
Proof.
  intros n ds. induction ds as [|d r IH]; intros t m Hm Hf.
  - exists [], t. split; [reflexivity|constructor].
  - inversion Hf; subst. cbn [transformDecls].
    assert (X : exists d' t1, match d with
          | DDecl sp prop vals imp => vs <~ transformValues o (S n) vals ;; tret (DDecl sp prop vs imp)
          | DRaw _ _ => tret d
          end t = TOk d' t1 /\ declResolves (fun x => lookup x m) d d' /\ t_vars t1 = Some m).
    { destruct d as [sp prop vs imp|sp v].
      - destruct H1 as [Hv Hc]. destruct (values_resolve n vs t m Hm Hv Hc) as (vs' & t1 & H3 & H4).
        exists (DDecl sp prop vs' imp), t1. rewrite (tbind_step _ _ _ _ _ _ _ H3). split; [reflexivity|].
        split; [constructor; auto|]. destruct (keeps_values o _ _ _ _ _ H3). congruence.
      - exists (DRaw sp v), t. split; [reflexivity|]. split; [constructor|auto]. }
    destruct X as (d' & t1 & H3 & H4 & H5). destruct (IH t1 m H5 H2) as (r' & t2 & H6 & H7).
    exists (d' :: r'), t2. rewrite (tbind_step _ _ _ _ _ _ _ H3), (tbind_step _ _ _ _ _ _ _ H6). split; [reflexivity|].
    constructor; auto.
Qed.

(** The :root scan. *)
Definition declDefs (ds : list decl) : list (bytes * list value) :=
  flat_map (fun d => match d with DDecl _ prop vals _ => if hasPrefix (B "--") prop then [(prop, vals)] else [] | DRaw _ _ => [] end) ds.
Lemma collect_spec : forall ds t m, t_vars t = Some m -> exists t',
  collectRoot ds t = TOk (filter (fun d => negb (isCustomProp d)) ds) t' /\ t_vars t' = Some (rev (declDefs ds) ++ m).
Proof.
  intros ds. induction ds as [|d r IH]; intros t m Hm.
  - exists t. auto.
  - cbn [collectRoot]. destruct d as [sp prop vals imp|sp v].
    + rewrite Hm. cbn [filter isCustomProp declDefs flat_map]. destruct (hasPrefix (B "--") prop) eqn:Ep; cbn [negb].
      * destruct (IH (mkT (Some ((prop, vals) :: m)) (t_cmedia t) (t_reports t)) _ eq_refl) as (t' & H1 & H2).
        exists t'. split; [exact H1|]. rewrite H2. cbn [app rev]. rewrite <- app_assoc. reflexivity.
      * destruct (IH t m Hm) as (t' & H1 & H2). exists t'. rewrite (tbind_step _ _ _ _ _ _ _ H1). split; [reflexivity|exact H2].
    + cbn [filter isCustomProp declDefs flat_map negb]. destruct (IH t m Hm) as (t' & H1 & H2).
      exists t'. rewrite (tbind_step _ _ _ _ _ _ _ H1). split; [reflexivity|exact H2].
Qed.
Lemma isRoot_iff : forall p ps, isRootPseudo p = true <-> firstIsRoot (p :: ps).
Proof.
  intros p ps. unfold firstIsRoot. destruct p; cbn [isRootPseudo]; try (split; [discriminate|intros (? & ? & ? & ?); discriminate]).
  rewrite beq_eq. split; [intros ->; eauto|]. intros (? & ? & ? & H); inversion H; auto.
Qed.
Lemma scan_spec : forall r t m, t_vars t = Some m -> plainSelectors (NRule r) ->
  (forall lsp sels, r_prelude r = PrSel (lsp, sels) -> Forall (fun s : selector => snd s <> []) sels) ->
  exists t', scanRoot (r_prelude r) (r_decls r) t = TOk (keptDecls r) t' /\
             t_vars t' = Some (rev (varDefs (NRule r)) ++ m).
Proof.
  intros r t m Hm (lsp & sp & ps & rest & Hp & Hr) Hne. unfold keptDecls. cbn [varDefs]. rewrite Hp. cbn [scanRoot].
  specialize (Hne _ _ Hp). inversion Hne as [|? ? Hps Hrest]; subst. cbn [snd] in Hps.
  destruct ps as [|p ps]; [congruence|].
  destruct Hr as [(Hroot & Hlen & Hf)|[Hroot Hf]]; rewrite Hroot.
  - cbn [existsb snd]. assert (L : (length (p :: ps) =? 1)%nat = false) by (apply Nat.eqb_neq; cbn [length] in *; lia).
    rewrite L. cbn [negb orb]. rewrite (proj2 (isRoot_iff p ps) Hf).
    destruct (collect_spec (r_decls r) t m Hm) as (t' & H1 & H2). exists t'. split; [exact H1|]. exact H2.
  - exists t. split; [|exact Hm]. destruct (existsb _ _); [|reflexivity].
    destruct (isRootPseudo p) eqn:Ep; [apply (isRoot_iff p ps) in Ep; contradiction|reflexivity].
Qed.

Lemma rule_vars : forall n r t m x t', t_vars t = Some m -> plainSelectors (NRule r) ->
  (forall lsp sels, r_prelude r = PrSel (lsp, sels) -> Forall (fun s : selector => snd s <> []) sels) ->
  transformRule o n r t = TOk x t' -> t_vars t' = Some (rev (varDefs (NRule r)) ++ m).
Proof.
  intros n r t m x t' Hm Hp Hne H. destruct (scan_spec r t m Hm Hp Hne) as (t1 & H1 & H2).
  unfold transformRule in H. rewrite (tbind_step _ _ _ _ _ _ _ H1) in H.
  destruct (r_prelude r) as [|[lsp sels]|]; [discriminate| |].
  - apply tbind_ok in H as (ds' & t2 & H3 & H). apply keeps_decls in H3 as [H3 _].
    destruct ds'; apply tret_ok in H as [_ <-]; congruence.
  - apply tbind_ok in H as (? & ? & _ & H). discriminate.
Qed.
Definition selectorsOk (nd : node) : Prop :=
  match nd with
  | NRule r => forall lsp sels, r_prelude r = PrSel (lsp, sels) -> Forall (fun s : selector => snd s <> []) sels
  | NAt _ => True
  end.
Lemma one_vars : forall n nd t m out t', t_vars t = Some m -> plainSelectors nd -> selectorsOk nd ->
  oneNode o None n nd t = TOk out t' -> t_vars t' = Some (rev (varDefs nd) ++ m).
Proof.
  intros n nd t m out t' Hm Hp Hs H. destruct nd as [r|a]; cbn [oneNode] in H.
  - apply tbind_ok in H as (x & t1 & H1 & H). apply tret_ok in H as [_ <-]. eapply rule_vars; eauto.
  - cbn [varDefs rev app]. rewrite <- Hm. destruct (beq (ar_name a) (B "import")); [apply tret_ok in H as [_ <-]; auto|].
    destruct (beq (ar_name a) (B "custom-media")).
    + apply tbind_ok in H as (x & t1 & H1 & H). apply tret_ok in H as [_ <-]. unfold addCustomMedia in H1.
      destruct (t_cmedia t) eqn:Em; [|inversion H1; subst; auto].
      destruct (ar_preludes a) as [|[] [|[] [|]]]; inversion H1; subst; auto.
    + destruct (beq (ar_name a) (B "media")).
      * destruct (ar_preludes a) as [|[| |[lsp qs]| |] pres]; try discriminate.
        apply tbind_ok in H as (x & t1 & H1 & H). apply tret_ok in H as [_ <-].
        apply keeps_mqs in H1 as [-> _]. reflexivity.
      * apply tret_ok in H as [_ <-]. reflexivity.
Qed.
Lemma nodes_vars : forall n ns t m out t', t_vars t = Some m -> Forall plainSelectors ns -> Forall selectorsOk ns ->
  transformNodes o None (S n) ns t = TOk out t' -> t_vars t' = Some (rev (flat_map varDefs ns) ++ m).
Proof.
  intros n ns. induction ns as [|nd r IH]; intros t m out t' Hm Hp Hs H.
  - rewrite nodes_nil in H. apply tret_ok in H as [_ <-]. exact Hm.
  - inversion Hp; inversion Hs; subst.
    rewrite nodes_cons in H. apply tbind_ok in H as (h & t1 & H1' & H). apply tbind_ok in H as (rs & t2 & H2' & H).
    apply tret_ok in H as [_ <-]. eapply one_vars in H1'; eauto. eapply IH in H2'; eauto. rewrite H2'.
    cbn [flat_map]. rewrite rev_app_distr, app_assoc. reflexivity.
Qed.

Lemma resolves_ext : forall e1 e2 vs vs', (forall x, e1 x = e2 x) -> resolves e1 vs vs' -> resolves e2 vs vs'.
Proof.
  intros e1 e2 vs vs' He H. induction H.
  - constructor.
  - apply rs_def with (d := d); auto; congruence.
  - apply rs_fallback; auto; congruence.
  - apply rs_keep; auto; congruence.
  - apply rs_func; auto.
  - apply rs_brackets; auto.
  - apply rs_math; auto.
  - apply rs_paren; auto.
  - apply rs_leaf; auto.
Qed.
Lemma flatVar_ext : forall e1 e2 v, (forall x, e1 x = e2 x) -> flatVar e1 v -> flatVar e2 v.
Proof.
  intros e1 e2 v He [H|(sp & isp & x & tl & -> & H)]; [left; auto|].
  right. exists sp, isp, x, tl. split; [reflexivity|]. rewrite <- He. exact H.
Qed.

Lemma C27_lemma : forall n pre r post out t', o_props o = true ->
  Forall plainSelectors (pre ++ [NRule r]) -> Forall nodeOk (pre ++ [NRule r]) ->
  Forall (flatDecl (o_calc o) (varEnvOf (pre ++ [NRule r]))) (keptDecls r) -> keptDecls r <> [] ->
  transformNodes o None (S (S n)) (pre ++ NRule r :: post) (initState o None) = TOk out t' ->
  exists opre r' opost, out = opre ++ NRule r' :: opost /\
    Forall2 (declResolves (varEnvOf (pre ++ [NRule r]))) (keptDecls r) (r_decls r').
Proof.
  intros n pre r post out t' Ho Hp Hok Hf Hne H.
  assert (Hs : Forall selectorsOk (pre ++ [NRule r])).
  { revert Hok. apply Forall_impl. intros [r0|a] Hr; cbn [selectorsOk nodeOk] in *; [|exact I].
    destruct Hr as (lsp & sels & E & K). intros lsp' sels' E'. rewrite E in E'. inversion E'; subst; auto. }
  apply nodes_app in H as (oa & t1 & ob & H1 & H2 & ->).
  apply Forall_app in Hp as [Hp1 Hp2]. apply Forall_app in Hs as [Hs1 Hs2]. apply Forall_inv in Hp2. apply Forall_inv in Hs2.
  assert (Hv : t_vars t1 = Some (rev (flat_map varDefs pre) ++ [])).
  { eapply nodes_vars; eauto. unfold initState. rewrite Ho. reflexivity. }
  rewrite nodes_cons in H2. apply tbind_ok in H2 as (h & t2 & K1 & H2). apply tbind_ok in H2 as (rs & t3 & K2 & H2).
  apply tret_ok in H2 as [<- <-]. cbn [oneNode] in K1. apply tbind_ok in K1 as (r1 & t4 & K3 & K1). apply tret_ok in K1 as [<- <-].
  unfold transformRule in K3. cbn [selectorsOk] in Hs2.
  destruct (scan_spec r t1 _ Hv Hp2 Hs2) as (t5 & S1 & S2). rewrite (tbind_step _ _ _ _ _ _ _ S1) in K3.
  assert (He : forall x, lookup x (rev (varDefs (NRule r)) ++ rev (flat_map varDefs pre) ++ []) = varEnvOf (pre ++ [NRule r]) x).
  { intros x. unfold varEnvOf. rewrite flat_map_app. cbn [flat_map]. rewrite !app_nil_r, <- rev_app_distr. apply lookup_rev. }
  destruct (decls_resolve n (keptDecls r) t5 _ S2) as (ds' & t6 & D1 & D2).
  { revert Hf. apply Forall_impl. intros [sp prop vs imp|]; cbn [flatDecl]; [|auto]. intros [A C]. split; [|exact C].
    revert A. apply Forall_impl. intros v. apply flatVar_ext. intros; symmetry; apply He. }
  destruct (r_prelude r) as [|[lsp sels]|]; [discriminate| |].
  - rewrite (tbind_step _ _ _ _ _ _ _ D1) in K3. destruct ds' as [|d0 ds'].
    + inversion D2 as [E|]. congruence.
    + apply tret_ok in K3 as [<- <-]. exists oa. eexists. exists rs. split; [reflexivity|]. cbn [r_decls].
      clear - D2 He. induction D2 as [|a b la lb Hab _ IH]; constructor; [|exact IH].
      inversion Hab; subst; constructor. eapply resolves_ext; [exact He|eassumption].
  - apply tbind_ok in K3 as (? & ? & _ & K3). discriminate.
Qed.
End V.
