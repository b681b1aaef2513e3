(** Lemmas about Transformer.v. *)
From Coq Require Import QArith.
From Verif Require Import Bytes Utf8 Source Lexer Ast AstInd BytesFacts Transformer TransSpec.
Open Scope Z_scope.

Lemma tbind_ok : forall A C (m : TM A) (k : A -> TM C) t c t',
  tbind m k t = TOk c t' <-> exists a t1, m t = TOk a t1 /\ k a t1 = TOk c t'.
Proof.
  intros A C m k t c t'. unfold tbind. destruct (m t) as [a t1| |] eqn:E.
  - split; [intros H; exists a, t1; auto|]. intros (a' & t1' & H & K). congruence.
  - split; [discriminate|]. intros (? & ? & H & _); discriminate.
  - split; [discriminate|]. intros (? & ? & H & _); discriminate.
Qed.
Lemma tbind_step : forall A C (m : TM A) (k : A -> TM C) t a t1, m t = TOk a t1 -> tbind m k t = k a t1.
Proof. intros A C m k t a t1 H. unfold tbind. rewrite H. reflexivity. Qed.

Lemma tret_ok : forall A (a b : A) t t', tret a t = TOk b t' -> a = b /\ t = t'.
Proof. intros A a b t t' H. unfold tret in H. inversion H; auto. Qed.

(** ** Passthrough *)
Definition passOpts (o : topts) : Prop :=
  o_ranges o = false /\ o_anylink o = false /\ o_props o = false /\ o_cmedia o = false /\ o_calc o = false.

Section P.
Context {FO : FloatOps}.
Variable o : topts.

Lemma value_pass : forall n v t, o_calc o = false -> t_vars t = None -> transformValue o (S n) v t = TOk [v] t.
Proof.
  intros n v t Ho Ht. destruct v; try reflexivity.
  cbn [transformValue]. erewrite tbind_step.
  - rewrite Ho. rewrite orb_true_r. reflexivity.
  - unfold substVar. destruct (negb _); [reflexivity|]. rewrite Ht. reflexivity.
Qed.
Lemma values_pass : forall n vs t, o_calc o = false -> t_vars t = None -> transformValues o (S n) vs t = TOk vs t.
Proof.
  intros n vs t Ho Ht. induction vs as [|v r IH]; [reflexivity|].
  cbn [transformValues]. rewrite (tbind_step _ _ _ _ _ _ _ (value_pass n v t Ho Ht)).
  rewrite (tbind_step _ _ _ _ _ _ _ IH). reflexivity.
Qed.
Lemma decls_pass : forall n ds t, o_calc o = false -> t_vars t = None -> transformDecls o (S n) ds t = TOk ds t.
Proof.
  intros n ds t Ho Ht. induction ds as [|d r IH]; [reflexivity|].
  cbn [transformDecls].
  erewrite tbind_step; [rewrite (tbind_step _ _ _ _ _ _ _ IH); reflexivity|].
  destruct d; [|reflexivity]. rewrite (tbind_step _ _ _ _ _ _ _ (values_pass n vals t Ho Ht)). reflexivity.
Qed.
Lemma collect_pass : forall ds t, t_vars t = None -> collectRoot ds t = TOk ds t.
Proof.
  intros ds t Ht. induction ds as [|d r IH]; [reflexivity|].
  cbn [collectRoot]. destruct d; [rewrite Ht|]; rewrite (tbind_step _ _ _ _ _ _ _ IH); reflexivity.
Qed.
Lemma scan_pass : forall lsp sels ds t, t_vars t = None -> Forall (fun s : selector => snd s <> []) sels ->
  scanRoot (PrSel (lsp, sels)) ds t = TOk ds t.
Proof.
  intros lsp sels ds t Ht Hs. unfold scanRoot. destruct (existsb _ _); [|reflexivity].
  destruct sels as [|[s ps] r]; [reflexivity|]. inversion Hs; subst. destruct ps; [cbn in *; congruence|].
  destruct (isRootPseudo s0); [apply collect_pass; auto|reflexivity].
Qed.
Lemma rule_pass : forall n r t, o_calc o = false -> o_anylink o = false -> t_vars t = None -> ruleOk r ->
  transformRule o (S n) r t = TOk (match r_decls r with [] => None | _ => Some r end) t.
Proof.
  intros n r t H1 H2 Ht (lsp & sels & Hp & Hs). unfold transformRule.
  rewrite Hp. rewrite (tbind_step _ _ _ _ _ _ _ (scan_pass lsp sels (r_decls r) t Ht Hs)).
  rewrite (tbind_step _ _ _ _ _ _ _ (decls_pass n (r_decls r) t H1 Ht)).
  destruct r as [run sp pr bsp ds]. cbn [r_prelude r_decls r_run r_sp r_bsp] in *. subst.
  unfold transformSelectors. rewrite H2. destruct ds; reflexivity.
Qed.
Lemma mqparts_pass : forall ps t, o_ranges o = false -> t_cmedia t = None -> transformMqParts o ps t = TOk ps t.
Proof.
  intros ps t H1 Ht. induction ps as [|p r IH]; [reflexivity|].
  cbn [transformMqParts]. rewrite (tbind_step _ _ _ _ t [p] t); [rewrite (tbind_step _ _ _ _ _ _ _ IH); reflexivity|].
  destruct p; [reflexivity| |].
  - destruct (negb _ || _); [reflexivity|]. rewrite Ht. reflexivity.
  - unfold transformRange. rewrite H1. reflexivity.
Qed.
Lemma mqs_pass : forall qs t, o_ranges o = false -> t_cmedia t = None -> transformMqs o qs t = TOk qs t.
Proof.
  intros qs t H1 Ht. induction qs as [|[sp ps] r IH]; [reflexivity|].
  cbn [transformMqs]. rewrite (tbind_step _ _ _ _ _ _ _ (mqparts_pass ps t H1 Ht)).
  rewrite (tbind_step _ _ _ _ _ _ _ IH). reflexivity.
Qed.
End P.

(** One step of the node loop. *)
Section N.
Context {FO : FloatOps}.
Variable o : topts.
Variable repl : option (list (ptr * list node)).
Definition oneNode (n : nat) (nd : node) : TM (list node) :=
  match nd with
  | NRule r =>
    r' <~ transformRule o n r ;;
    tret (match r' with Some r' => [NRule r'] | None => [] end)
  | NAt a =>
    if beq (ar_name a) (B "import") then
      match repl with
      | None => tret [nd; nd]
      | Some m =>
        match plookup (atRuleId a) m with
        | None => tret [nd]
        | Some imported =>
          _ <~ (if (1 <? length (ar_preludes a))%nat
                then treport (mkReport true (ar_sp a) (B "@import transform does not yet support @supports or media queries"))
                else tret tt) ;;
          transformNodes o repl n imported
        end
      end
    else if beq (ar_name a) (B "custom-media") then
      _ <~ addCustomMedia (ar_preludes a) ;; tret []
    else if beq (ar_name a) (B "media") then
      match ar_preludes a with
      | APMql (lsp, qs) :: pres =>
        qs' <~ transformMqs o qs ;;
        tret [NAt (mkAt (ar_run a) (ar_sp a) (ar_name a) (APMql (lsp, qs') :: pres) (ar_block a))]
      | _ => tcrash
      end
    else tret [nd]
  end.
Lemma nodes_O : forall ns, transformNodes o repl 0 ns = ttimeout.
Proof. reflexivity. Qed.
Lemma nodes_nil : forall n, transformNodes o repl (S n) [] = tret [].
Proof. reflexivity. Qed.
Lemma nodes_cons : forall n nd rest,
  transformNodes o repl (S n) (nd :: rest) =
  (here <~ oneNode n nd ;; rest' <~ transformNodes o repl (S n) rest ;; tret (here ++ rest')).
Proof. reflexivity. Qed.

Lemma nodes_app : forall n a b t out t', transformNodes o repl (S n) (a ++ b) t = TOk out t' <->
  exists oa t1 ob, transformNodes o repl (S n) a t = TOk oa t1 /\ transformNodes o repl (S n) b t1 = TOk ob t' /\ out = oa ++ ob.
Proof.
  intros n a. induction a as [|x a IH]; intros b t out t'.
  - cbn [app]. rewrite nodes_nil. split.
    + intros H. exists [], t, out. auto.
    + intros (oa & t1 & ob & H & K & ->). apply tret_ok in H as [<- <-]. exact K.
  - cbn [app]. rewrite !nodes_cons. split.
    + intros H. apply tbind_ok in H as (h & t1 & H1 & H). apply tbind_ok in H as (r & t2 & H2 & H).
      apply tret_ok in H as [<- <-]. apply IH in H2 as (oa & t3 & ob & Ha & Hb & ->).
      exists (h ++ oa), t3, ob. split; [|split; [exact Hb|apply app_assoc]].
      apply tbind_ok. exists h, t1. split; [exact H1|]. apply tbind_ok. exists oa, t3. split; [exact Ha|reflexivity].
    + intros (oa & t1 & ob & H & K & ->). apply tbind_ok in H as (h & t2 & H1 & H).
      apply tbind_ok in H as (r & t3 & H2 & H). apply tret_ok in H as [<- <-].
      apply tbind_ok. exists h, t2. split; [exact H1|]. apply tbind_ok. exists (r ++ ob), t'.
      split; [apply IH; exists r, t3, ob; auto|]. unfold tret. rewrite app_assoc. reflexivity.
Qed.
End N.


Lemma one_pass : forall (FO : FloatOps) o n nd t, passOpts o -> t_vars t = None -> t_cmedia t = None -> nodeOk nd ->
  oneNode o None (S n) nd t = TOk (passNode nd) t.
Proof.
  intros FO o n nd t (H1 & H2 & H3 & H4 & H5) Hv Hc Hn. destruct nd as [r|a]; cbn [nodeOk] in Hn.
  - unfold oneNode. rewrite (tbind_step _ _ _ _ _ _ _ (rule_pass o n r t H5 H2 Hv Hn)).
    unfold passNode, isEmptyRule, isCustomMedia, isImport. destruct (r_decls r); reflexivity.
  - unfold oneNode, passNode, isEmptyRule, isCustomMedia, isImport. cbn [orb].
    destruct (beq (ar_name a) (B "import")) eqn:Ei.
    + apply beq_eq in Ei. rewrite Ei. reflexivity.
    + destruct (beq (ar_name a) (B "custom-media")) eqn:Ec.
      * unfold addCustomMedia, tbind. rewrite Hc. reflexivity.
      * destruct (beq (ar_name a) (B "media")) eqn:Em; [|reflexivity].
        apply beq_eq in Em. destruct (Hn Em) as ([lsp qs] & pres & Hp). rewrite Hp.
        rewrite (tbind_step _ _ _ _ _ _ _ (mqs_pass o qs t H1 Hc)).
        destruct a as [ru asp nm prs bl]. cbn [ar_run ar_sp ar_name ar_preludes ar_block] in *. subst. reflexivity.
Qed.
Lemma nodes_pass : forall (FO : FloatOps) o n ns t, passOpts o -> t_vars t = None -> t_cmedia t = None -> Forall nodeOk ns ->
  transformNodes o None (S (S n)) ns t = TOk (flat_map passNode ns) t.
Proof.
  intros FO o n ns t Ho Hv Hc H. induction H as [|nd r Hn Hr IH]; [reflexivity|].
  rewrite nodes_cons. rewrite (tbind_step _ _ _ _ _ _ _ (one_pass FO o n nd t Ho Hv Hc Hn)).
  rewrite (tbind_step _ _ _ _ _ _ _ IH). reflexivity.
Qed.

(** ** :any-link *)
Lemma isAnyLink_spec : forall p, isAnyLink p = true <-> namedAnyLink p.
Proof.
  intros p. unfold namedAnyLink. destruct p; cbn [isAnyLink];
    try (split; [discriminate|intros (? & ? & ?); discriminate]).
  rewrite beq_eq. split; [intros ->; eauto|]. intros (? & ? & H); inversion H; auto.
Qed.
Lemma set_space : forall nm p, isSpace (setPseudo nm p) = isSpace p.
Proof. intros nm p. unfold setPseudo. destruct (isAnyLink p) eqn:E; [|reflexivity]. destruct p; try discriminate; reflexivity. Qed.
Lemma set_comb : forall nm p, isComb (setPseudo nm p) = isComb p.
Proof. intros nm p. unfold setPseudo. destruct (isAnyLink p) eqn:E; [|reflexivity]. destruct p; try discriminate; reflexivity. Qed.
Lemma significant_map : forall nm ps skip,
  significant skip (map (setPseudo nm) ps) = map (setPseudo nm) (significant skip ps).
Proof.
  intros nm ps. induction ps as [|p r IH]; intros skip; [reflexivity|].
  cbn [map significant]. rewrite set_space, set_comb. destruct (isSpace p).
  - destruct r as [|q r']; [reflexivity|]. cbn [map] in *. rewrite set_space, set_comb.
    destruct (skip || isSpace q || isComb q); [apply IH|]. cbn [map]. f_equal. apply IH.
  - cbn [map]. f_equal. apply IH.
Qed.
Lemma significant_in : forall ps skip p, In p (significant skip ps) -> In p ps.
Proof.
  intros ps. induction ps as [|q r IH]; intros skip p H; [exact H|]. cbn [significant] in H.
  destruct (isSpace q).
  - destruct r as [|q' r']; [contradiction|]. destruct (_ || _); [right; eauto|].
    destruct H as [->|H]; [left; auto|right; eauto].
  - destruct H as [->|H]; [left; auto|right; eauto].
Qed.
Section AnyLink.
Variable E : Type.
Variable simple : selpart -> E -> Prop.
Variable rel : bytes -> E -> E -> Prop.
Notation mf := (matchesFrom E simple rel).

Lemma mf_ext : forall (P Q : selpart) pre post e,
  isSpace P = false -> isComb P = false -> isSpace Q = false -> isComb Q = false ->
  (forall x, simple P x -> simple Q x) -> mf (pre ++ P :: post) e -> mf (pre ++ Q :: post) e.
Proof.
  intros P Q pre post e H1 H2 H3 H4 Hx. revert e. induction pre as [|p r IH]; intros e H.
  - cbn [app] in *. destruct P; try discriminate; destruct Q; try discriminate; cbn [matchesFrom] in *; intuition.
  - cbn [app] in *. destruct p; cbn [matchesFrom] in *;
      try (destruct H as (e' & Hr & H); exists e'; auto); destruct H; auto.
Qed.
(** A disjunction in one place. *)
Lemma mf_or : forall (P Q R : selpart) pre post e,
  isSpace P = false -> isComb P = false -> isSpace Q = false -> isComb Q = false -> isSpace R = false -> isComb R = false ->
  (forall x, simple P x <-> simple Q x \/ simple R x) ->
  (mf (pre ++ P :: post) e <-> mf (pre ++ Q :: post) e \/ mf (pre ++ R :: post) e).
Proof.
  intros P Q R pre post e H1 H2 H3 H4 H5 H6 Hx. revert e. induction pre as [|p r IH]; intros e.
  - cbn [app] in *. destruct P; try discriminate; destruct Q; try discriminate; destruct R; try discriminate;
      cbn [matchesFrom]; specialize (Hx e); tauto.
  - cbn [app] in *. destruct p; cbn [matchesFrom]; try (specialize (IH e); tauto);
      (split; [intros (e' & Hr & H); apply IH in H as [H|H]; [left|right]; exists e'; auto
              |intros [(e' & Hr & H)|(e' & Hr & H)]; exists e'; (split; [exact Hr|]; apply IH; auto)]).
Qed.
(** Replacing all at once, one direction. *)
Lemma mf_set : forall nm ps e, anyLinkLaw simple -> (nm = B "link" \/ nm = B "visited") ->
  (forall sp args, In (SPseudo sp (B "any-link") args) ps -> args = PANone) ->
  mf (map (setPseudo nm) ps) e -> mf ps e.
Proof.
  intros nm ps e HL Hnm. revert e. induction ps as [|p r IH]; intros e Hb H; [exact I|].
  assert (Hb' : forall sp args, In (SPseudo sp (B "any-link") args) r -> args = PANone) by (intros; eapply Hb; right; eauto).
  cbn [map] in H. unfold setPseudo at 1 in H. destruct (isAnyLink p) eqn:Ep.
  - apply isAnyLink_spec in Ep as (sp & args & ->). assert (args = PANone) by (eapply Hb; left; reflexivity). subst.
    cbn [matchesFrom] in *. destruct H as [H K]. split; [|auto].
    apply (HL sp zsp zsp). destruct Hnm as [->| ->]; [left|right]; exact H.
  - destruct p; cbn [matchesFrom] in *; try (destruct H as (e' & Hr & H); exists e'; auto); destruct H; auto.
Qed.

Lemma set_none : forall nm ps, noAnyLink ps -> map (setPseudo nm) ps = ps.
Proof.
  intros nm ps H. rewrite <- (map_id ps) at 2. apply map_ext_in. intros p Hp. unfold setPseudo.
  destruct (isAnyLink p) eqn:Ep; [|reflexivity]. apply isAnyLink_spec in Ep. destruct (H p Hp Ep).
Qed.
Lemma filter_none : forall ps, noAnyLink ps -> filter isAnyLink ps = [].
Proof.
  intros ps. induction ps as [|p r IH]; intros H; [reflexivity|]. cbn [filter].
  destruct (isAnyLink p) eqn:Ep; [apply isAnyLink_spec in Ep; destruct (H p (or_introl eq_refl) Ep)|].
  apply IH. intros q Hq. apply H. right; auto.
Qed.

Lemma selector_sound : forall s s' e, anyLinkLaw simple -> bareAnyLink (snd s) -> In s' (transformSelector s) ->
  matchesSelector simple rel s' e -> matchesSelector simple rel s e.
Proof.
  intros [sp ps] s' e HL Hb Hin H. cbn [snd] in *. unfold transformSelector in Hin.
  assert (Hx : exists nm, (nm = B "link" \/ nm = B "visited") /\ s' = (sp, map (setPseudo nm) ps)).
  { apply in_app_or in Hin as [Hin|[Hin|[]]]; [apply repeat_spec in Hin|]; eauto. }
  destruct Hx as (nm & Hnm & ->). unfold matchesSelector in *. cbn [snd] in *.
  rewrite significant_map, <- map_rev in H. revert H. apply mf_set; auto.
  intros sp' args Hi. apply in_rev, significant_in in Hi. eauto.
Qed.
Lemma selector_equiv : forall s e, anyLinkLaw simple -> atMostOne (snd s) ->
  (matchesSelector simple rel s e <-> matchesList simple rel (transformSelector s) e).
Proof.
  intros [sp ps] e HL [Hn|(pre & asp & post & Hp & H1 & H2)]; cbn [snd] in *.
  - unfold transformSelector. rewrite filter_none, set_none by auto. cbn [length repeat app]. unfold matchesList.
    rewrite set_none by auto.
    split; [intros H; exists (sp, ps); split; [left; auto|auto]|]. intros (s & [<-|[]] & H); auto.
  - subst ps. unfold transformSelector. rewrite filter_app. cbn [filter isAnyLink]. rewrite beq_refl.
    rewrite !filter_none by auto. cbn [length repeat app]. rewrite !map_app. cbn [map].
    rewrite !set_none by auto. unfold setPseudo. cbn [isAnyLink]. rewrite beq_refl.
    assert (Hs : forall q, isSpace q = false -> isComb q = false ->
              exists a b, forall q', isSpace q' = false -> isComb q' = false ->
                significant true (pre ++ q' :: post) = a ++ q' :: b).
    { intros q _ _. clear. generalize true. induction pre as [|x r IH]; intros sk.
      - exists [], (significant false post). intros q' Hq Hc. cbn [app significant]. rewrite Hq, Hc. reflexivity.
      - destruct r as [|y r'].
        + cbn [app significant] in *. destruct (isSpace x) eqn:Ex.
          * destruct sk.
            { exists [], (significant false post). intros q' Hq Hc. cbn [orb]. rewrite Hq, Hc. reflexivity. }
            exists [x], (significant false post). intros q' Hq Hc. rewrite Hq, Hc. reflexivity.
          * exists [x], (significant false post). intros q' Hq Hc. rewrite Hq, Hc. reflexivity.
        + change ((x :: y :: r') ++ ?z) with (x :: y :: (r' ++ z)). cbn [significant].
          destruct (isSpace x).
          * destruct (sk || isSpace y || isComb y).
            { destruct (IH sk) as (a & b & H). exists a, b. intros q' Hq Hc. apply (H q' Hq Hc). }
            destruct (IH false) as (a & b & H). exists (x :: a), b. intros q' Hq Hc.
            cbn [app]. f_equal. apply (H q' Hq Hc).
          * destruct (IH (isComb x)) as (a & b & H). exists (x :: a), b. intros q' Hq Hc.
            cbn [app]. f_equal. apply (H q' Hq Hc). }
    destruct (Hs (SType zsp []) eq_refl eq_refl) as (a & b & H). clear Hs.
    unfold matchesList, matchesSelector. cbn [snd].
    assert (K : forall q, isSpace q = false -> isComb q = false ->
              rev (significant true (pre ++ q :: post)) = rev b ++ q :: rev a).
    { intros q Hq Hc. rewrite H by auto. rewrite rev_app_distr. cbn [rev]. rewrite <- app_assoc. reflexivity. }
    rewrite K by reflexivity.
    rewrite (mf_or (SPseudo asp (B "any-link") PANone) (SPseudo zsp (B "link") PANone) (SPseudo zsp (B "visited") PANone)); try reflexivity;
      [|intros x; apply HL].
    split.
    + intros [Hl|Hv].
      * exists (sp, pre ++ SPseudo zsp (B "link") PANone :: post). split; [right; left; reflexivity|].
        cbn [snd]. rewrite K by reflexivity. exact Hl.
      * exists (sp, pre ++ SPseudo zsp (B "visited") PANone :: post). split; [left; reflexivity|].
        cbn [snd]. rewrite K by reflexivity. exact Hv.
    + intros (s & [<-|[<-|[]]] & Hm); cbn [snd] in Hm; rewrite K in Hm by reflexivity; auto.
Qed.

Lemma selectors_sound : forall o l e, anyLinkLaw simple -> Forall (fun s => bareAnyLink (snd s)) l ->
  matchesList simple rel (transformSelectors o l) e -> matchesList simple rel l e.
Proof.
  intros o l e HL Hb H. unfold transformSelectors in H. destruct (o_anylink o); [|exact H].
  destruct H as (s' & Hin & Hm). apply in_flat_map in Hin as (s & Hs & Hin).
  exists s. split; [exact Hs|]. rewrite Forall_forall in Hb. eapply selector_sound; eauto.
Qed.
Lemma selectors_equiv : forall o l e, anyLinkLaw simple -> Forall (fun s => atMostOne (snd s)) l ->
  (matchesList simple rel (transformSelectors o l) e <-> matchesList simple rel l e).
Proof.
  intros o l e HL Hb. unfold transformSelectors. destruct (o_anylink o); [|reflexivity].
  rewrite Forall_forall in Hb. split.
  - intros (s' & Hin & Hm). apply in_flat_map in Hin as (s & Hs & Hin). exists s. split; [exact Hs|].
    apply selector_equiv; auto. exists s'. auto.
  - intros (s & Hs & Hm). apply selector_equiv in Hm as (s' & Hin & Hm); auto.
    exists s'. split; [apply in_flat_map; exists s; auto|auto].
Qed.
End AnyLink.
