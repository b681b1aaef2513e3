(** Transform on nodes of a sheet and of the one sheet it imports, when
    nothing else shares them. *)
From Verif Require Import Bytes Utf8 Source Lexer Ast BytesFacts Parser ParseMono ParseResults ParseRerun Printer Transformer TransSpec TransProofs
  TransMedia TransInline Resolver Compile CompileSpec CompileSteps.

(** The top-level at-rules were made by parse [d] or a later one. *)
Definition from (d : nat) (nd : node) : Prop := match nd with NAt a => (d <= ar_run a)%nat | NRule _ => True end.

Section WithFloats.
Context {FO : FloatOps}.
Variable o : topts.
Definition oneRef (repl : option (list (ptr * list nref))) (n : nat) (h : heap) (r : nref) : TM (list nref * heap) :=
  match deref h r with
  | None => tcrash
  | Some (NRule q) =>
    q' <~ transformRule o n q ;;
    tret (match q' with Some q' => ([r], hset h r (NRule q')) | None => ([], h) end)
  | Some (NAt a) =>
    if beq (ar_name a) (B "import") then
      match repl with
      | None => tret ([r; r], h)
      | Some m =>
        match plookup (atRuleId a) m with
        | None => tret ([r], h)
        | Some imported =>
          _ <~ (if (1 <? length (ar_preludes a))%nat
                then treport (mkReport true (ar_sp a) (B "@import transform does not yet support @supports or media queries"))
                else tret tt) ;;
          transformRefs o repl n imported h
        end
      end
    else if beq (ar_name a) (B "custom-media") then
      _ <~ addCustomMedia (ar_preludes a) ;; tret ([], h)
    else if beq (ar_name a) (B "media") then
      match ar_preludes a with
      | APMql (lsp, qs) :: pres =>
        qs' <~ transformMqs o qs ;;
        tret ([r], hset h r (NAt (mkAt (ar_run a) (ar_sp a) (ar_name a) (APMql (lsp, qs') :: pres) (ar_block a))))
      | _ => tcrash
      end
    else tret ([r], h)
  end.
Lemma refs_cons repl n r rest h : transformRefs o repl (S n) (r :: rest) h =
  (here <~ oneRef repl n h r ;; more <~ transformRefs o repl (S n) rest (snd here) ;; tret (fst here ++ fst more, snd more)).
Proof. reflexivity. Qed.

Definition hit {A} (m : list (ptr * A)) (nd : node) : Prop :=
  exists a x, nd = NAt a /\ ar_name a = B "import" /\ plookup (atRuleId a) m = Some x.
(** A node that no import replaces. *)
Lemma one_keep m m' d n h r nd t rs' h' t' : deref h r = Some nd -> ~ hit m nd -> ~ hit m' nd -> from d nd ->
  oneRef (Some m) n h r t = TOk (rs', h') t' ->
  exists ns', oneNode o (Some m') n nd t = TOk ns' t' /\ derefs h' rs' = Some ns' /\ Forall (from d) ns' /\
    (forall r', r' <> r -> deref h' r' = deref h r') /\ incl rs' [r] /\ NoDup rs'.
Proof.
  intros Er Hm Hm' Hf H. unfold oneRef in H. rewrite Er in H. unfold oneNode.
  assert (N1 : NoDup [r]) by (constructor; [intros []|constructor]).
  assert (K : forall nd2, from d nd2 -> exists ns', [nd2] = ns' /\ derefs (hset h r nd2) [r] = Some ns' /\ Forall (from d) ns' /\
    (forall r', r' <> r -> deref (hset h r nd2) r' = deref h r') /\ incl [r] [r] /\ NoDup [r]).
  { intros nd2 Hn. eexists. split; [reflexivity|]. cbn [derefs]. rewrite deref_same. repeat split; auto using incl_refl. intros. apply deref_other; auto. }
  assert (K1 : exists ns', [nd] = ns' /\ derefs h [r] = Some ns' /\ Forall (from d) ns' /\
    (forall r', r' <> r -> deref h r' = deref h r') /\ incl [r] [r] /\ NoDup [r]).
  { eexists. split; [reflexivity|]. cbn [derefs]. rewrite Er. repeat split; auto using incl_refl. }
  assert (K0 : exists ns', [] = ns' /\ derefs h [] = Some ns' /\ Forall (from d) ns' /\
    (forall r', r' <> r -> deref h r' = deref h r') /\ incl [] [r] /\ NoDup (@nil nref)).
  { eexists. split; [reflexivity|]. cbn. repeat split; auto. intros ? []. constructor. }
  destruct nd as [q|a].
  - apply tbind_ok in H as (q' & t3 & H1 & H). unfold tbind. rewrite H1. inversion H; subst. clear H. destruct q' as [q'|].
    + match goal with H : _ = (rs', h') |- _ => inversion H; subst end. destruct (K (NRule q') Logic.I) as (ns' & <- & K2). eexists. split; [reflexivity|exact K2].
    + match goal with H : _ = (rs', h') |- _ => inversion H; subst end. destruct K0 as (ns' & <- & K2). eexists. split; [reflexivity|exact K2].
  - destruct (beq (ar_name a) (B "import")) eqn:E1.
    { destruct (plookup (atRuleId a) m) eqn:E2; [destruct Hm; exists a; eexists; apply beq_eq in E1; eauto|].
      destruct (plookup (atRuleId a) m') eqn:E3; [destruct Hm'; exists a; eexists; apply beq_eq in E1; eauto|].
      inversion H; subst. destruct K1 as (ns' & <- & K2). eexists. split; [reflexivity|exact K2]. }
    destruct (beq (ar_name a) (B "custom-media")).
    { apply tbind_ok in H as (q' & t3 & H1 & H). inversion H; subst. unfold tbind. rewrite H1. destruct K0 as (ns' & <- & K2). eexists. split; [reflexivity|exact K2]. }
    destruct (beq (ar_name a) (B "media")).
    { destruct (ar_preludes a) as [|[| |[lsp qs]| |] pres]; try discriminate. apply tbind_ok in H as (q' & t3 & H1 & H). inversion H; subst.
      unfold tbind. rewrite H1. edestruct K as (ns' & <- & K2); [|eexists; split; [reflexivity|exact K2]]. exact Hf. }
    inversion H; subst. destruct K1 as (ns' & <- & K2). eexists. split; [reflexivity|exact K2].
Qed.

(** [after]: what a transformed list of references stands for. *)
Definition after (d : nat) (rs : list nref) (h : heap) (rs' : list nref) (h' : heap) (ns' : list node) : Prop :=
  derefs h' rs' = Some ns' /\ Forall (from d) ns' /\ (forall r, ~ In r rs -> deref h' r = deref h r) /\ incl rs' rs /\ NoDup rs'.
(** Lists done one after the other. *)
Lemma after_app d a b h h1 h2 ra rb na nb : after d a h ra h1 na -> after d b h1 rb h2 nb -> (forall r, In r a -> ~ In r b) ->
  after d (a ++ b) h (ra ++ rb) h2 (na ++ nb).
Proof.
  intros (A1 & A2 & A3 & A4 & A5) (B1 & B2 & B3 & B4 & B5) D. repeat split.
  - rewrite derefs_app, B1. replace (derefs h2 ra) with (Some na); auto. rewrite <- A1. symmetry. apply derefs_ext. intros r Hi. apply B3, D, A4, Hi.
  - apply Forall_app. auto.
  - intros r Hi. rewrite in_app_iff in Hi. rewrite B3, A3; tauto.
  - apply incl_app; [apply incl_appl|apply incl_appr]; auto.
  - clear - A4 A5 B4 B5 D. induction ra as [|x ra IH]; cbn; auto. inversion A5; subst. constructor.
    + rewrite in_app_iff. intros [X|X]; [auto|]. apply (D x); [apply A4; left; auto|auto].
    + apply IH; auto. intros y Hy. apply A4. right. auto.
Qed.
Lemma refs_keep m m' d n : forall rs h t rs' h' t' ns, transformRefs o (Some m) n rs h t = TOk (rs', h') t' -> NoDup rs -> derefs h rs = Some ns ->
  Forall (fun nd => ~ hit m nd /\ ~ hit m' nd) ns -> Forall (from d) ns ->
  exists ns', transformNodes o (Some m') n ns t = TOk ns' t' /\ after d rs h rs' h' ns'.
Proof.
  destruct n as [|n]; [discriminate|].
  induction rs as [|r rs IH]; intros h t rs' h' t' ns H Hn Hd Hh Hf.
  - cbn in *. inversion H; inversion Hd; subst. exists []. split; auto. repeat split; auto. apply incl_refl.
  - rewrite refs_cons in H. cbn [derefs] in Hd. destruct (deref h r) as [nd|] eqn:Er; [|discriminate]. destruct (derefs h rs) as [ns1|] eqn:Es; [|discriminate].
    inversion Hd; subst. clear Hd. inversion Hn as [|? ? Hr Hn']; subst. inversion Hh as [|? ? [Hh1 Hh2] Hh']; subst. inversion Hf as [|? ? Hf1 Hf']; subst.
    apply tbind_ok in H as ([here h1] & t1 & H1 & H). apply tbind_ok in H as ([more h2] & t2 & H2 & H). cbn [fst snd] in *. inversion H; subst. clear H.
    destruct (one_keep m m' d _ _ _ _ _ _ _ _ Er Hh1 Hh2 Hf1 H1) as (here' & S1 & S2 & S3 & S4 & S5 & S6).
    assert (Es' : derefs h1 rs = Some ns1). { rewrite <- Es. apply derefs_ext. intros r' Hi. apply S4. intros ->. auto. }
    destruct (IH _ _ _ _ _ _ H2 Hn' Es' Hh' Hf') as (more' & M1 & M2).
    exists (here' ++ more'). split.
    + rewrite nodes_cons. exact (tbind_intro _ _ _ _ _ _ _ S1 (tbind_intro _ _ _ _ _ _ _ M1 eq_refl)).
    + apply (after_app d [r] rs h h1 h'); auto.
      * repeat split; auto. intros r' Hi. apply S4. intros ->. apply Hi. left. auto.
      * intros x [<-|[]]. auto.
Qed.
(** At most one import is replaced, by nodes of later parses. *)
Lemma refs_one at_ im inds d n : forall rs h t rs' h' t' ns, transformRefs o (Some [(at_, im)]) n rs h t = TOk (rs', h') t' ->
  NoDup rs -> derefs h rs = Some ns -> NoDup (atIds ns) -> Forall (from d) ns ->
  fst at_ = d -> NoDup im -> derefs h im = Some inds -> Forall (from (S d)) inds -> (forall r, In r rs -> ~ In r im) ->
  exists ns', transformNodes o (Some [(at_, inds)]) n ns t = TOk ns' t' /\
    derefs h' rs' = Some ns' /\ Forall (from d) ns' /\ (forall r, ~ In r (rs ++ im) -> deref h' r = deref h r) /\ incl rs' (rs ++ im) /\ NoDup rs'.
Proof.
  destruct n as [|n]; [discriminate|].
  induction rs as [|r rs IH]; intros h t rs' h' t' ns H Hn Hd Hids Hf Hat Him Hdi Hfi Hdis.
  - cbn in *. inversion H; inversion Hd; subst. exists []. repeat split; auto. intros ? []. 
  - pose proof H as H0. rewrite refs_cons in H. pose proof Hd as Hd0. cbn [derefs] in Hd. destruct (deref h r) as [nd|] eqn:Er; [|discriminate]. destruct (derefs h rs) as [ns1|] eqn:Es; [|discriminate].
    inversion Hd; subst. clear Hd. inversion Hn as [|? ? Hr Hn']; subst. inversion Hf as [|? ? Hf1 Hf']; subst.
    apply tbind_ok in H as ([here h1] & t1 & H1 & H). apply tbind_ok in H as ([more h2] & t2 & H2 & H). cbn [fst snd] in *. inversion H; subst. clear H.
    assert (Hit : (exists a, nd = NAt a /\ ar_name a = B "import" /\ atRuleId a = at_) \/ ~ hit [(at_, im)] nd /\ ~ hit [(at_, inds)] nd).
    { destruct nd as [q|a]; [right; split; intros (a & x & E & _); discriminate|].
      destruct (beq (ar_name a) (B "import")) eqn:E1.
      - destruct (ptrEq (atRuleId a) at_) eqn:E2; [left; exists a; repeat split; [apply beq_eq; auto|apply ptrEq_eq; auto]|].
        right. split; intros (a' & x & E & _ & Hx); inversion E; subst; cbn in Hx; rewrite E2 in Hx; discriminate.
      - right. split; intros (a' & x & E & Hx & _); inversion E; subst; rewrite Hx, beq_refl in E1; discriminate. }
    destruct Hit as [(a & -> & Ea & Eid)|[Hh1 Hh2]].
    + assert (NH : forall A (x : A), Forall (fun nd => ~ hit [(at_, x)] nd) ns1).
      { intros A x. rewrite Forall_forall. intros nd Hi (b & y & -> & _ & Hy). cbn in Hy. destruct (ptrEq (atRuleId b) at_) eqn:E; [|discriminate].
        apply ptrEq_eq in E. cbn in Hids. inversion Hids as [|? ? Hb _]. apply Hb. apply in_flat_map. exists (NAt b). split; auto. left. congruence. }
      assert (NI : forall A (x : A), Forall (fun nd => ~ hit [(at_, x)] nd) inds).
      { intros A x. rewrite Forall_forall. intros nd Hi (b & y & -> & _ & Hy). cbn in Hy. destruct (ptrEq (atRuleId b) at_) eqn:E; [|discriminate].
        apply ptrEq_eq in E. rewrite Forall_forall in Hfi. apply Hfi in Hi. cbn in Hi. unfold atRuleId in E. rewrite <- E in Hi. cbn in Hi. lia. }
      unfold oneRef in H1. rewrite Er, Ea, beq_refl in H1. cbn [plookup] in H1. rewrite Eid, ptrEq_refl in H1.
      apply tbind_ok in H1 as ([] & t3 & H1 & H3).
      destruct (refs_keep _ [(at_, inds)] (fst at_) _ _ _ _ _ _ _ _ H3 Him Hdi) as (here' & S1 & S2).
      { rewrite Forall_forall. intros nd Hi. split; [pose proof (NI _ im) as X|pose proof (NI _ inds) as X]; rewrite Forall_forall in X; auto. }
      { eapply Forall_impl; [|exact Hfi]. intros [|b]; cbn; auto. lia. }
      assert (Es' : derefs h1 rs = Some ns1).
      { rewrite <- Es. apply derefs_ext. intros r' Hi. apply S2. apply Hdis. right. auto. }
      destruct (refs_keep _ [(at_, inds)] (fst at_) _ _ _ _ _ _ _ _ H2 Hn' Es') as (more' & M1 & M2).
      { rewrite Forall_forall. intros nd Hi. split; [pose proof (NH _ im) as X|pose proof (NH _ inds) as X]; rewrite Forall_forall in X; auto. }
      { auto. }
      exists (here' ++ more'). split.
      * rewrite nodes_cons. eapply tbind_intro; [|exact (tbind_intro _ _ _ _ _ _ _ M1 eq_refl)].
        cbn [oneNode]. rewrite Ea, beq_refl. cbn [plookup]. rewrite Eid, ptrEq_refl. eapply tbind_intro; [exact H1|exact S1].
      * destruct (after_app _ _ _ _ _ _ _ _ _ _ S2 M2) as (X1 & X2 & X3 & X4 & X5).
        { intros x Hi Hi'. apply (Hdis x); [right|]; auto. }
        repeat split; auto.
        -- intros x Hi. apply X3. intros X. apply Hi. cbn. rewrite in_app_iff in *. tauto.
        -- intros x Hi. apply X4 in Hi. cbn. rewrite in_app_iff in *. tauto.
    + destruct (one_keep _ [(at_, inds)] (fst at_) _ _ _ _ _ _ _ _ Er Hh1 Hh2 Hf1 H1) as (here' & S1 & S2 & S3 & S4 & S5 & S6).
      assert (Es' : derefs h1 rs = Some ns1). { rewrite <- Es. apply derefs_ext. intros r' Hi. apply S4. intros ->. auto. }
      assert (Hdi' : derefs h1 im = Some inds). { rewrite <- Hdi. apply derefs_ext. intros r' Hi. apply S4. intros ->. apply (Hdis r); auto. left. auto. }
      assert (Hids' : NoDup (atIds ns1)). { destruct nd; cbn in Hids; auto. inversion Hids; auto. }
      destruct (IH _ _ _ _ _ _ H2 Hn' Es' Hids' Hf' eq_refl Him Hdi' Hfi) as (more' & M1 & M2 & M3 & M4 & M5 & M6).
      { intros x Hi. apply Hdis. right. auto. }
      exists (here' ++ more'). split; [rewrite nodes_cons; exact (tbind_intro _ _ _ _ _ _ _ S1 (tbind_intro _ _ _ _ _ _ _ M1 eq_refl))|].
      change ((r :: rs) ++ im) with ([r] ++ rs ++ im).
      destruct (after_app (fst at_) [r] (rs ++ im) h h1 h' here more here' more') as (X1 & X2 & X3 & X4 & X5).
      * repeat split; auto. intros r' Hi. apply S4. intros ->. apply Hi. left. auto.
      * repeat split; auto.
      * intros x [<-|[]] Hi. apply in_app_iff in Hi as [Hi|Hi]; auto. apply (Hdis r); auto. left. auto.
      * repeat split; auto.
Qed.
(** The fuel of Transform does not matter. *)
Lemma transform_fuel m n k ss a b t u : transform o (Some m) n ss = TOk a t -> transform o (Some m) k ss = TOk b u -> a = b.
Proof.
  unfold transform. intros H1 H2.
  destruct (transformNodes o (Some m) n (ss_nodes ss) _) as [x t1| |] eqn:E1; try discriminate.
  destruct (transformNodes o (Some m) k (ss_nodes ss) _) as [y t2| |] eqn:E2; try discriminate.
  inversion H1; inversion H2; subst.
  destruct (le_nodes_fuel o m n (max n k) (ss_nodes ss) ltac:(lia) _ _ (conj eq_refl eq_refl) _ _ E1) as (u1 & F1 & _).
  destruct (le_nodes_fuel o m k (max n k) (ss_nodes ss) ltac:(lia) _ _ (conj eq_refl eq_refl) _ _ E2) as (u2 & F2 & _).
  congruence.
Qed.
End WithFloats.
Section WithDigits.
Context {U : UnicodeDigits}.
Lemma parse_from run n content ss lines : parse run n content = ParseOk ss lines -> Forall (from run) (ss_nodes ss).
Proof.
  intros H. rewrite (C12_rerun_lemma run run) in H. destruct (parse run n content); inversion H; subst. cbn.
  rewrite Forall_forall. intros nd Hi. apply in_map_iff in Hi as ([q|a] & <- & _); cbn; auto.
Qed.
Lemma parse_import_run run n content ss lines spec at_ : parse run n content = ParseOk ss lines -> In (spec, at_) (ss_imports ss) -> fst at_ = run.
Proof.
  intros H. rewrite (C12_rerun_lemma run run) in H. destruct (parse run n content); inversion H; subst. cbn.
  intros Hi. apply in_map_iff in Hi as ([x y] & E & _). inversion E; subst. reflexivity.
Qed.
End WithDigits.
