(** The transitions of Compile.v as a relation, and Transform on nodes that
    nothing else shares. *)
From Coq Require Import Logic.FinFun.
From Verif Require Import Bytes Utf8 Source Lexer Ast Parser Printer Transformer Resolver Compile.

(** * Lists *)
Lemma ptrEq_eq a b : ptrEq a b = true <-> a = b.
Proof.
  destruct a, b. unfold ptrEq. cbn. rewrite andb_true_iff, !Nat.eqb_eq. split; [intros [-> ->]; auto|]. intros H. inversion H; auto.
Qed.
Lemma ptrEq_refl a : ptrEq a a = true. Proof. apply ptrEq_eq. auto. Qed.
Lemma deref_hset h r nd r' : deref (hset h r nd) r' = if ptrEq r' r then Some nd else deref h r'.
Proof. reflexivity. Qed.
Lemma deref_same h r nd : deref (hset h r nd) r = Some nd.
Proof. rewrite deref_hset, ptrEq_refl. auto. Qed.
Lemma deref_other h r nd r' : r' <> r -> deref (hset h r nd) r' = deref h r'.
Proof. intros H. rewrite deref_hset. destruct (ptrEq r' r) eqn:E; auto. apply ptrEq_eq in E. tauto. Qed.
Lemma derefs_ext h h' rs : (forall r, In r rs -> deref h' r = deref h r) -> derefs h' rs = derefs h rs.
Proof.
  induction rs as [|r rs IH]; cbn; auto. intros H. rewrite (H r) by auto. rewrite IH by auto. reflexivity.
Qed.
Lemma derefs_app h a b : derefs h (a ++ b) = match derefs h a, derefs h b with Some x, Some y => Some (x ++ y) | _, _ => None end.
Proof.
  induction a as [|r a IH]; cbn; [destruct (derefs h b); auto|]. rewrite IH. destruct (deref h r); auto.
  destruct (derefs h a); auto. destruct (derefs h b); auto.
Qed.
Lemma nth_upd {A} j (x : A) l k : nth_error (upd j x l) k = if (k =? j)%nat then option_map (fun _ => x) (nth_error l k) else nth_error l k.
Proof.
  revert j k. induction l as [|y l IH]; intros [|j] [|k]; cbn; auto; destruct (k =? _)%nat; reflexivity.
Qed.
Lemma upd_length {A} j (x : A) l : length (upd j x l) = length l.
Proof. revert j. induction l; intros [|j]; cbn; auto. Qed.
Lemma upd_Forall {A} (Q : A -> Prop) j x l : Forall Q l -> Q x -> Forall Q (upd j x l).
Proof. intros H Hx. revert j. induction H; intros [|j]; cbn; constructor; auto. Qed.
Lemma upd_split {A} j (x : A) l y : nth_error l j = Some y -> exists a b, l = a ++ y :: b /\ upd j x l = a ++ x :: b /\ length a = j.
Proof.
  revert j. induction l as [|z l IH]; intros [|j]; cbn; try discriminate.
  - intros [=->]. exists [], l. auto.
  - intros H. destruct (IH _ H) as (a & b & -> & E & <-). exists (z :: a), b. rewrite E. auto.
Qed.

(** * Transform without replacements *)
Section WithFloats.
Context {FO : FloatOps}.
Lemma tbind_ok {A C} (m : TM A) (k : A -> TM C) t c t' : tbind m k t = TOk c t' -> exists a t1, m t = TOk a t1 /\ k a t1 = TOk c t'.
Proof. unfold tbind. destruct (m t); try discriminate. eauto. Qed.

Lemma tbind_intro {A C} (m : TM A) (k : A -> TM C) t a t1 c t' : m t = TOk a t1 -> k a t1 = TOk c t' -> tbind m k t = TOk c t'.
Proof. unfold tbind. intros ->. auto. Qed.
Lemma refs_none o n : forall rs h t rs' h' t' ns, transformRefs o None n rs h t = TOk (rs', h') t' -> NoDup rs -> derefs h rs = Some ns ->
  exists ns', transformNodes o None n ns t = TOk ns' t' /\ derefs h' rs' = Some ns' /\
    (forall r, ~ In r rs -> deref h' r = deref h r) /\ incl rs' rs.
Proof.
  destruct n as [|n]; [discriminate|]. cbn [transformRefs transformNodes].
  induction rs as [|r rs IH]; intros h t rs' h' t' ns H Hn Hd.
  - cbn in *. inversion H; inversion Hd; subst. exists []. repeat split; auto. apply incl_refl.
  - cbn [derefs] in Hd. destruct (deref h r) as [nd|] eqn:Er; [|discriminate]. destruct (derefs h rs) as [ns1|] eqn:Es; [|discriminate].
    inversion Hd; subst. clear Hd. inversion Hn as [|? ? Hr Hn']; subst.
    apply tbind_ok in H as ([here h1] & t1 & H1 & H). apply tbind_ok in H as ([more h2] & t2 & H2 & H). cbn [fst snd] in *. inversion H; subst. clear H.
    assert (S : exists here', (match nd with
                 | NRule r => r' <~ transformRule o n r ;; tret (match r' with Some r' => [NRule r'] | None => [] end)
                 | NAt a =>
                   if beq (ar_name a) (B "import") then tret [nd; nd]
                   else if beq (ar_name a) (B "custom-media") then _ <~ addCustomMedia (ar_preludes a) ;; tret []
                   else if beq (ar_name a) (B "media") then
                     match ar_preludes a with
                     | APMql (lsp, qs) :: pres =>
                       qs' <~ transformMqs o qs ;;
                       tret [NAt (mkAt (ar_run a) (ar_sp a) (ar_name a) (APMql (lsp, qs') :: pres) (ar_block a))]
                     | _ => tcrash
                     end
                   else tret [nd]
                 end) t = TOk here' t1 /\ derefs h1 here = Some here' /\ (forall r', r' <> r -> deref h1 r' = deref h r') /\ incl here [r]).
    { clear H2. destruct nd as [q|a].
      - apply tbind_ok in H1 as (q' & t3 & H1 & H). inversion H; subst. clear H. unfold tbind. rewrite H1. destruct q' as [q'|].
        + match goal with H : _ = (here, h1) |- _ => inversion H; subst end. eexists. split; [reflexivity|]. cbn [derefs].
          rewrite deref_same. repeat split; auto using incl_refl. intros. apply deref_other; auto.
        + match goal with H : _ = (here, h1) |- _ => inversion H; subst end. eexists. repeat split. intros ? [].
      - destruct (beq (ar_name a) (B "import")).
        { inversion H1; subst. eexists. split; [reflexivity|]. cbn. rewrite Er. repeat split; auto. intros x [<-|[<-|[]]]; left; auto. }
        destruct (beq (ar_name a) (B "custom-media")).
        { apply tbind_ok in H1 as (q' & t3 & H1 & H). inversion H; subst. unfold tbind. rewrite H1. eexists. repeat split. intros ? []. }
        destruct (beq (ar_name a) (B "media")).
        { destruct (ar_preludes a) as [|[| |[lsp qs]| |] pres]; try discriminate. apply tbind_ok in H1 as (q' & t3 & H1 & H). inversion H; subst.
          unfold tbind. rewrite H1. eexists. split; [reflexivity|]. cbn [derefs]. rewrite deref_same. repeat split; auto using incl_refl.
          intros. apply deref_other; auto. }
        inversion H1; subst. eexists. split; [reflexivity|]. cbn. rewrite Er. repeat split; auto using incl_refl. }
    destruct S as (here' & S1 & S2 & S3 & S4).
    assert (Es' : derefs h1 rs = Some ns1).
    { rewrite <- Es. apply derefs_ext. intros r' Hi. apply S3. intros ->. auto. }
    destruct (IH _ _ _ _ _ _ H2 Hn' Es') as (more' & M1 & M2 & M3 & M4).
    exists (here' ++ more'). split; [|split; [|split]].
    + exact (tbind_intro _ _ _ _ _ _ _ S1 (tbind_intro _ _ _ _ _ _ _ M1 eq_refl)).
    + rewrite derefs_app, M2. replace (derefs h' here) with (Some here'); auto. rewrite <- S2. symmetry. apply derefs_ext.
      intros r' Hi. apply M3. intros Hi'. apply S4 in Hi as [<-|[]]. auto.
    + intros r' Hi. cbn in Hi. rewrite M3, S3; auto.
    + apply incl_app; [eapply incl_tran; [exact S4|]; intros x [<-|[]]; left; auto|]. apply incl_tl. auto.
Qed.
End WithFloats.

(** * Fresh cells *)
Lemma alloc_refs run k nds : map fst (alloc run k nds) = map (pair run) (seq k (length nds)).
Proof. revert k. induction nds; intros k; cbn; auto. f_equal. auto. Qed.
Lemma alloc_nodup run k nds : NoDup (map fst (alloc run k nds)).
Proof.
  rewrite alloc_refs. apply Injective_map_NoDup; [|apply seq_NoDup]. intros a b H. inversion H; auto.
Qed.
Lemma deref_alloc_other run k nds h r : fst r <> run -> deref (alloc run k nds ++ h) r = deref h r.
Proof.
  revert k. induction nds as [|nd nds IH]; intros k Hr; cbn; auto. destruct (ptrEq r (run, k)) eqn:E; auto.
  apply ptrEq_eq in E. subst. cbn in Hr. tauto.
Qed.
Lemma derefs_alloc run k nds h : derefs (alloc run k nds ++ h) (map fst (alloc run k nds)) = Some nds.
Proof.
  revert k h. induction nds as [|nd nds IH]; intros k h; cbn; auto. rewrite ptrEq_refl.
  rewrite (derefs_ext (alloc run (S k) nds ++ h)); [rewrite IH; reflexivity|].
  intros r Hr. cbn. destruct (ptrEq r (run, k)) eqn:E; auto. apply ptrEq_eq in E. subst.
  rewrite alloc_refs in Hr. apply in_map_iff in Hr as (x & Hx & Hi). inversion Hx; subst. apply in_seq in Hi. lia.
Qed.

(** * Transitions as a relation *)
Section Machine.
Context {U : UnicodeDigits} {FO : FloatOps}.
Variable P : project.
Inductive gstep : glob -> gor -> glob -> gor -> Prop :=
| gsFrame n g f g' t' : frameStep P n g f = Some (Go g' t') -> gstep g (InFrame f) g' t'
| gsSpawn g i s rs imps k repl kids : (k < length imps)%nat ->
    gstep g (InLoop i s rs imps k repl kids) g (InLoop i s rs imps (S k) repl (kids ++ [Fresh]))
| gsTransform n g i s rs imps k repl kids g' t' : (length imps <= k)%nat -> forallb isDone kids = true ->
    transformStep P n g i s rs repl = Some (Go g' t') -> gstep g (InLoop i s rs imps k repl kids) g' t'
| gsResolve g i s rs imps k repl a b spec at_ src rel : current k imps = Some (spec, at_) -> nth_error (g_srcs g) s = Some src ->
    p_resolve P spec (fpDir (src_path src)) = Some rel ->
    gstep g (InLoop i s rs imps k repl (a ++ Fresh :: b)) g (InLoop i s rs imps k repl (a ++ InFrame (Called rel (follow P)) :: b))
| gsNoResolve g i s rs imps k repl a b spec at_ src : current k imps = Some (spec, at_) -> nth_error (g_srcs g) s = Some src ->
    p_resolve P spec (fpDir (src_path src)) = None ->
    gstep g (InLoop i s rs imps k repl (a ++ Fresh :: b)) (addError g (EResolve spec)) (InLoop i s rs imps k repl (a ++ Done :: b))
| gsBack g i s rs imps k repl a b ret spec at_ : current k imps = Some (spec, at_) ->
    gstep g (InLoop i s rs imps k repl (a ++ Back ret :: b)) g
      (InLoop i s rs imps k (match ret with Some rs' => (at_, rs') :: repl | None => repl end) (a ++ Done :: b))
| gsKid g i s rs imps k repl a b kid g' kid' : gstep g kid g' kid' ->
    gstep g (InLoop i s rs imps k repl (a ++ kid :: b)) g' (InLoop i s rs imps k repl (a ++ kid' :: b)).

Lemma stepG_gstep n path : forall g t g' t', stepG P n path g t = Some (Go g' t') -> gstep g t g' t'.
Proof.
  induction path as [|j path IH]; intros g t g' t' H; cbn [stepG] in H.
  - destruct t; try discriminate; [eapply gsFrame; eauto|]. destruct (k <? length imps)%nat eqn:E.
    + inversion H; subst. apply gsSpawn. apply Nat.ltb_lt. auto.
    + destruct (forallb isDone kids) eqn:E1; [|discriminate]. eapply gsTransform; eauto. apply Nat.ltb_ge. auto.
  - destruct t as [| |i s rs imps k repl kids| |]; try discriminate. destruct (nth_error kids j) as [kid|] eqn:Ek; [|discriminate].
    assert (K : match stepG P n path g kid with
        | Some (Go g' kid') => Some (Go g' (InLoop i s rs imps k repl (upd j kid' kids)))
        | other => other
        end = Some (Go g' t') -> gstep g (InLoop i s rs imps k repl kids) g' t').
    { intros E. destruct (stepG P n path g kid) as [[g1 kid'|]|] eqn:E1; try discriminate. inversion E; subst.
      destruct (upd_split j kid' kids kid Ek) as (a & b & -> & -> & _). apply gsKid. eauto. }
    destruct kid; try exact (K H); (destruct (current k imps) as [[spec at_]|] eqn:Ec; [|try exact (K H)]).
    + destruct (nth_error (g_srcs g) s) as [src|] eqn:Es; [|discriminate]. destruct (p_resolve P spec _) as [rel|] eqn:Er; inversion H; subst.
      * destruct (upd_split j (InFrame (Called rel (follow P))) kids Fresh Ek) as (a & b & -> & -> & _). eapply gsResolve; eauto.
      * destruct (upd_split j Done kids Fresh Ek) as (a & b & -> & -> & _). eapply gsNoResolve; eauto.
    + inversion H; subst. destruct (upd_split j Done kids (Back ret) Ek) as (a & b & -> & -> & _). eapply gsBack; eauto.
Qed.

Inductive mstep : glob * mstate -> glob * mstate -> Prop :=
| msSpawn g k kids : (k < length (p_entries P))%nat -> mstep (g, Running k kids) (g, Running (S k) (kids ++ [Fresh]))
| msPrint g k kids : (length (p_entries P) <= k)%nat -> forallb isDone kids = true -> mstep (g, Running k kids) (g, Printing (g_outputs g) [])
| msEntry g k a b e : current k (p_entries P) = Some e -> mstep (g, Running k (a ++ Fresh :: b)) (g, Running k (a ++ InFrame (Called e true) :: b))
| msBack g k a b ret : mstep (g, Running k (a ++ Back ret :: b)) (g, Running k (a ++ Done :: b))
| msKid g k a b kid g' kid' : gstep g kid g' kid' -> mstep (g, Running k (a ++ kid :: b)) (g', Running k (a ++ kid' :: b))
| msCrash g k kids : mstep (g, Running k kids) (g, Crashed)
| msOne g a idx b out : mstep (g, Printing (a ++ idx :: b) out) (fst (printOne g idx out), Printing (a ++ b) (snd (printOne g idx out)))
| msEnd g out : mstep (g, Printing [] out) (g, Finished out).
Lemma removeAt_split {A} j (l : list A) x : nth_error l j = Some x -> exists a b, l = a ++ x :: b /\ removeAt j l = a ++ b.
Proof.
  revert j. induction l as [|y l IH]; intros [|j] H; cbn in *; try discriminate.
  - inversion H; subst. exists [], l. auto.
  - destruct (IH _ H) as (a & b & -> & ->). exists (y :: a), b. auto.
Qed.
Lemma step_mstep s s' : step P s s' -> mstep s s'.
Proof.
  intros (n & path & H). destruct s as [g m]. destruct m as [k kids|todo out|out|]; try discriminate.
  - destruct path as [|j path]; cbn [stepM] in H.
    + destruct (k <? length (p_entries P))%nat eqn:E; [inversion H; subst; constructor; apply Nat.ltb_lt; auto|].
      destruct (forallb isDone kids) eqn:E1; [|discriminate]. inversion H; subst. constructor; auto. apply Nat.ltb_ge. auto.
    + destruct (nth_error kids j) as [kid|] eqn:Ek; [|discriminate].
      assert (K : match stepG P n path g kid with
        | Some (Go g' kid') => Some (g', Running k (upd j kid' kids))
        | Some Crash => Some (g, Crashed)
        | None => None
        end = Some s' -> mstep (g, Running k kids) s').
      { intros E. destruct (stepG P n path g kid) as [[g1 kid'|]|] eqn:E1; try discriminate; inversion E; subst; [|apply msCrash].
        destruct (upd_split j kid' kids kid Ek) as (a & b & -> & -> & _). apply msKid. eapply stepG_gstep; eauto. }
      destruct kid; try exact (K H).
      * destruct (current k (p_entries P)) as [e|] eqn:Ec; [|exact (K H)]. inversion H; subst.
        destruct (upd_split j (InFrame (Called e true)) kids Fresh Ek) as (a & b & -> & -> & _). eapply msEntry; eauto.
      * destruct (current k (p_entries P)) as [e|] eqn:Ec; inversion H; subst;
        destruct (upd_split j Done kids (Back ret) Ek) as (a & b & -> & -> & _); apply msBack.
  - cbn [stepM] in H. destruct todo as [|x todo].
    + destruct path; inversion H; subst. constructor.
    + destruct path as [|j [|? ?]]; try discriminate. destruct (nth_error (x :: todo) j) as [idx|] eqn:Ej; [|discriminate].
      destruct (removeAt_split _ _ _ Ej) as (a & b & E1 & E2). rewrite E2 in H. rewrite E1.
      pose proof (msOne g a idx b out) as M. destruct (printOne g idx out) as [g' out']. cbn [fst snd] in M. inversion H; subst. exact M.
Qed.
End Machine.
