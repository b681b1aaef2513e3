(** The transforms keep a stylesheet writable. *)
From Verif Require Import Bytes Utf8 Source Ast AstInd Transformer BytesFacts RoundSpec OutputSpec.

Section Keep.
Context {FO : FloatOps}.
Variable o : topts.
Hypothesis D : decimals o.

Definition vals (vs : list value) : Prop := vs <> [] /\ forallb okDeclValue vs = true.
Definition tOk (t : tstate) : Prop :=
  (forall m, t_vars t = Some m -> o_props o = true /\ Forall (fun kv => vals (snd kv)) m) /\
  (forall m, t_cmedia t = Some m -> Forall (fun kv => okQuery (snd kv) = true) m).
Definition keeps {A} (m : TM A) (R : A -> Prop) : Prop :=
  forall t, tOk t -> match m t with TOk a t' => tOk t' /\ R a | _ => True end.
Lemma k_ret {A} (a : A) (R : A -> Prop) : R a -> keeps (tret a) R.
Proof. intros H t T. cbn. auto. Qed.
Lemma k_crash {A} (R : A -> Prop) : keeps tcrash R. Proof. intros t T. exact I. Qed.
Lemma k_timeout {A} (R : A -> Prop) : keeps ttimeout R. Proof. intros t T. exact I. Qed.
Lemma k_bind {A C} (m : TM A) (k : A -> TM C) (R : A -> Prop) (R' : C -> Prop) :
  keeps m R -> (forall a, R a -> keeps (k a) R') -> keeps (tbind m k) R'.
Proof.
  intros H K t T. unfold tbind. specialize (H t T). destruct (m t) as [a t'| |]; auto. destruct H as [T' Ra]. exact (K a Ra t' T').
Qed.
Lemma k_report r : keeps (treport r) (fun _ => True).
Proof. intros t T. cbn. auto. Qed.
Lemma k_at w v msg : keeps (addErrorAt w v msg) (fun _ => True).
Proof. unfold addErrorAt. destruct (valueSpan v); [apply k_report|apply k_crash]. Qed.
Lemma k_weak {A} (m : TM A) (R R' : A -> Prop) : (forall a, R a -> R' a) -> keeps m R -> keeps m R'.
Proof. intros H K t T. specialize (K t T). destruct (m t); auto. destruct K. auto. Qed.
Lemma lookup_in {A} (Q : A -> Prop) k : forall m v, Forall (fun kv => Q (snd kv)) m -> lookup k m = Some v -> Q v.
Proof.
  induction m as [|[k' x] m IH]; intros v F L; [discriminate|]. cbn in L. inversion F; subst. destruct (beq k k'); [injection L as <-; auto|auto].
Qed.

(** * Values *)
(** A value that may stand somewhere. *)
Definition good (v : value) : Prop := okDeclValue v = true \/ exists p, okAt p v = true.
Definition unitOk (u : bytes) : bool := isEmpty u || beq u (B "%") || unitName u.
Lemma good_dim sp n u : good (VDim sp n u) -> unitOk u = true.
Proof. intros [H|[p H]]; cbn in H; apply andb_true_iff in H; apply H. Qed.
Lemma good_math sp op l r : good (VMath sp op l r) -> good l /\ good r.
Proof.
  assert (X : forall p, okAt p (VMath sp op l r) = true -> good l /\ good r).
  { intros p. cbn [okAt]. destruct (beq op (B "+")); [rewrite !andb_true_iff; intros (((? & ?) & ?) & ?); split; right; eauto|].
    destruct (beq op (B "-")); [rewrite !andb_true_iff; intros ((((? & ?) & ?) & ?) & ?); split; right; eauto|].
    destruct (beq op (B "*") || beq op (B "/")); [rewrite !andb_true_iff; intros ((? & ?) & ?); split; right; eauto|discriminate]. }
  intros [H|[p H]]; eapply X; eauto.
Qed.
Definition dimOrNil (v : value) : Prop := isNil v = true \/ exists n u, v = VDim zsp n u /\ numeral n = true /\ unitOk u = true.
Section Computing.
Hypothesis calc : o_calc o = true \/ o_ranges o = true.
Lemma k_result at_ res u : unitOk u = true -> keeps (mathResult at_ res u) dimOrNil.
Proof.
  intros Hu. unfold mathResult. destruct res as [f|msg].
  - apply k_ret. right. exists (fformat f), u. auto.
  - eapply k_bind; [apply k_at|]. intros. apply k_ret. left. reflexivity.
Qed.
Lemma k_nil at_ w msg : keeps (_ <~ addErrorAt w at_ msg ;; tret VNil) dimOrNil.
Proof. eapply k_bind; [apply k_at|]. intros. apply k_ret. left. reflexivity. Qed.
Lemma k_retnil : keeps (tret VNil) dimOrNil. Proof. apply k_ret. left. reflexivity. Qed.
Lemma k_if (b : bool) (m m' : TM unit) : keeps m (fun _ => True) -> keeps m' (fun _ => True) -> keeps (if b then m else m') (fun _ => True).
Proof. destruct b; auto. Qed.
Lemma combine_keeps l r op : good l -> good r -> keeps (combine l r op) dimOrNil.
Proof.
  intros Gl Gr. unfold combine. destruct (beq op (B "+") || beq op (B "-")).
  - destruct l; try apply k_nil. destruct r; try apply k_retnil.
    destruct (negb (beq unit unit0)); [|apply k_result; eapply good_dim; eauto].
    eapply k_bind; [apply k_if; [apply k_at|apply k_ret; exact I]|]. intros.
    eapply k_bind; [apply k_if; [apply k_at|apply k_ret; exact I]|]. intros. apply k_retnil.
  - destruct (beq op (B "*")).
    + destruct l; try apply k_retnil. destruct r; try apply k_retnil.
      destruct (negb (isEmpty unit) && negb (isEmpty unit0)); [apply k_nil|].
      destruct (isEmpty unit); apply k_result; eapply good_dim; eauto.
    + destruct (beq op (B "/")); [|apply k_nil].
      destruct r; try apply k_nil. destruct (negb (isEmpty unit)); [apply k_nil|].
      destruct l; try apply k_nil. apply k_result. eapply good_dim; eauto.
Qed.
Lemma dim_good v : dimOrNil v -> isNil v = false -> okDeclValue v = true.
Proof.
  intros [H|(n & u & -> & H1 & H2)] H3; [congruence|]. cbn. rewrite H1. exact H2.
Qed.
Lemma reduce_keeps v : good v -> keeps (reduceSide v) good.
Proof.
  induction v using value_ind'; intros G; try (apply k_ret; exact G). cbn [reduceSide].
  destruct (good_math _ _ _ _ G) as [Gl Gr].
  eapply k_bind; [apply IHv1; exact Gl|]. intros l' Hl.
  eapply k_bind; [apply IHv2; exact Gr|]. intros r' Hr.
  eapply k_bind; [apply combine_keeps; assumption|]. intros e He. apply k_ret.
  destruct (isNil e) eqn:E; [exact G|]. left. apply dim_good; auto.
Qed.
End Computing.

Lemma k_get {A} (f : tstate -> TM A) (R : A -> Prop) : (forall t, tOk t -> keeps (f t) R) -> keeps (fun t => f t t) R.
Proof. intros H t T. exact (H t T t T). Qed.
Lemma vals_one v : okDeclValue v = true -> vals [v].
Proof. intros H. split; [discriminate|]. cbn. rewrite H. reflexivity. Qed.
Lemma forallb_impl {A} (f g : A -> bool) l : (forall x, f x = true -> g x = true) -> forallb f l = true -> forallb g l = true.
Proof. rewrite !forallb_forall. auto. Qed.
Lemma forallb_map {A C} (f : C -> bool) (g : A -> C) l : forallb f (map g l) = forallb (fun x => f (g x)) l.
Proof. induction l as [|x l IH]; cbn; congruence. Qed.
Lemma forallb_skipn {A} (f : A -> bool) k l : forallb f l = true -> forallb f (skipn k l) = true.
Proof. intros H. rewrite <- (firstn_skipn k l), forallb_app, andb_true_iff in H. apply H. Qed.
Lemma good_func sp n args : good (VFunc sp n args) -> urlName n = false ->
  forallb (fun a => isCommaV a || okAt (if isMathName n then Sum else Outside) a) args = true.
Proof. intros [H|[p H]] N; cbn in H; rewrite N in H; rewrite !andb_true_iff in H; apply H. Qed.
Lemma subst_keeps sp name args : good (VFunc sp name args) -> keeps (substVar sp name args) (fun vs => vs = [VFunc sp name args] \/ vals vs).
Proof.
  intros G. unfold substVar. destruct (beq name (B "var")) eqn:N; cbn [negb]; [|apply k_ret; auto].
  apply beq_eq in N. subst name. pose proof (good_func _ _ _ G eq_refl) as A. change (isMathName (B "var")) with false in A. cbv iota in A.
  assert (B0 : forall r (vs : list value), vs = [VFunc sp (B "var") args] -> keeps (_ <~ treport r ;; tret vs) (fun vs => vs = [VFunc sp (B "var") args] \/ vals vs)).
  { intros r vs ->. eapply k_bind; [apply k_report|]. intros. apply k_ret. auto. }
  intros t T. destruct (t_vars t) as [m|] eqn:V; [|cbn; auto].
  destruct args as [|a0 args]; [apply B0; auto|]. destruct a0; try (apply B0; auto; fail).
  destruct (lookup v m) as [x|] eqn:L.
  - split; auto. right. destruct T as [T _]. exact (lookup_in vals v m x (proj2 (T m V)) L).
  - match goal with |- context [(2 <? ?k)%nat] => destruct (Nat.ltb_spec 2 k) as [L2|L2] end; [|apply B0; auto].
    split; auto. right. split.
    + intros X. apply (f_equal (@length value)) in X. rewrite skipn_length in X. cbn [length] in X, L2. lia.
    + apply forallb_skipn. clear -A. eapply forallb_impl; [|exact A]. intros w H. apply orb_true_iff in H as [H|H].
      * destruct w; try discriminate. reflexivity.
      * destruct w; try exact H; discriminate.
Qed.
Lemma value_keeps n : forall v, good v -> keeps (transformValue o n v) (fun vs => vs = [v] \/ vals vs).
Proof.
  induction n as [|n IH]; intros v G; [apply k_timeout|]. cbn [transformValue].
  destruct v; try (apply k_ret; auto; fail).
  eapply k_bind; [apply subst_keeps; exact G|]. intros new Hn.
  destruct (negb (beq name (B "calc")) || negb (o_calc o)) eqn:Nc; [apply k_ret; exact Hn|].
  apply orb_false_iff in Nc as [Nm Oc]. apply negb_false_iff in Nm, Oc. apply beq_eq in Nm. subst name.
  assert (Dc : o_calc o = true \/ o_ranges o = true) by auto.
  assert (Kn : forall m : TM unit, keeps m (fun _ => True) -> keeps (_ <~ m ;; tret new) (fun vs => vs = [VFunc sp (B "calc") args] \/ vals vs)).
  { intros m Hm. eapply k_bind; [exact Hm|]. intros. apply k_ret. exact Hn. }
  destruct args as [|a0 [|? ?]]; try (apply Kn; apply k_report).
  assert (Ga : good a0).
  { pose proof (good_func _ _ _ G eq_refl) as A. cbn [forallb] in A. rewrite andb_true_r in A. apply orb_true_iff in A as [A|A].
    - left. destruct a0; try discriminate. reflexivity.
    - right. eauto. }
  eapply k_bind; [apply IH; exact Ga|]. intros args' Ha.
  assert (Gv : forall v vs, good v -> (vs = [v] \/ vals vs) -> forall w, In w vs -> good w).
  { intros v vs Hv [->|[_ Hvs]] w Hw; [destruct Hw as [<-|[]]; auto|]. left. rewrite forallb_forall in Hvs. auto. }
  destruct args' as [|a [|? ?]]; try (apply Kn; apply k_report).
  pose proof (Gv a0 _ Ga Ha a (or_introl eq_refl)) as Ga'.
  destruct a; try (apply k_ret; exact Hn). destruct (good_math _ _ _ _ Ga') as [Gl Gr].
  eapply k_bind; [apply IH; exact Gl|]. intros ls Hls. eapply k_bind; [apply IH; exact Gr|]. intros rs Hrs.
  destruct ls as [|l1 [|? ?]]; try (apply Kn; apply k_at). destruct rs as [|r1 [|? ?]]; try (apply Kn; apply k_at).
  pose proof (Gv _ _ Gl Hls l1 (or_introl eq_refl)) as Gl1. pose proof (Gv _ _ Gr Hrs r1 (or_introl eq_refl)) as Gr1.
  unfold evaluateMathExpression.
  eapply k_bind with (R := dimOrNil).
  { eapply k_bind; [apply reduce_keeps; auto|]. intros x Hx. eapply k_bind; [apply reduce_keeps; auto|]. intros y Hy. apply combine_keeps; auto. }
  intros e He. apply k_ret. destruct (isNil e) eqn:E; [exact Hn|]. right. apply vals_one. apply dim_good; auto.
Qed.
(** Sums that are computed. *)
Lemma combine_computed sp op l r sl a u sr b w n x t : computed l = Some (a, u) -> computed r = Some (b, w) -> computed (VMath sp op l r) = Some (n, x) ->
  exists f, combine (VDim sl a u) (VDim sr b w) op t = TOk (VDim zsp (fformat f) x) t /\ n = fformat f.
Proof.
  intros L R. cbn [computed]. rewrite L, R. destruct (fparse a) as [p|] eqn:Pa; [|discriminate]. destruct (fparse b) as [q|] eqn:Pb; [|discriminate].
  unfold combine. destruct (beq op (B "+")) eqn:E1.
  { apply beq_eq in E1. subst op. cbn [andb orb]. destruct (beq u w) eqn:E; [|discriminate]. intros H. injection H as <- <-. cbn [negb].
    unfold doMath. rewrite Pa, Pb. eexists. split; reflexivity. }
  destruct (beq op (B "-")) eqn:E2.
  { apply beq_eq in E2. subst op. cbn [andb orb]. destruct (beq u w) eqn:E; [|discriminate]. intros H. injection H as <- <-. cbn [negb].
    unfold doMath. rewrite Pa, Pb. eexists. split; reflexivity. }
  destruct (beq op (B "*")) eqn:E3.
  { apply beq_eq in E3. subst op. cbn [andb orb]. destruct (isEmpty u) eqn:E.
    - intros H. injection H as <- <-. cbn [negb andb]. unfold doMath. rewrite Pa, Pb. eexists. split; reflexivity.
    - destruct (isEmpty w) eqn:E'; [|discriminate]. intros H. injection H as <- <-. cbn [negb andb]. unfold doMath. rewrite Pa, Pb. eexists. split; reflexivity. }
  destruct (beq op (B "/")) eqn:E4; [|discriminate]. apply beq_eq in E4. subst op. cbn [andb orb]. destruct (isEmpty w); [|discriminate]. cbn [andb negb].
  destruct (fisZero q) eqn:Z0; [discriminate|]. intros H. injection H as <- <-. unfold doMath. rewrite Pa, Pb, Z0. eexists. split; reflexivity.
Qed.
Lemma computed_sides sp op l r c : computed (VMath sp op l r) = Some c -> exists a u b w, computed l = Some (a, u) /\ computed r = Some (b, w).
Proof. cbn [computed]. destruct (computed l) as [[a u]|]; [|discriminate]. destruct (computed r) as [[b w]|]; [|discriminate]. intros _. eauto 6. Qed.
Lemma computed_reduce v : forall n u t, computed v = Some (n, u) -> exists sp, reduceSide v t = TOk (VDim sp n u) t.
Proof.
  induction v using value_ind'; intros num x t Hc; try discriminate.
  - injection Hc as <- <-. eexists. reflexivity.
  - destruct (computed_sides _ _ _ _ _ Hc) as (a & u & b & w & L & R). cbn [reduceSide]. unfold tbind.
    destruct (IHv1 a u t L) as [s1 ->]. destruct (IHv2 b w t R) as [s2 ->].
    match goal with |- context [combine _ _ ?o t] => destruct (combine_computed _ o _ _ s1 a u s2 b w num x t L R Hc) as (f & -> & ->) end.
    eexists. reflexivity.
Qed.
Lemma computed_alone n v c t : computed v = Some c -> transformValue o (S n) v t = TOk [v] t.
Proof. destruct v; try discriminate; reflexivity. Qed.
Lemma reducible_keeps n v : o_calc o = true -> reducible v = true -> keeps (transformValue o n v) vals.
Proof.
  intros Oc H t T. destruct v as [| | | | | |sp name args| | | |]; try discriminate. cbn [reducible] in H. destruct args as [|m [|? ?]]; [discriminate| |destruct m; discriminate].
  destruct m as [| | | | | | |msp op l r| | |]; try discriminate. apply andb_true_iff in H as [E H]. apply beq_eq in E. subst name.
  destruct (computed (VMath msp op l r)) as [[num x]|] eqn:C; [|discriminate].
  destruct n as [|n]; [exact I|]. cbn [transformValue]. change (substVar sp (B "calc") ?a) with (@tret (list value) [VFunc sp (B "calc") a]). unfold tbind at 1, tret at 1. rewrite Oc. change (negb (beq (B "calc") (B "calc")) || negb true) with false. cbv iota.
  destruct n as [|n]; [exact I|]. destruct (computed_sides _ _ _ _ _ C) as (a & u & b & w & L & R).
  unfold tbind at 1. rewrite (computed_alone _ _ _ _ C). unfold tbind at 1. rewrite (computed_alone _ _ _ _ L). unfold tbind at 1. rewrite (computed_alone _ _ _ _ R).
  unfold evaluateMathExpression, tbind. destruct (computed_reduce l a u t L) as [s1 ->]. destruct (computed_reduce r b w t R) as [s2 ->].
  destruct (combine_computed msp op l r s1 a u s2 b w num x t L R C) as (f & -> & _). cbn. split; [exact T|]. apply vals_one. cbn.
  rewrite (D (or_introl Oc) f). exact H.
Qed.
Lemma ready_keeps n vs : o_calc o = true -> forallb (fun v => okDeclValue v || reducible v) vs = true ->
  keeps (transformValues o n vs) (fun ws => forallb okDeclValue ws = true /\ (vs <> [] -> ws <> [])).
Proof.
  intros Oc. induction vs as [|v vs IH]; cbn [transformValues forallb]; intros H; [apply k_ret; auto|].
  apply andb_true_iff in H as [Hv H].
  eapply k_bind with (R := vals).
  - destruct (okDeclValue v) eqn:V.
    + eapply k_weak; [|apply value_keeps; left; exact V]. intros here [->|Hh]; [apply vals_one; auto|exact Hh].
    + apply reducible_keeps; auto.
  - intros here [X1 X2]. eapply k_bind; [apply IH; exact H|]. intros rest [Hr _]. apply k_ret.
    rewrite forallb_app, X2, Hr. split; auto. intros _. destruct here; [congruence|discriminate].
Qed.
Lemma values_keeps n vs : forallb okDeclValue vs = true ->
  keeps (transformValues o n vs) (fun ws => forallb okDeclValue ws = true /\ (vs <> [] -> ws <> [])).
Proof.
  induction vs as [|v vs IH]; cbn [transformValues forallb]; intros H; [apply k_ret; auto|].
  apply andb_true_iff in H as [Hv H].
  eapply k_bind; [apply value_keeps; left; exact Hv|]. intros here Hh. eapply k_bind; [apply IH; exact H|]. intros rest [Hr _]. apply k_ret.
  assert (X : vals here) by (destruct Hh as [->|Hh]; [apply vals_one; auto|exact Hh]). destruct X as [X1 X2].
  rewrite forallb_app, X2, Hr. split; auto. intros _. destruct here; [congruence|discriminate].
Qed.

(** * Declarations *)
Lemma decls_keeps n ds : forallb (readyDecl o) ds = true -> keeps (transformDecls o n ds) (fun ds' => forallb okDecl ds' = true).
Proof.
  induction ds as [|d ds IH]; cbn [transformDecls forallb]; intros H; [apply k_ret; auto|].
  apply andb_true_iff in H as [Hd H].
  eapply k_bind with (R := fun d' => okDecl d' = true).
  - destruct d as [dsp prop vs imp|]; [|discriminate].
    assert (X : okProperty prop = true /\ vs <> [] /\ keeps (transformValues o n vs) (fun ws => forallb okDeclValue ws = true /\ (vs <> [] -> ws <> []))).
    { apply orb_true_iff in Hd as [Hd|Hd].
      - cbn [okDecl] in Hd. rewrite !andb_true_iff in Hd. destruct Hd as ((Hp & Hne) & Hv). split; [exact Hp|]. split; [destruct vs; discriminate|]. apply values_keeps. exact Hv.
      - rewrite !andb_true_iff in Hd. destruct Hd as ((((Oc & _) & Hp) & Hne) & Hv). split; [exact Hp|]. split; [destruct vs; discriminate|]. apply ready_keeps; assumption. }
    destruct X as (Hp & Hne & K). eapply k_bind; [exact K|]. intros ws [Hw Ne]. apply k_ret. cbn [okDecl]. rewrite Hp, Hw. specialize (Ne Hne). destruct ws; [congruence|reflexivity].
  - intros d' Hd'. eapply k_bind; [apply IH; exact H|]. intros ds' Hds. apply k_ret. cbn [forallb]. rewrite Hd', Hds. reflexivity.
Qed.
Lemma root_keeps ds : forallb (readyDecl o) ds = true -> keeps (collectRoot ds) (fun ds' => forallb (readyDecl o) ds' = true).
Proof.
  induction ds as [|d ds IH]; cbn [collectRoot forallb]; intros H; [apply k_ret; auto|].
  apply andb_true_iff in H as [Hd H]. specialize (IH H).
  assert (K : keeps (r' <~ collectRoot ds;; tret (d :: r')) (fun ds' => forallb (readyDecl o) ds' = true)).
  { eapply k_bind; [exact IH|]. intros ds' Hds. apply k_ret. cbn [forallb]. rewrite Hd, Hds. reflexivity. }
  destruct d as [dsp prop vs imp|]; [|exact K].
  intros t T. destruct (t_vars t) as [m|] eqn:V; [|apply K; auto]. destruct (hasPrefix (B "--") prop) eqn:Hx; [|apply K; auto].
  apply IH. destruct T as [T1 T2]. split; [|exact T2]. cbn [t_vars]. intros m' E. injection E as <-. destruct (T1 m V) as [Op Fm]. split; [exact Op|]. constructor; [|exact Fm].
  unfold readyDecl in Hd. rewrite Op, Hx, andb_false_r, !andb_false_l, orb_false_r in Hd. cbn [okDecl snd] in *. rewrite !andb_true_iff in Hd. destruct Hd as ((_ & Hn) & Hv). split; [destruct vs; discriminate|exact Hv].
Qed.
Lemma scan_keeps pr ds : forallb (readyDecl o) ds = true -> keeps (scanRoot pr ds) (fun ds' => forallb (readyDecl o) ds' = true).
Proof.
  intros H. unfold scanRoot. destruct pr as [|[lsp sels]|]; try (apply k_ret; exact H).
  destruct (existsb _ sels); [|apply k_ret; exact H]. destruct sels as [|[ssp [|p ps]] sels]; [apply k_ret; exact H|apply k_crash|].
  destruct (isRootPseudo p); [apply root_keeps; exact H|apply k_ret; exact H].
Qed.

(** * Selectors *)
Definition okName (nm : bytes) : Prop := nm = B "visited" \/ nm = B "link".
Lemma set_word nm p : bareLink p = true -> isWord (setPseudo nm p) = isWord p.
Proof.
  unfold setPseudo. destruct (isAnyLink p) eqn:E; [|reflexivity]. destruct p; try discriminate. cbn in *. rewrite E. cbn [negb orb].
  destruct args; try discriminate. reflexivity.
Qed.
Lemma set_touches nm p q : bareLink p = true -> touches (setPseudo nm p) (setPseudo nm q) = touches p q.
Proof.
  intros Hp. pose proof (set_word nm p Hp) as W. revert W. unfold setPseudo.
  destruct (isAnyLink p) eqn:Ep, (isAnyLink q) eqn:Eq; destruct p; try discriminate; destruct q; try discriminate; cbn [touches]; intros W; try rewrite W; reflexivity.
Qed.
Lemma set_touching nm ps : forallb bareLink ps = true -> touching (map (setPseudo nm) ps) = touching ps.
Proof.
  induction ps as [|p ps IH]; [reflexivity|]. cbn [forallb]. intros H. apply andb_true_iff in H as [Hp H]. specialize (IH H).
  destruct ps as [|q ps]; [reflexivity|]. change (map (setPseudo nm) (p :: q :: ps)) with (setPseudo nm p :: setPseudo nm q :: map (setPseudo nm) ps).
  cbn [touching]. rewrite set_touches by auto. f_equal. exact IH.
Qed.
Lemma set_part nm p : okName nm -> okPart p = true -> okPart (setPseudo nm p) = true.
Proof. unfold setPseudo. intros Hn H. destruct (isAnyLink p); [|exact H]. destruct Hn as [->| ->]; reflexivity. Qed.
Lemma set_space nm p : isSpace (setPseudo nm p) = isSpace p.
Proof. unfold setPseudo. destruct (isAnyLink p) eqn:E; [|reflexivity]. destruct p; try discriminate. reflexivity. Qed.
Lemma set_selector nm s : okName nm -> okSelector s = true -> forallb bareLink (snd s) = true -> okSelector (fst s, map (setPseudo nm) (snd s)) = true.
Proof.
  unfold okSelector. cbn [snd]. rewrite !andb_true_iff. intros Hn ((H1 & H2) & H3) Hb. rewrite set_touching by auto. split; [split|]; auto.
  - destruct (snd s); [discriminate|]. cbn [map]. rewrite set_space. exact H1.
  - rewrite forallb_map. eapply forallb_impl; [|exact H2]. intros p Hp. apply set_part; auto.
Qed.
Lemma selectors_keep sels : sels <> [] -> forallb okSelector sels = true -> forallb (fun s : selector => forallb bareLink (snd s)) sels = true ->
  transformSelectors o sels <> [] /\ forallb okSelector (transformSelectors o sels) = true.
Proof.
  intros Ne H Hb. unfold transformSelectors. destruct (o_anylink o); [|auto].
  assert (X : forall s, okSelector s = true -> forallb bareLink (snd s) = true -> transformSelector s <> [] /\ forallb okSelector (transformSelector s) = true).
  { intros [sp ps] Hs Hp. unfold transformSelector. split; [intros E; apply app_eq_nil in E as [_ E]; discriminate|].
    rewrite forallb_app. cbn [forallb].
    assert (Z := set_selector (B "link") (sp, ps) (or_intror eq_refl) Hs Hp). cbn [fst snd] in Z. rewrite Z.
    assert (Y := set_selector (B "visited") (sp, ps) (or_introl eq_refl) Hs Hp). cbn [fst snd] in Y.
    rewrite andb_true_r. generalize (length (filter isAnyLink ps)). intros k. induction k as [|k IH]; cbn [repeat forallb]; auto.
    rewrite Y. exact IH. }
  split.
  - destruct sels as [|s sels]; [congruence|]. cbn [forallb flat_map] in *. apply andb_true_iff in H as [H _]. apply andb_true_iff in Hb as [Hb _].
    destruct (X s H Hb) as [Y _]. intros E. apply app_eq_nil in E as [E _]. auto.
  - clear Ne. induction sels as [|s sels IH]; [reflexivity|]. cbn [forallb flat_map] in *. apply andb_true_iff in H as [H1 H]. apply andb_true_iff in Hb as [Hb1 Hb].
    rewrite forallb_app. destruct (X s H1 Hb1) as [_ ->]. apply IH; auto.
Qed.
Lemma set_bare nm p : okName nm -> bareLink p = true -> bareLink (setPseudo nm p) = true.
Proof. unfold setPseudo. intros Hn H. destruct (isAnyLink p); [|exact H]. destruct Hn as [->| ->]; reflexivity. Qed.
Lemma links_keep sels : forallb (fun s : selector => forallb bareLink (snd s)) sels = true ->
  forallb (fun s : selector => forallb bareLink (snd s)) (transformSelectors o sels) = true.
Proof.
  unfold transformSelectors. destruct (o_anylink o); [|auto]. induction sels as [|[sp ps] sels IH]; [reflexivity|]. cbn [forallb flat_map].
  intros H. apply andb_true_iff in H as [Hp H]. rewrite forallb_app, IH, andb_true_r by exact H. unfold transformSelector. rewrite forallb_app. cbn [forallb snd].
  assert (X : forall nm, okName nm -> forallb bareLink (map (setPseudo nm) ps) = true).
  { intros nm Hn. rewrite forallb_map. eapply forallb_impl; [|exact Hp]. intros p Hb. apply set_bare; auto. }
  rewrite (X (B "link")) by (right; reflexivity). rewrite andb_true_r.
  generalize (length (filter isAnyLink ps)). intros k. induction k as [|k IHk]; cbn [repeat forallb snd]; auto.
  rewrite (X (B "visited")) by (left; reflexivity). exact IHk.
Qed.

(** * Media queries *)
Lemma identifier_prefix d prop : d = B "min" \/ d = B "max" -> identifier prop = true -> identifier (d ++ B "-" ++ prop) = true.
Proof.
  intros Hd Hp. assert (N : forallb nameByte prop = true).
  { destruct prop as [|c r]; [discriminate|]. cbn [identifier] in Hp. apply andb_true_iff in Hp as [Hr Hc]. cbn [forallb]. rewrite Hr, andb_true_r.
    apply orb_true_iff in Hc as [Hc|Hc].
    - unfold startByte in Hc. unfold nameByte. destruct (isLetter c); [reflexivity|]. cbn in Hc |- *. rewrite Hc. rewrite !orb_true_r. reflexivity.
    - apply andb_true_iff in Hc as [Hc _]. unfold nameByte. rewrite Hc. rewrite !orb_true_r. reflexivity. }
  destruct Hd as [->| ->]; cbn; rewrite N; reflexivity.
Qed.
Lemma add_keeps v diff : okValue v = true -> (diff <> None -> o_ranges o = true) -> keeps (addToValue v diff) (fun w => okValue w = true).
Proof.
  intros Hv Hr. unfold addToValue. destruct diff as [d|]; [|apply k_ret; exact Hv]. specialize (Hr ltac:(discriminate)).
  assert (K : forall w msg, keeps (_ <~ addErrorAt w v msg;; tret v) (fun x => okValue x = true)).
  { intros. eapply k_bind; [apply k_at|]. intros. apply k_ret. exact Hv. }
  destruct v; try (apply K). destruct (fparse v); [|apply K]. apply k_ret. cbn in *. apply andb_true_iff in Hv as [_ Hu]. rewrite D; auto.
Qed.
Lemma left_dir op : In op [B "<"; B ">"; B "<="; B ">="] -> fst (leftDir op) = B "min" \/ fst (leftDir op) = B "max".
Proof. cbn. intros [<-|[<-|[<-|[<-|[]]]]]; cbn; auto. Qed.
Lemma right_dir op : In op [B "<"; B ">"; B "<="; B ">="] -> fst (rightDir op) = B "min" \/ fst (rightDir op) = B "max".
Proof. cbn. intros [<-|[<-|[<-|[<-|[]]]]]; cbn; auto. Qed.
Definition parts (ps : list mqpart) : Prop := ps <> [] /\ forallb okQueryPart ps = true.
Lemma isNil_VNil v : isNil v = true -> v = VNil. Proof. destruct v; try discriminate; auto. Qed.
Lemma range_keeps sp psp prop lv op rv : okQueryPart (MRange sp psp prop lv op rv) = true ->
  keeps (transformRange o (MRange sp psp prop lv op rv) psp prop lv op rv) parts.
Proof.
  intros H. unfold transformRange. destruct (o_ranges o) eqn:Or; cbn [negb]; [|apply k_ret; split; [discriminate|cbn [forallb]; rewrite H; reflexivity]].
  cbn [okQueryPart] in H. rewrite !andb_true_iff in H. destruct H as ((Hp & Ho) & Hv). apply bmem_In in Ho.
  assert (Vl : isNil lv = false -> okValue lv = true) by (intros E; rewrite E in Hv; apply andb_true_iff in Hv; apply Hv).
  assert (Vr : isNil rv = false -> okValue rv = true).
  { intros E. destruct (isNil lv); apply andb_true_iff in Hv as [Hv1 Hv2]; auto. rewrite E in Hv2. exact Hv2. }
  assert (Some1 : isNil lv = true -> isNil rv = false).
  { intros E. rewrite E in Hv. apply andb_true_iff in Hv as [Hv _]. destruct rv; try reflexivity; discriminate. }
  assert (One : forall d v, (d = B "min" \/ d = B "max") -> okValue v = true -> okQueryPart (MPlain zsp zsp (d ++ B "-" ++ prop) v) = true).
  { intros d v Hd Hw. cbn [okQueryPart]. rewrite identifier_prefix, Hw, orb_true_r; auto. }
  eapply k_bind with (R := fun l => if isNil lv then l = [] else parts l).
  - destruct (isNil lv) eqn:E; [apply k_ret; reflexivity|]. pose proof (left_dir op Ho) as Hd. destruct (leftDir op) as [dir diff].
    eapply k_bind; [apply add_keeps; [auto|intros _; exact Or]|]. intros v Hw. apply k_ret. split; [discriminate|]. cbn [forallb]. rewrite One; auto.
  - intros left Hl. eapply k_bind with (R := fun r => forallb okQueryPart r = true /\ (isNil rv = false -> r <> [])).
    + destruct (isNil rv) eqn:E; [apply k_ret; split; [reflexivity|discriminate]|]. pose proof (right_dir op Ho) as Hd. destruct (rightDir op) as [dir diff].
      eapply k_bind; [apply add_keeps; [auto|intros _; exact Or]|]. intros v Hw. apply k_ret. split.
      * rewrite forallb_app. cbn [forallb]. rewrite One by auto. destruct (isNil lv); reflexivity.
      * intros _ X. apply app_eq_nil in X as [_ X]. discriminate.
    + intros r [Hr Hne]. apply k_ret. destruct (isNil lv) eqn:E.
      * subst left. split; [|exact Hr]. apply Hne. auto.
      * destruct Hl as [L1 L2]. split; [intros X; apply app_eq_nil in X as [X _]; auto|]. rewrite forallb_app, L2, Hr. reflexivity.
Qed.
Lemma mqparts_keeps ps : forallb okQueryPart ps = true -> keeps (transformMqParts o ps) (fun qs => forallb okQueryPart qs = true /\ (ps <> [] -> qs <> [])).
Proof.
  induction ps as [|p ps IH]; cbn [transformMqParts forallb]; intros H; [apply k_ret; auto|].
  apply andb_true_iff in H as [Hp H].
  assert (One : parts [p]) by (split; [discriminate|]; cbn [forallb]; rewrite Hp; reflexivity).
  eapply k_bind with (R := parts).
  - destruct p as [isp v|psp' isp prop v|rsp isp prop l op r].
    + apply k_ret. exact One.
    + destruct (negb (isNil v) || negb (hasPrefix (B "--") prop)); [apply k_ret; exact One|].
      intros t T. destruct (t_cmedia t) as [m|] eqn:V; [|split; auto]. destruct (lookup prop m) as [[qsp qps]|] eqn:L; [|split; auto].
      split; auto. destruct T as [_ T]. pose proof (lookup_in (fun q => okQuery q = true) prop m _ (T m V) L) as Q. unfold okQuery in Q. cbn [snd] in Q.
      apply andb_true_iff in Q as [Q1 Q2]. split; [destruct qps; discriminate|exact Q2].
    + apply range_keeps. exact Hp.
  - intros here [Hn Hh]. eapply k_bind; [apply IH; exact H|]. intros rest [Hr _]. apply k_ret. rewrite forallb_app, Hh, Hr. split; auto.
    intros _ X. apply app_eq_nil in X as [X _]. auto.
Qed.
Lemma mqs_keeps qs : forallb okQuery qs = true -> keeps (transformMqs o qs) (fun qs' => forallb okQuery qs' = true /\ (qs <> [] -> qs' <> [])).
Proof.
  induction qs as [|[qsp ps] qs IH]; cbn [transformMqs forallb]; intros H; [apply k_ret; auto|].
  apply andb_true_iff in H as [Hq H]. unfold okQuery in Hq. cbn [snd] in Hq. apply andb_true_iff in Hq as [Hq1 Hq2].
  eapply k_bind; [apply mqparts_keeps; exact Hq2|]. intros ps' [Hp Hn]. eapply k_bind; [apply IH; exact H|]. intros r' [Hr _]. apply k_ret.
  split; [|discriminate]. cbn [forallb]. unfold okQuery at 1. cbn [snd]. rewrite Hp, Hr, andb_true_r.
  destruct ps; [discriminate|]. specialize (Hn ltac:(discriminate)). destruct ps'; [congruence|reflexivity].
Qed.

(** * Nodes *)
Lemma ready_plain n : plainSource n = true -> readySource o n = true.
Proof.
  destruct n as [r|a]; [|exact (fun H => H)]. unfold plainSource. cbn [readySource writable bareLinks]. unfold okRule. rewrite !andb_true_iff. intros ((Hp & Hd) & Hb).
  split; [|eapply forallb_impl; [|exact Hd]; intros d E; unfold readyDecl; rewrite E; reflexivity].
  unfold plainSource. cbn [writable bareLinks]. unfold okRule. cbn [r_prelude r_decls forallb]. rewrite Hp, Hb. reflexivity.
Qed.
Lemma all_ready ns : forallb plainSource ns = true -> forallb (readySource o) ns = true.
Proof. apply forallb_impl. exact ready_plain. Qed.
Lemma rule_keeps n r : readySource o (NRule r) = true ->
  keeps (transformRule o n r) (fun q => match q with Some r' => plainSource (NRule r') = true | None => True end).
Proof.
  cbn [readySource]. unfold plainSource at 1. cbn [writable bareLinks]. unfold okRule at 1. cbn [r_prelude r_decls forallb]. rewrite !andb_true_iff. intros (((Hp & _) & Hb) & Hd).
  unfold transformRule. eapply k_bind; [apply scan_keeps; exact Hd|]. intros ds Hds.
  destruct (r_prelude r) as [|[lsp sels]|]; try discriminate. apply andb_true_iff in Hp as [Hne Hs].
  eapply k_bind; [apply decls_keeps; exact Hds|]. intros ds' Hds'. destruct ds' as [|d ds']; [apply k_ret; exact I|]. apply k_ret.
  destruct (selectors_keep sels) as [S1 S2]; auto; [destruct sels; discriminate|].
  unfold plainSource. cbn [writable bareLinks]. unfold okRule. cbn [r_prelude r_decls]. rewrite Hds', S2, (links_keep sels Hb).
  destruct (transformSelectors o sels); [congruence|reflexivity].
Qed.
Variable repl : option (list (ptr * list node)).
Hypothesis Rp : forall m, repl = Some m -> Forall (fun kv => forallb plainSource (snd kv) = true) m.
Lemma plookup_in {A} (Q : A -> Prop) k : forall m v, Forall (fun kv => Q (snd kv)) m -> plookup k m = Some v -> Q v.
Proof.
  induction m as [|[k' x] m IH]; intros v F L; [discriminate|]. cbn in L. inversion F; subst. destruct (ptrEq k k'); [injection L as <-; auto|auto].
Qed.
Lemma nodes_keep n : forall ns, forallb (readySource o) ns = true -> keeps (transformNodes o repl n ns) (fun ns' => forallb plainSource ns' = true).
Proof.
  induction n as [|n IH]; [intros; apply k_timeout|]. cbn [transformNodes]. induction ns as [|nd ns IHn]; intros H; [apply k_ret; auto|].
  cbn [forallb] in H. apply andb_true_iff in H as [Hn H].
  eapply k_bind with (R := fun here => forallb plainSource here = true).
  - destruct nd as [r|a].
    + eapply k_bind; [apply rule_keeps; auto|]. intros q Hq. apply k_ret. destruct q; cbn [forallb]; [rewrite Hq|]; reflexivity.
    + cbn [readySource] in Hn. unfold plainSource in Hn. apply andb_true_iff in Hn as [Hw Hb].
      assert (One : forallb plainSource [NAt a] = true) by (cbn [forallb]; unfold plainSource; rewrite Hw, Hb; reflexivity).
      destruct (beq (ar_name a) (B "import")) eqn:Ni.
      * destruct repl as [m|] eqn:Er; [|apply k_ret; cbn [forallb] in *; rewrite andb_true_r in One; rewrite One; reflexivity].
        destruct (plookup (atRuleId a) m) as [imported|] eqn:L; [|apply k_ret; exact One].
        eapply k_bind; [apply k_if; [apply k_report|apply k_ret; exact I]|]. intros. apply IH. apply all_ready.
        exact (plookup_in (fun l => forallb plainSource l = true) _ m imported (Rp m eq_refl) L).
      * destruct (beq (ar_name a) (B "custom-media")) eqn:Nc.
        -- eapply k_bind with (R := fun _ => True); [|intros; apply k_ret; reflexivity].
           cbn [writable] in Hw. unfold okAtRule in Hw. rewrite Ni in Hw. apply beq_eq in Nc. rewrite Nc in Hw.
           change (beq (B "custom-media") (B "media")) with false in Hw. change (keyframesName (B "custom-media")) with false in Hw.
           change (beq (B "custom-media") (B "custom-media")) with true in Hw. cbv iota in Hw.
           intros t T. unfold addCustomMedia. destruct (t_cmedia t) as [m|] eqn:V; [|auto].
           destruct (ar_preludes a) as [|[| | | |] [|[| | | |] [|? ?]]]; auto. split; auto. destruct T as [T1 T2]. split; [exact T1|]. cbn [t_cmedia].
           intros m' E. injection E as <-. constructor; [|apply T2; auto]. destruct (ar_block a); [discriminate|]. apply andb_true_iff in Hw as [_ Hw]. exact Hw.
        -- destruct (beq (ar_name a) (B "media")) eqn:Nm; [|apply k_ret; exact One].
           cbn [writable] in Hw. unfold okAtRule in Hw. rewrite Ni, Nm in Hw.
           destruct (ar_preludes a) as [|[| |[lsp qs]| |] pres]; try apply k_crash. destruct pres; [|discriminate].
           destruct (ar_block a) as [[|bsp rs]|] eqn:Eb; try discriminate. apply andb_true_iff in Hw as [Hq Hr]. unfold okQueries in Hq. cbn [snd] in Hq.
           apply andb_true_iff in Hq as [Hq1 Hq2].
           eapply k_bind; [apply mqs_keeps; exact Hq2|]. intros qs' [Hqs Hne]. apply k_ret. cbn [forallb]. unfold plainSource. cbn [writable bareLinks]. unfold okAtRule. cbn [ar_name ar_preludes ar_block].
           rewrite Ni, Nm, Hr. unfold okQueries. cbn [snd]. rewrite Hqs. destruct qs; [discriminate|]. specialize (Hne ltac:(discriminate)).
           destruct qs'; [congruence|reflexivity].
  - intros here Hh. eapply k_bind; [apply IHn; exact H|]. intros rest Hr. apply k_ret. rewrite forallb_app, Hh, Hr. reflexivity.
Qed.
Lemma transform_keeps n ss ss' t : forallb (readySource o) (ss_nodes ss) = true -> transform o repl n ss = TOk ss' t -> forallb plainSource (ss_nodes ss') = true.
Proof.
  intros H. unfold transform. pose proof (nodes_keep n (ss_nodes ss) H (initState o repl)) as K.
  assert (T : tOk (initState o repl)).
  { unfold initState. split; cbn [t_vars t_cmedia]; intros m E; [destruct (o_props o) eqn:Op|destruct (o_cmedia o)]; try discriminate; injection E as <-; repeat constructor. }
  specialize (K T). destruct (transformNodes o repl n (ss_nodes ss) (initState o repl)) as [ns t'| |]; try discriminate.
  intros E. injection E as <- <-. apply K.
Qed.
End Keep.
