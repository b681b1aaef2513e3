(** calc(): C28. *)
From Verif Require Import Bytes Utf8 Source Lexer Ast AstInd BytesFacts Transformer TransSpec TransProofs TransMedia.
Open Scope Z_scope.

Section C.
Context {FO : FloatOps}.
Variable o : topts.
Hypothesis roundTrip : forall f, fparse (fformat f) = Some f.
Hypothesis mulComm : forall a b, fmul a b = fmul b a.
Notation cval := (calcValue F fparse fadd fsub fmul fdiv fisZero).

Lemma calc_fun : forall env v a u, cval env v a u -> forall a' u', cval env v a' u' -> a = a' /\ u = u'.
Proof.
  intros env v a u H. induction H; intros a' u' K; inversion K; subst; clear K;
    repeat match goal with
    | IH : forall a' u', cval env ?v a' u' -> _, H : cval env ?v _ _ |- _ => apply IH in H; destruct H; subst
    end; try (split; congruence); try (split; reflexivity).
  - match goal with H : env _ = Some [_], K : env _ = Some [_] |- _ => rewrite H in K; inversion K; subst end. eauto.
Qed.

Lemma doMath_ok : forall l r op f, doMath l r op = inl f -> exists a b, fparse l = Some a /\ fparse r = Some b /\
  (op = B "+" /\ f = fadd a b \/ op = B "-" /\ f = fsub a b \/ op = B "*" /\ f = fmul a b \/
   op = B "/" /\ fisZero b = false /\ f = fdiv a b).
Proof.
  intros l r op f H. unfold doMath in H. destruct (fparse l) as [a|]; [|discriminate]. destruct (fparse r) as [b|]; [|discriminate].
  exists a, b. split; [reflexivity|]. split; [reflexivity|].
  destruct (beq op (B "+")) eqn:E1; [apply beq_eq in E1; inversion H; auto|].
  destruct (beq op (B "-")) eqn:E2; [apply beq_eq in E2; inversion H; auto|].
  destruct (beq op (B "*")) eqn:E3; [apply beq_eq in E3; inversion H; auto|].
  destruct (beq op (B "/")) eqn:E4; [|discriminate]. apply beq_eq in E4. destruct (fisZero b) eqn:Ez; [discriminate|].
  inversion H; auto 8.
Qed.
Lemma mathResult_ok : forall v res u t e t', mathResult v res u t = TOk e t' ->
  e = VNil \/ exists f, res = inl f /\ e = VDim zsp (fformat f) u.
Proof.
  intros v [f|m] u t e t' H; cbn [mathResult] in H.
  - apply tret_ok in H as [<- _]. right. eauto.
  - apply tbind_ok in H as (? & ? & _ & H). apply tret_ok in H as [<- _]. auto.
Qed.
Ltac nilret := match goal with
  | H : tret VNil _ = TOk _ _ |- _ => apply tret_ok in H as [<- _]; left; reflexivity
  | H : tbind _ _ _ = TOk _ _ |- _ => let a := fresh in let b := fresh in let X := fresh in
      apply tbind_ok in H as (a & b & X & H); nilret
  end.

Lemma combine_ok : forall env l r op t e t', combine l r op t = TOk e t' ->
  e = VNil \/ exists f u, e = VDim zsp (fformat f) u /\ forall sp, cval env (VMath sp op l r) f u.
Proof.
  intros env l r op t e t' H. unfold combine in H.
  destruct (beq op (B "+") || beq op (B "-")) eqn:E1.
  - destruct l as [| |lsp ln lu| | | | | | | |]; try nilret. destruct r as [| |rsp rn ru| | | | | | | |]; try nilret.
    destruct (negb (beq lu ru)) eqn:Eu; [nilret|]. apply negb_false_iff, beq_eq in Eu. subst ru.
    apply mathResult_ok in H as [->|(f & Hd & ->)]; [auto|]. right. exists f, lu. split; [reflexivity|]. intros sp.
    apply doMath_ok in Hd as (a & b & Ha & Hb & Hop).
    destruct Hop as [(-> & ->)|[(-> & ->)|[(-> & ->)|(-> & _)]]]; try discriminate E1.
    + apply cv_add; apply cv_dim; auto.
    + apply cv_sub; apply cv_dim; auto.
  - destruct (beq op (B "*")) eqn:E2.
    + apply beq_eq in E2. subst op.
      destruct l as [| |lsp ln lu| | | | | | | |]; try nilret. destruct r as [| |rsp rn ru| | | | | | | |]; try nilret.
      destruct (negb (isEmpty lu) && negb (isEmpty ru)) eqn:Ee; [nilret|].
      destruct (isEmpty lu) eqn:El.
      * apply mathResult_ok in H as [->|(f & Hd & ->)]; [auto|]. right. exists f, ru. split; [reflexivity|]. intros sp.
        apply doMath_ok in Hd as (a & b & Ha & Hb & Hop).
        destruct Hop as [(X & _)|[(X & _)|[(_ & ->)|(X & _)]]]; try discriminate X.
        destruct lu; [|discriminate]. rewrite mulComm. apply cv_mul_l; apply cv_dim; auto.
      * destruct ru; [|discriminate]. apply mathResult_ok in H as [->|(f & Hd & ->)]; [auto|]. right. exists f, lu. split; [reflexivity|]. intros sp.
        apply doMath_ok in Hd as (a & b & Ha & Hb & Hop).
        destruct Hop as [(X & _)|[(X & _)|[(_ & ->)|(X & _)]]]; try discriminate X.
        apply cv_mul_r; apply cv_dim; auto.
    + destruct (beq op (B "/")) eqn:E3; [|nilret]. apply beq_eq in E3. subst op.
      destruct r as [| |rsp rn ru| | | | | | | |]; try nilret. destruct (negb (isEmpty ru)) eqn:Er; [nilret|].
      destruct ru; [|discriminate].
      destruct l as [| |lsp ln lu| | | | | | | |]; try nilret.
      apply mathResult_ok in H as [->|(f & Hd & ->)]; [auto|]. right. exists f, lu. split; [reflexivity|]. intros sp.
      apply doMath_ok in Hd as (a & b & Ha & Hb & Hop).
      destruct Hop as [(X & _)|[(X & _)|[(X & _)|(_ & Hz & ->)]]]; try discriminate X.
      apply cv_div; [apply cv_dim; auto|apply cv_dim; auto|auto].
Qed.

(** [v'] may stand for [v] in a computation. *)
Definition standsFor env (v v' : value) : Prop := forall a u, cval env v' a u -> cval env v a u.
Lemma stands_dim : forall env v f u, cval env v f u -> standsFor env v (VDim zsp (fformat f) u).
Proof. intros env v f u H a u' K. inversion K; subst. match goal with X : fparse _ = Some _ |- _ => rewrite roundTrip in X; inversion X; subst end. exact H. Qed.
Lemma stands_math : forall env sp op l r l' r', standsFor env l l' -> standsFor env r r' ->
  standsFor env (VMath sp op l r) (VMath sp op l' r').
Proof.
  intros env sp op l r l' r' HL HR a u H. inversion H; subst.
  - apply cv_add; auto.
  - apply cv_sub; auto.
  - apply cv_mul_r; auto.
  - apply cv_mul_l; auto.
  - apply cv_div; auto.
Qed.
Lemma stands_refl : forall env v, standsFor env v v.
Proof. intros env v a u H. exact H. Qed.

Lemma reduce_ok : forall env v t v' t', reduceSide v t = TOk v' t' -> standsFor env v v'.
Proof.
  intros env v. induction v using value_ind'; intros t v' t' Hr; cbn [reduceSide] in Hr;
    try (apply tret_ok in Hr as [<- _]; apply stands_refl).
  apply tbind_ok in Hr as (l' & t1 & H1 & Hr). apply tbind_ok in Hr as (r' & t2 & H2 & Hr).
  apply tbind_ok in Hr as (e & t3 & H3 & Hr). apply tret_ok in Hr as [<- _].
  apply (combine_ok env) in H3 as [->|(f & u & -> & Hc)]; cbn [isNil]; [apply stands_refl|].
  apply stands_dim. apply (stands_math env sp o0 v1 v2 l' r'); eauto.
Qed.
Lemma eval_ok : forall env l r op t e t', evaluateMathExpression l r op t = TOk e t' ->
  e = VNil \/ exists f u, e = VDim zsp (fformat f) u /\ forall sp, cval env (VMath sp op l r) f u.
Proof.
  intros env l r op t e t' H. unfold evaluateMathExpression in H.
  apply tbind_ok in H as (l' & t1 & H1 & H). apply tbind_ok in H as (r' & t2 & H2 & H).
  apply (combine_ok env) in H as [->|(f & u & -> & Hc)]; [auto|]. right. exists f, u. split; [reflexivity|].
  intros sp. apply (stands_math env sp op l r l' r'); eauto using reduce_ok.
Qed.

(** The properties in force. *)
Definition varsOf (t : tstate) : bytes -> option (list value) :=
  fun x => match t_vars t with Some m => lookup x m | None => None end.

Lemma subst_ok : forall sp name args t out t', substVar sp name args t = TOk out t' ->
  out = [VFunc sp name args] \/
  (name = B "var" /\ exists isp x tl, args = VIdent isp x :: tl /\
     (varsOf t x = Some out \/ varsOf t x = None /\ out = skipn 2 args)).
Proof.
  intros sp name args t out t' H. unfold substVar in H.
  destruct (negb (beq name (B "var"))) eqn:En; [apply tret_ok in H as [<- _]; auto|].
  apply negb_false_iff, beq_eq in En. subst name. unfold varsOf.
  destruct (t_vars t) as [m|]; [|inversion H; auto].
  destruct args as [|a0 rest]; [apply tbind_ok in H as (? & ? & _ & H); apply tret_ok in H as [<- _]; auto|].
  destruct a0; try (apply tbind_ok in H as (? & ? & _ & H); apply tret_ok in H as [<- _]; auto; fail).
  destruct (lookup v m) as [vals|] eqn:El.
  - inversion H; subst. right. split; [reflexivity|]. exists sp0, v, rest. split; [reflexivity|]. auto.
  - destruct (2 <? length _)%nat.
    + inversion H; subst. right. split; [reflexivity|]. exists sp0, v, rest. split; [reflexivity|]. auto.
    + apply tbind_ok in H as (? & ? & _ & H). apply tret_ok in H as [<- _]. auto.
Qed.
Lemma subst_stands : forall sp name args t v' t', substVar sp name args t = TOk [v'] t' ->
  standsFor (varsOf t) (VFunc sp name args) v'.
Proof.
  intros sp name args t v' t' H. apply subst_ok in H as [H|(-> & isp & x & tl & -> & [Hx|[Hx Ho]])].
  - inversion H; subst. apply stands_refl.
  - intros a u K. eapply cv_var; eauto.
  - intros a u K. cbn [skipn] in Ho. destruct tl as [|c [|fb [|? ?]]]; try discriminate.
    inversion Ho; subst. apply cv_fallback; auto.
Qed.

Lemma calc_sound : forall n v t out t', transformValue o n v t = TOk out t' ->
  (forall v', out = [v'] -> standsFor (varsOf t) v v') /\
  (forall sp args, v = VFunc sp (B "calc") args ->
     out = [v] \/ exists f u, out = [VDim zsp (fformat f) u] /\ cval (varsOf t) v f u).
Proof.
  intros n. induction n as [|n IH]; intros v t out t' H; [discriminate|].
  cbn [transformValue] in H.
  destruct v as [| | | | | |sp name args| | | |];
    try (apply tret_ok in H as [<- _]; split; [intros v' E; inversion E; subst; apply stands_refl|intros; discriminate]).
  apply tbind_ok in H as (new & t1 & H1 & H).
  destruct (keeps_subst _ _ _ _ _ _ H1) as [Kv _].
  assert (V1 : varsOf t1 = varsOf t) by (unfold varsOf; rewrite Kv; reflexivity).
  destruct (negb (beq name (B "calc")) || negb (o_calc o)) eqn:Ec.
  { apply tret_ok in H as [<- _]. split.
    - intros v' ->. eapply subst_stands; eauto.
    - intros sp' args' E. inversion E; subst. apply subst_ok in H1 as [H1|(X & _)]; [left; exact H1|discriminate X]. }
  apply orb_false_iff in Ec as [Ec _]. apply negb_false_iff, beq_eq in Ec. subst name.
  assert (Hn : new = [VFunc sp (B "calc") args]) by (apply subst_ok in H1 as [H1|(X & _)]; [exact H1|discriminate X]).
  subst new.
  assert (Same : forall t2 t3, tret [VFunc sp (B "calc") args] t2 = TOk out t3 ->
     (forall v', out = [v'] -> standsFor (varsOf t) (VFunc sp (B "calc") args) v') /\
     (forall sp' args', VFunc sp (B "calc") args = VFunc sp' (B "calc") args' ->
        out = [VFunc sp (B "calc") args] \/ exists f u, out = [VDim zsp (fformat f) u] /\ cval (varsOf t) (VFunc sp (B "calc") args) f u)).
  { intros t2 t3 E. apply tret_ok in E as [<- _]. split; [intros v' E; inversion E; subst; apply stands_refl|auto]. }
  destruct args as [|a0 [|a1 ar]]; try (apply tbind_ok in H as (? & ? & _ & H); eapply Same; eauto; fail).
  apply tbind_ok in H as (args' & t2 & H2 & H).
  destruct args' as [|a [|? ?]]; try (apply tbind_ok in H as (? & ? & _ & H); eapply Same; eauto; fail).
  destruct a as [| | | | | | |msp op l r| | |]; try (eapply Same; eauto; fail).
  apply tbind_ok in H as (ls & t3 & H3 & H). apply tbind_ok in H as (rs & t4 & H4 & H).
  destruct ls as [|l1 [|? ?]]; try (apply tbind_ok in H as (? & ? & _ & H); eapply Same; eauto; fail).
  destruct rs as [|r1 [|? ?]]; try (apply tbind_ok in H as (? & ? & _ & H); eapply Same; eauto; fail).
  apply tbind_ok in H as (e & t5 & H5 & H).
  destruct (isNil e) eqn:Ee; [eapply Same; eauto|]. apply tret_ok in H as [<- _].
  assert (V2 : varsOf t2 = varsOf t1) by (destruct (keeps_value o _ _ _ _ _ H2) as [K _]; unfold varsOf; rewrite K; reflexivity).
  assert (V3 : varsOf t3 = varsOf t2) by (destruct (keeps_value o _ _ _ _ _ H3) as [K _]; unfold varsOf; rewrite K; reflexivity).
  apply (eval_ok (varsOf t)) in H5 as [->|(f & u & -> & Hc)]; [discriminate|].
  destruct (IH _ _ _ _ H2) as [S0 _]. destruct (IH _ _ _ _ H3) as [SL _]. destruct (IH _ _ _ _ H4) as [SR _].
  specialize (S0 _ eq_refl). specialize (SL _ eq_refl). specialize (SR _ eq_refl).
  rewrite V3, V2, V1 in SR. rewrite V2, V1 in SL. rewrite V1 in S0.
  assert (R : cval (varsOf t) (VFunc sp (B "calc") [a0]) f u).
  { apply cv_calc, S0. apply (stands_math _ msp op l r l1 r1); auto. }
  split.
  - intros v' E. inversion E; subst. apply stands_dim. exact R.
  - intros sp' args' _. right. exists f, u. auto.
Qed.

(** Completeness on plain expressions. *)
Lemma doMath_eq : forall l r op a b, fparse l = Some a -> fparse r = Some b -> doMath l r op =
  if beq op (B "+") then inl (fadd a b) else if beq op (B "-") then inl (fsub a b)
  else if beq op (B "*") then inl (fmul a b) else if beq op (B "/") then if fisZero b then inr (B "cannot divide by zero") else inl (fdiv a b)
  else inr (B "unknown op: " ++ op).
Proof. intros l r op a b H1 H2. unfold doMath. rewrite H1, H2. reflexivity. Qed.
Lemma combine_complete : forall env sp op s1 n1 u1 s2 n2 u2 a b f u t,
  fparse n1 = Some a -> fparse n2 = Some b ->
  cval env (VMath sp op (VDim s1 n1 u1) (VDim s2 n2 u2)) f u ->
  combine (VDim s1 n1 u1) (VDim s2 n2 u2) op t = TOk (VDim zsp (fformat f) u) t.
Proof.
  intros env sp op s1 n1 u1 s2 n2 u2 a b f u t H1 H2 H.
  inversion H; subst; clear H;
  repeat match goal with X : cval env (VDim _ _ _) _ _ |- _ => inversion X; subst; clear X end;
  repeat match goal with X : fparse ?n = Some _, Y : fparse ?n = Some _ |- _ => rewrite X in Y; inversion Y; subst; clear Y end;
  unfold combine; rewrite ?(doMath_eq _ _ _ _ _ H1 H2), ?(doMath_eq _ _ _ _ _ H2 H1).
  - change (beq (B "+") (B "+") || beq (B "+") (B "-")) with true. cbv iota. rewrite beq_refl. reflexivity.
  - change (beq (B "-") (B "+") || beq (B "-") (B "-")) with true. cbv iota. rewrite beq_refl. reflexivity.
  - change (beq (B "*") (B "+") || beq (B "*") (B "-")) with false. change (beq (B "*") (B "*")) with true. cbv iota.
    cbn [isEmpty negb]. rewrite andb_false_r. destruct u; cbn [isEmpty]; [|reflexivity]. 
    rewrite mulComm. reflexivity.
  - change (beq (B "*") (B "+") || beq (B "*") (B "-")) with false. change (beq (B "*") (B "*")) with true. cbv iota.
    cbn [isEmpty negb andb]. rewrite mulComm. reflexivity.
  - change (beq (B "/") (B "+") || beq (B "/") (B "-")) with false. change (beq (B "/") (B "*")) with false.
    change (beq (B "/") (B "/")) with true. cbv iota. cbn [isEmpty negb].
    match goal with X : fisZero _ = false |- _ => rewrite X end. reflexivity.
Qed.
Lemma reduce_complete : forall env v f u t, plainMath v -> cval env v f u ->
  exists sp n, reduceSide v t = TOk (VDim sp n u) t /\ fparse n = Some f.
Proof.
  intros env v. induction v using value_ind'; intros f uu t Hp Hc; cbn [plainMath] in Hp; try contradiction.
  - inversion Hc; subst. exists sp, v. auto.
  - destruct Hp as [P1 P2].
    assert (Hs : exists a1 u1 a2 u2, cval env v1 a1 u1 /\ cval env v2 a2 u2) by (inversion Hc; subst; eauto 8).
    destruct Hs as (a1 & u1 & a2 & u2 & C1 & C2).
    destruct (IHv1 _ _ t P1 C1) as (s1 & n1 & R1 & F1). destruct (IHv2 _ _ t P2 C2) as (s2 & n2 & R2 & F2).
    exists zsp, (fformat f). split; [|apply roundTrip].
    cbn [reduceSide]. rewrite (tbind_step _ _ _ _ _ _ _ R1), (tbind_step _ _ _ _ _ _ _ R2).
    rewrite (tbind_step _ _ _ _ _ (VDim zsp (fformat f) uu) t); [reflexivity|].
    eapply (combine_complete env sp); eauto.
    assert (X1 : forall a u, cval env v1 a u -> cval env (VDim s1 n1 u1) a u).
    { intros a u K. destruct (calc_fun _ _ _ _ C1 _ _ K) as [<- <-]. constructor; auto. }
    assert (X2 : forall a u, cval env v2 a u -> cval env (VDim s2 n2 u2) a u).
    { intros a u K. destruct (calc_fun _ _ _ _ C2 _ _ K) as [<- <-]. constructor; auto. }
    inversion Hc; subst.
    + apply cv_add; auto.
    + apply cv_sub; auto.
    + apply cv_mul_r; auto.
    + apply cv_mul_l; auto.
    + apply cv_div; auto.
Qed.
Lemma plain_value : forall n v t, plainMath v -> transformValue o (S n) v t = TOk [v] t.
Proof. intros n v t H. destruct v; try contradiction; reflexivity. Qed.
Lemma calc_complete : forall n sp msp op l r f u t, o_calc o = true -> plainMath l -> plainMath r ->
  cval (varsOf t) (VMath msp op l r) f u ->
  transformValue o (S (S n)) (VFunc sp (B "calc") [VMath msp op l r]) t = TOk [VDim zsp (fformat f) u] t.
Proof.
  intros n sp msp op l r f u t Ho Hl Hr Hc.
  change (transformValue o (S (S n)) (VFunc sp (B "calc") [VMath msp op l r])) with
    (new <~ substVar sp (B "calc") [VMath msp op l r] ;;
     if negb (beq (B "calc") (B "calc")) || negb (o_calc o) then tret new else
       args' <~ transformValue o (S n) (VMath msp op l r) ;;
       match args' with
       | [a] =>
         match a with
         | VMath _ op l r =>
           ls <~ transformValue o (S n) l ;;
           rs <~ transformValue o (S n) r ;;
           match ls with
           | [l1] =>
             match rs with
             | [r1] =>
               e <~ evaluateMathExpression l1 r1 op ;;
               tret (if isNil e then new else [e])
             | _ => _ <~ addErrorAt true r (B "expected right-hand side of math expression to be a single value") ;; tret new
             end
           | _ => _ <~ addErrorAt true l (B "expected left-hand side of math expression to be a single value") ;; tret new
           end
         | _ => tret new
         end
       | _ => _ <~ treport (mkReport true sp (B "expected single argument for calc()")) ;; tret new
       end).
  rewrite (tbind_step _ _ _ _ _ [VFunc sp (B "calc") [VMath msp op l r]] t) by reflexivity.
  rewrite Ho. change (negb (beq (B "calc") (B "calc")) || negb true) with false. cbv iota.
  rewrite (tbind_step _ _ _ _ _ [VMath msp op l r] t) by reflexivity. cbv iota beta.
  rewrite (tbind_step _ _ _ _ _ _ _ (plain_value n l t Hl)), (tbind_step _ _ _ _ _ _ _ (plain_value n r t Hr)). cbv iota beta.
  rewrite (tbind_step _ _ _ _ _ (VDim zsp (fformat f) u) t); [reflexivity|].
  unfold evaluateMathExpression.
  destruct (reduce_complete (varsOf t) (VMath msp op l r) f u t (conj Hl Hr) Hc) as (s & nn & R & F).
  cbn [reduceSide] in R. apply tbind_ok in R as (l1 & t1 & R1 & R). apply tbind_ok in R as (r1 & t2 & R2 & R).
  apply tbind_ok in R as (e & t3 & R3 & R). apply tret_ok in R as [Re ->].
  rewrite (tbind_step _ _ _ _ _ _ _ R1), (tbind_step _ _ _ _ _ _ _ R2).
  destruct (combine_ok (varsOf t) _ _ _ _ _ _ R3) as [->|(f' & u' & -> & Hc')]; [discriminate Re|].
  cbn [isNil] in Re. inversion Re; subst. rewrite roundTrip in F. inversion F; subst. exact R3.
Qed.
End C.
