(** The trees the parser returns. *)
From Verif Require Import Bytes Utf8 Source Lexer BytesFacts LexSpec Ast Parser ParserSpec ParseMono.

(** * Unfolding the predicates *)
Lemma soundValue_func sp name args : soundValue (VFunc sp name args) <->
  (isMathName name = false -> Forall (fun a => isMathExpr a = false) args) /\ Forall soundValue args.
Proof.
  cbn. split; intros [H1 H2]; split; auto.
  - clear H1. induction args; constructor; [apply H2|apply IHargs, H2].
  - clear H1. induction H2; auto.
Qed.
Lemma soundValue_brackets sp vs : soundValue (VBrackets sp vs) <->
  Forall (fun a => isMathExpr a = false) vs /\ Forall soundValue vs.
Proof.
  cbn. split; intros [H1 H2]; split; auto.
  - clear H1. induction vs; constructor; [apply H2|apply IHvs, H2].
  - clear H1. induction H2; auto.
Qed.
Definition soundArgs (a : pargs selpart) : Prop :=
  match a with PASel _ sels => sels <> [] /\ Forall soundSelector sels | _ => True end.
Lemma soundPart_pseudo a : soundArgs a -> (forall sp n, soundPart (SPseudo sp n a)) /\ (forall sp isp n, soundPart (SPseudoEl sp isp n a)).
Proof.
  assert (H : soundArgs a -> forall sp n, soundPart (SPseudo sp n a)).
  { intros Ha sp n. cbn. destruct a; auto. destruct Ha as [Ha1 Ha2]. split; auto. clear Ha1.
    induction Ha2 as [|[s ps] r [P1 P2] _ IH]; auto. cbn. split; auto. split; auto.
    clear P1 IH. cbn in P2. induction P2; auto. }
  intros Ha. split; [auto|]. intros sp isp n. exact (H Ha sp n).
Qed.

Section WithUnicode.
Context {U : UnicodeDigits}.

Lemma bind_ok {A C} (m : res A) (k : A -> res C) c : bind m k = Ok c -> exists a, m = Ok a /\ k a = Ok c.
Proof. destruct m; cbn [bind]; try discriminate. eauto. Qed.
Lemma ok_inj {A} (a b : A) : Ok a = Ok b -> a = b.
Proof. intros H; injection H; auto. Qed.

Ltac okinj H := apply ok_inj in H; inversion H; subst; clear H.
Ltac inv1 := match goal with
  | H : bind _ _ = Ok _ |- _ => apply bind_ok in H; let a := fresh "a" in let Ha := fresh "Ha" in destruct H as (a & Ha & H)
  | H : (let '(_, _) := ?x in _) = Ok _ |- _ => destruct x
  | H : Ok _ = Ok _ |- _ => okinj H
  | H : errorf _ _ = Ok _ |- _ => discriminate H
  | H : crash _ = Ok _ |- _ => discriminate H
  | H : Timeout = Ok _ |- _ => discriminate H
  | H : (if ?b then _ else _) = Ok _ |- _ => destruct b eqn:?
  end.
Ltac inv := repeat (inv1; cbv beta zeta in * ).

Definition nilOr (v : value) (P : Prop) : Prop := v = VNil \/ P.

Definition SV n := forall l v l1, parseValue n l = Ok (v, l1) -> v = VNil /\ l1 = l \/ plainValue v.
Definition SB n := forall l vs e l1, bracketLoop n l = Ok (vs, e, l1) -> Forall plainValue vs.
Definition SA n := forall name l vs e l1, argsLoop n name l = Ok (vs, e, l1) ->
  Forall soundValue vs /\ (isMathName name = false -> Forall (fun a => isMathExpr a = false) vs).
Definition SM (f : nat -> lexer -> res (value * lexer)) n := forall l v l1, f n l = Ok (v, l1) -> v = VNil /\ l1 = l \/ soundValue v.
Definition SL (f : nat -> value -> lexer -> res (value * lexer)) n := forall lhs l v l1, f n lhs l = Ok (v, l1) ->
  (lhs = VNil -> v = VNil /\ l1 = l) /\ (soundValue lhs -> soundValue v).

Lemma sound_notNil v : soundValue v -> v <> VNil.
Proof. intros H ->. exact H. Qed.
Lemma joinSpan_ok l a b sp : joinSpan l a b = Ok sp -> a <> VNil /\ b <> VNil.
Proof. unfold joinSpan. destruct a; cbn; try discriminate; destruct b; cbn; try discriminate; split; congruence. Qed.

Lemma plain_sound v : plainValue v -> soundValue v. Proof. intros H; apply H. Qed.
Lemma Forall_plain vs : Forall plainValue vs -> Forall soundValue vs /\ Forall (fun a => isMathExpr a = false) vs.
Proof. intros H. split; eapply Forall_impl; try exact H; intros a Ha; apply Ha. Qed.

Lemma SV_step n : SB n -> SA n -> SV (S n).
Proof.
  intros IB IA l v l1 H. cbn [parseValue] in H. destruct (l_cur l) eqn:Ec; inv; auto; right; try (split; [exact I|reflexivity]).
  - split; [|reflexivity]. apply soundValue_brackets. apply IB in Ha0. apply Forall_plain in Ha0. tauto.
  - split; [|reflexivity]. cbn. repeat split; auto.
  - split; [|reflexivity]. apply soundValue_func. apply IA in Ha0. tauto.
Qed.
Lemma SB_step n : SV n -> SB n -> SB (S n).
Proof.
  intros IV IB l vs e l1 H. cbn [bracketLoop] in H. inv; auto.
  constructor; [|eapply IB; eauto]. apply IV in Ha as [[-> _]|Ha]; [discriminate|auto].
Qed.

(** A math function whose next argument is missing never closes. *)
Lemma args_stuck m name l : isMathName name = true -> l_cur l <> RParen -> l_cur l <> Comma ->
  mathSum m l = Ok (VNil, l) -> forall n vs e l1, argsLoop n name l <> Ok (vs, e, l1).
Proof.
  intros Hn Hr Hc Hm. induction n as [|n IH]; intros vs e l1 H; cbn [argsLoop] in H; [discriminate|].
  unfold teq in H. destruct (token_eq_dec (l_cur l) RParen); [contradiction|].
  destruct (token_eq_dec (l_cur l) Comma); [contradiction|]. rewrite Hn in H.
  apply bind_ok in H as ([v l2] & H1 & H). apply bind_ok in H as ([[vs2 e2] l3] & H2 & H).
  change (mathSum n l = Ok (v, l2)) in H1. change (argsLoop n name l2 = Ok (vs2, e2, l3)) in H2.
  assert (X : mathSum m l = mathSum n l).
  { destruct (Nat.le_ge_cases n m) as [Hle|Hle].
    - destruct (value_mono n m Hle) as (_ & _ & _ & M & _). destruct (M l) as [X|X]; congruence.
    - destruct (value_mono m n Hle) as (_ & _ & _ & M & _). destruct (M l) as [X|X]; congruence. }
  rewrite X, H1 in Hm. injection Hm as -> ->. apply (IH _ _ _ H2).
Qed.

Lemma teq_ne a b : teq a b = false -> a <> b.
Proof. unfold teq. destruct (token_eq_dec a b); congruence. Qed.
Lemma teq_eq a b : teq a b = true -> a = b.
Proof. unfold teq. destruct (token_eq_dec a b); congruence. Qed.

Lemma SA_step n : SV n -> SA n -> SM mathSum n -> SA (S n).
Proof.
  intros IV IA IM name l vs e l1 H. cbn [argsLoop] in H. destruct (teq (l_cur l) RParen) eqn:Er.
  { inv. auto. }
  destruct (teq (l_cur l) Comma) eqn:Ec.
  { inv. apply IA in Ha0 as [A1 A2]. split; [constructor; [exact I|auto]|intros Hm; constructor; auto]. }
  destruct (isMathName name) eqn:En.
  - inv. pose proof Ha as Hs. apply IM in Ha as [[-> ->]|Hv].
    + destruct (args_stuck n name l En (teq_ne _ _ Er) (teq_ne _ _ Ec) Hs _ _ _ _ Ha0).
    + apply IA in Ha0 as [A1 A2]. split; [constructor; auto|congruence].
  - inv; auto. apply IA in Ha0 as [A1 A2]. apply IV in Ha as [[-> _]|[P1 P2]]; [discriminate|].
    split; [constructor; auto|]. intros _. constructor; auto.
Qed.

Lemma SMN_step n : SV n -> SM mathSum n -> SM mathParen (S n).
Proof.
  intros IV IM l v l1 H. cbn [mathParen] in H. destruct (negb _) in H.
  - apply IV in H as [H|H]; [auto|right; apply H].
  - inv. right. cbn. apply IM in Ha0 as [[-> _]|Ha0]; auto.
Qed.
Lemma curDelim_In l ops : curDelim l ops = true -> In (l_str l) ops.
Proof. unfold curDelim. intros H. apply Bool.andb_true_iff in H as [_ H]. apply bmem_In; auto. Qed.
Lemma SL_prod n : SM mathParen n -> SL mathProductLoop n -> SL mathProductLoop (S n).
Proof.
  intros IP IL lhs l v l1 H. cbn [mathProductLoop] in H. destruct (curDelim l _) eqn:Ec; [|inv; auto].
  inv. apply joinSpan_ok in Ha1 as [N1 N2]. apply IL in H as [_ H]. split; [congruence|].
  intros Hs. apply H. cbn. apply IP in Ha0 as [[Hr _]|Ha0]; [congruence|].
  apply curDelim_In in Ec. cbn in Ec. cbn. tauto.
Qed.
Lemma SL_sum n : SM mathProduct n -> SL mathSumLoop n -> SL mathSumLoop (S n).
Proof.
  intros IP IL lhs l v l1 H. cbn [mathSumLoop] in H. destruct (curDelim l _) eqn:Ec; [|inv; auto].
  inv. apply joinSpan_ok in Ha1 as [N1 N2]. apply IL in H as [_ H]. split; [congruence|].
  intros Hs. apply H. cbn. apply IP in Ha0 as [[Hr _]|Ha0]; [congruence|].
  apply curDelim_In in Ec. cbn in Ec. cbn. tauto.
Qed.
Lemma SM_prod n : SM mathParen n -> SL mathProductLoop n -> SM mathProduct (S n).
Proof.
  intros IP IL l v l1 H. cbn [mathProduct] in H. inv. apply IL in H as [H1 H2].
  apply IP in Ha as [[-> ->]|Ha]; auto.
Qed.
Lemma SM_sum n : SM mathProduct n -> SL mathSumLoop n -> SM mathSum (S n).
Proof.
  intros IP IL l v l1 H. cbn [mathSum] in H. inv. apply IL in H as [H1 H2].
  apply IP in Ha as [[-> ->]|Ha]; auto.
Qed.
Lemma sound_all n : SV n /\ SB n /\ SA n /\ SM mathSum n /\ SL mathSumLoop n /\ SM mathProduct n /\ SL mathProductLoop n /\ SM mathParen n.
Proof.
  induction n as [|n (I1 & I2 & I3 & I4 & I5 & I6 & I7 & I8)].
  - repeat split; intros; discriminate.
  - split; [apply SV_step|split; [apply SB_step|split; [apply SA_step|split; [apply SM_sum|split; [apply SL_sum|split; [apply SM_prod|split; [apply SL_prod|apply SMN_step]]]]]]]; auto.
Qed.
Lemma value_sound n l v l1 : parseValue n l = Ok (v, l1) -> v = VNil /\ l1 = l \/ plainValue v.
Proof. apply (sound_all n). Qed.
Lemma value_opt n l v l1 : parseValue n l = Ok (v, l1) -> optValue v.
Proof. intros H. apply value_sound in H as [[-> _]|H]; [left|right]; auto. Qed.

(** * Declarations *)
Lemma declLoop_sound n : forall le de imp l vs e im l1, declLoop n le de imp l = Ok (vs, e, im, l1) ->
  Forall plainValue vs /\ (le = None -> vs <> []).
Proof.
  induction n as [|n IH]; intros le de imp l vs e im l1 H; cbn [declLoop] in H; [discriminate|].
  assert (Hval : ('(v, l1) <- parseValue n l ;;
      match valueSpan v with
      | None =>
        match le with
        | None => errorf l1 (B "declaration must have a value")
        | Some e => Ok ([], (if (de <? e)%nat then e else de), imp, l1)
        end
      | Some sp =>
        '(vs, e, im, l2) <- declLoop n (Some (sp_end sp)) de imp l1 ;;
        Ok (v :: vs, e, im, l2)
      end) = Ok (vs, e, im, l1) -> Forall plainValue vs /\ (le = None -> vs <> [])).
  { clear H. intros H. inv. destruct (valueSpan v) eqn:Ev.
    - inv. apply IH in Ha0 as [A1 _]. split; [|congruence]. constructor; auto.
      apply value_sound in Ha as [[-> _]|Ha]; [discriminate|auto].
    - destruct le; inv. split; auto. congruence. }
  destruct (l_cur l); auto; inv.
  - apply IH in Ha0 as [A1 _]. split; [|congruence]. constructor; auto. split; [exact I|reflexivity].
  - apply IH in Ha0 as [A1 _]. split; [|congruence]. constructor; auto. split; [exact I|reflexivity].
  - apply IH in H. auto.
Qed.
Lemma decl_sound n l d l1 : parseDeclaration n l = Ok (d, l1) -> soundDecl d.
Proof.
  unfold parseDeclaration. intros H. inv; cbn;
    match goal with X : declLoop _ _ _ _ _ = Ok _ |- _ => apply declLoop_sound in X as [A1 A2] end; auto.
Qed.
Lemma fallback_sound n l d l1 : parseDeclarationOrFallback n l = Ok (d, l1) -> soundDecl d.
Proof.
  unfold parseDeclarationOrFallback. destruct (parseDeclaration n l) as [[d0 l2]|p lines|] eqn:E; intros H.
  - okinj H. eapply decl_sound; eauto.
  - unfold parseRaw in H. inv. exact I.
  - discriminate.
Qed.
Lemma declBlock_sound n : forall l ds e l1, declBlockLoop n l = Ok (ds, e, l1) -> Forall soundDecl ds.
Proof.
  induction n as [|n IH]; intros l ds e l1 H; cbn [declBlockLoop] in H; [discriminate|].
  destruct (teq (l_cur l) RCurly); [inv; auto|]. apply bind_ok in H as ([d l2] & H1 & H).
  apply bind_ok in H as (l3 & H2 & H). inv; constructor; eauto using fallback_sound.
Qed.
Lemma block_sound n l sp ds l1 : parseDeclarationBlock n l = Ok (sp, ds, l1) -> Forall soundDecl ds /\ sp_start sp = l_start l.
Proof. unfold parseDeclarationBlock. intros H. inv. split; [eapply declBlock_sound; eauto|reflexivity]. Qed.

(** * Selectors *)
Lemma keyLoop_sound n : forall l ks l1, keyLoop n l = Ok (ks, l1) -> ks <> [] /\ Forall soundKey ks.
Proof.
  induction n as [|n IH]; intros l ks l1 H; cbn [keyLoop] in H; [discriminate|].
  destruct (teq (l_cur l) EOF); [discriminate|]. apply bind_ok in H as (k & Hk & H).
  assert (Hs : soundKey k).
  { clear H. destruct (l_cur l); try discriminate Hk; inv; try exact I. cbn.
    apply Bool.andb_false_iff in Heqb as [X|X]; apply Bool.negb_false_iff, beq_eq in X; auto. }
  inv; (split; [discriminate|]); constructor; auto. apply IH in Ha1. apply Ha1.
Qed.
Lemma anb_sound l a l1 : parseANPlusB l = Ok (a, l1) -> soundArgs a.
Proof. unfold parseANPlusB. intros H. apply bind_ok in H as ([[[[? ?] ?] ?] ?] & _ & H). apply bind_ok in H as ([[[? ?] ?] ?] & _ & H). inv. exact I. Qed.
Lemma attr_sound n l p l1 : parseAttributeSelector n l = Ok (p, l1) -> soundPart p.
Proof.
  unfold parseAttributeSelector. intros H. cbv zeta in H. apply bind_ok in H as (l2 & _ & H). apply bind_ok in H as (l3 & _ & H).
  destruct (teq (l_cur l3) RBracket).
  { inv. cbn. split; [left; auto|]. auto. }
  apply bind_ok in H as ([pre l4] & Hpre & H).
  assert (Hp : In pre [[]; B "^"; B "~"; B "$"; B "*"; B "|"]).
  { clear H. destruct (bmem _ _) eqn:Em; inv; [|left; auto]. right. apply bmem_In. exact Em. }
  clear Hpre. apply bind_ok in H as ([v l5] & Hv & H). apply value_opt in Hv. destruct (isNil v); [discriminate|].
  destruct (_ && _) eqn:Em; inv; cbn [soundPart]; (split; [exact Hv|]); (split; [exact Hp|]); [|left; auto].
  apply Bool.andb_true_iff in Em as [_ Em]. apply Bool.orb_true_iff in Em as [Em|Em]; apply beq_eq in Em; rewrite Em; cbn; auto.
Qed.

Definition SS n := forall l s l1, parseSelectorList n l = Ok (s, l1) -> soundList s.
Definition SSL n := forall l s l1, selListLoop n l = Ok (s, l1) -> s <> [] /\ Forall soundSelector s.
Definition SS1 n := forall l s l1, parseSelector n l = Ok (s, l1) -> soundSelector s.
Definition SP n := forall le l ps e l1, partsLoop n le l = Ok (ps, e, l1) -> Forall soundPart ps /\ (le = None -> ps <> []).
Lemma selectors_sound n : SS n /\ SSL n /\ SS1 n /\ SP n.
Proof.
  induction n as [|n (I1 & I2 & I3 & I4)]; [repeat split; intros; discriminate|].
  split; [|split; [|split]].
  - intros l s l1 H. cbn [parseSelectorList] in H. inv. apply I2 in Ha. exact Ha.
  - intros l s l1 H. cbn [selListLoop] in H. inv.
    + apply I3 in Ha. apply I2 in Ha1. split; [discriminate|]. constructor; tauto.
    + apply I3 in Ha. split; [discriminate|]. auto.
  - intros l s l1 H. cbn [parseSelector] in H. inv. apply I4 in Ha as [A1 A2]. split; cbn; auto.
  - intros le l ps e l1 H. cbn [partsLoop] in H. cbv zeta in H.
    assert (Hcont : forall p l2, soundPart p ->
      ('(ps, e, l2) <- partsLoop n (Some (sp_end (partSpan p))) l2 ;; Ok (p :: ps, e, l2)) = Ok (ps, e, l1) ->
      Forall soundPart ps /\ (le = None -> ps <> [])).
    { clear H. intros p l2 Hp H. apply bind_ok in H as ([[ps2 e2] l3] & H1 & H). apply I4 in H1 as [H1 _].
      inv. split; [constructor; auto|discriminate]. }
    assert (Hdef : match le with None => errorf l (B "expected selector") | Some e => Ok (@nil selpart, e, l) end = Ok (ps, e, l1) ->
      Forall soundPart ps /\ (le = None -> ps <> [])).
    { clear H. intros H. destruct le; [|discriminate]. inv. split; [auto|discriminate]. }
    destruct (l_cur l) eqn:Ec; try exact (Hdef H); try discriminate H;
      try (apply bind_ok in H as (l2 & H1 & H); apply Hcont in H; [exact H|exact I]).
    + apply bind_ok in H as (l2 & _ & H). apply bind_ok in H as (l3 & _ & H).
      apply bind_ok in H as ([[args e2] l4] & Ha & H).
      assert (Hs : soundArgs args).
      { destruct (l_cur l3); try discriminate Ha; [|apply bind_ok in Ha as (l5 & _ & Ha); okinj Ha; exact I].
        apply bind_ok in Ha as (l5 & _ & Ha). apply bind_ok in Ha as ([args2 l6] & Hb & Ha).
        assert (soundArgs args2).
        { destruct (isNthName _).
          - destruct (l_cur l5); try (inv; exact I); try (eapply anb_sound; eauto; fail).
            destruct (_ || _); [eapply anb_sound; eauto|]. inv. exact I.
          - apply bind_ok in Hb as ([[slsp sels] l7] & Hb & Hc). apply I1 in Hb. inv. exact Hb. }
        clear Hb Hcont Hdef H. inv; auto. }
      destruct (soundPart_pseudo args Hs) as [S1 S2]. apply Hcont in H; [exact H|].
      destruct (teq (l_cur l2) Colon); auto.
    + apply bind_ok in H as ([p l2] & H1 & H). apply attr_sound in H1. apply Hcont in H; auto.
    + destruct (beq (l_str l) (B ".")).
      { apply bind_ok in H as (l2 & _ & H). apply bind_ok in H as (l3 & _ & H). apply Hcont in H; [exact H|exact I]. }
      destruct (bmem _ _) eqn:Em.
      { apply bind_ok in H as (l2 & _ & H). apply Hcont in H; [exact H|]. apply bmem_In in Em. exact Em. }
      destruct (beq _ _); [|discriminate]. apply bind_ok in H as (l2 & _ & H). apply Hcont in H; [exact H|exact I].
Qed.

(** * Rules *)
Section Run.
Variable run : nat.
Definition soundPrelude (k : bool) (pr : prelude) : Prop :=
  match pr with PrSel l => k = false /\ soundList l | PrKey _ ks => k = true /\ ks <> [] /\ Forall soundKey ks | PrNil => False end.
Lemma qrule_sound n : forall k st pr l r l1, qruleLoop run n k st pr l = Ok (r, l1) ->
  (pr = PrNil /\ st = l_start l \/ soundPrelude k pr) -> soundRule k r /\ r_run r = run /\ sp_start (r_sp r) = st.
Proof.
  induction n as [|n IH]; intros k st pr l r l1 H Hpr; cbn [qruleLoop] in H; [discriminate|].
  assert (Hdef : (if k then '(pr1, l1) <- parseKeyframeSelectorList n l ;; qruleLoop run n k st pr1 l1
     else '(sl, l1) <- parseSelectorList n l ;; qruleLoop run n k st (PrSel sl) l1) = Ok (r, l1) ->
     soundRule k r /\ r_run r = run /\ sp_start (r_sp r) = st).
  { clear H. intros H. destruct k.
    - apply bind_ok in H as ([pr1 l2] & H1 & H). apply IH in H; auto. right.
      unfold parseKeyframeSelectorList in H1. inv. apply keyLoop_sound in Ha as [A1 A2]. split; auto.
    - apply bind_ok in H as ([sl l2] & H1 & H). apply IH in H; auto. right.
      destruct (selectors_sound n) as [Ss _]. exact (conj eq_refl (Ss _ _ _ H1)). }
  destruct (l_cur l); try exact (Hdef H); try discriminate H.
  apply bind_ok in H as ([[bsp ds] l2] & H1 & H). apply block_sound in H1 as [B1 B2]. inv.
  split; [|split; reflexivity]. split; [|exact B1]. cbn. destruct Hpr as [[-> ->]|Hpr]; [symmetry; exact B2|].
  destruct pr; cbn in Hpr; auto. contradiction.
Qed.
Lemma rule_sound n k l r l1 : parseQualifiedRule run n k l = Ok (r, l1) ->
  soundRule k r /\ r_run r = run /\ sp_start (r_sp r) = l_start l.
Proof. unfold parseQualifiedRule. intros H. eapply qrule_sound in H; [exact H|]. left. auto. Qed.
Lemma rules_sound n : forall k l rs e l1, rulesLoop run n k l = Ok (rs, e, l1) -> Forall (soundRule k) rs.
Proof.
  induction n as [|n IH]; intros k l rs e l1 H; cbn [rulesLoop] in H; [discriminate|].
  assert (Hdef : ('(r, l1) <- parseQualifiedRule run n k l ;;
      '(rs, e, l2) <- rulesLoop run n k l1 ;; Ok (r :: rs, e, l2)) = Ok (rs, e, l1) -> Forall (soundRule k) rs).
  { clear H. intros H. apply bind_ok in H as ([r l2] & H1 & H). apply bind_ok in H as ([[rs2 e2] l3] & H2 & H). inv.
    constructor; [eapply rule_sound; eauto|eauto]. }
  destruct (l_cur l); try exact (Hdef H); try discriminate H. inv. constructor.
Qed.

Lemma rangeOp_sound l op l1 : parseMediaRangeOperator l = Ok (op, l1) -> In op [B "<"; B "<="; B ">"; B ">="].
Proof. unfold parseMediaRangeOperator. intros H. cbv zeta in H. inv; cbn; auto. Qed.
Lemma feature_sound n l p l1 : parseMediaFeature n l = Ok (p, l1) -> soundQueryPart p.
Proof.
  unfold parseMediaFeature. intros H. cbv zeta in H. apply bind_ok in H as (l2 & _ & H).
  apply bind_ok in H as ([first l3] & H1 & H). apply value_opt in H1. destruct (l_cur l3); try discriminate H.
  - apply bind_ok in H as (l4 & _ & H). destruct first; try discriminate H.
    apply bind_ok in H as ([second l5] & H2 & H). apply value_opt in H2. inv. exact H2.
  - apply bind_ok in H as (l4 & _ & H). destruct first; try discriminate H. inv. left; auto.
  - apply bind_ok in H as ([op l4] & H2 & H). apply rangeOp_sound in H2. apply bind_ok in H as ([second l5] & H3 & H).
    apply value_opt in H3.
    assert (Hrest : match first with
      | VIdent isp prop =>
        l5' <- expect RParen l5 ;;
        Ok (MRange (mkSpan (sp_start (tokenSpan l)) (tokenEnd l5)) isp prop VNil op second, l5')
      | _ => errorf l5 (B "expected identifier")
      end = Ok (p, l1) -> soundQueryPart p).
    { clear H. intros H. destruct first; try discriminate H. inv. cbn. split; auto. split; auto. left; auto. }
    destruct second; try exact (Hrest H).
    apply bind_ok in H as ([rhs l6] & H4 & H).
    assert (optValue rhs).
    { destruct (teq _ _) in H4; [|inv; left; auto]. apply bind_ok in H4 as ([op2 l7] & _ & H4).
      destruct (negb _) in H4; [discriminate|]. eapply value_opt; eauto. }
    clear H4 Hrest. inv. cbn [soundQueryPart]. auto.
Qed.
Lemma mqParts_sound n : forall l ps l1, mqPartsLoop n l = Ok (ps, l1) -> Forall soundQueryPart ps.
Proof.
  induction n as [|n IH]; intros l ps l1 H; cbn [mqPartsLoop] in H; [discriminate|].
  destruct (l_cur l); try (apply ok_inj in H; inversion H; constructor; fail); try discriminate H.
  - apply bind_ok in H as ([p l2] & H1 & H). apply bind_ok in H as ([ps2 l3] & H2 & H). inv.
    constructor; [eapply feature_sound|]; eauto.
  - apply bind_ok in H as (l2 & _ & H). apply bind_ok in H as ([ps2 l3] & H2 & H). inv. constructor; [exact I|eauto].
Qed.
Lemma mqList_sound n : forall l qs l1, mqListLoop n l = Ok (qs, l1) -> Forall soundQuery qs.
Proof.
  induction n as [|n IH]; intros l qs l1 H; cbn [mqListLoop] in H; [discriminate|].
  destruct (teq (l_cur l) EOF); [discriminate|]. apply bind_ok in H as ([parts l2] & H1 & H).
  apply mqParts_sound in H1. cbv zeta in H.
  match goal with _ : context [if teq (l_cur l2) Comma then l3 <- next l2 ;; '(qs0, l4) <- mqListLoop n l3 ;; Ok (?h ++ qs0, l4) else _] |- _ =>
    assert (Hh : Forall soundQuery h) end.
  { destruct parts; [constructor|]. constructor; [|constructor]. split; [discriminate|exact H1]. }
  destruct (teq (l_cur l2) Comma); inv; auto. apply Forall_app. split; eauto.
Qed.
Lemma mql_sound n l q l1 : parseMediaQueryList n l = Ok (Some q, l1) -> soundQueries q.
Proof.
  unfold parseMediaQueryList. intros H. cbv zeta in H. apply bind_ok in H as ([qs l2] & H1 & H). apply mqList_sound in H1.
  destruct qs; inv. split; [discriminate|exact H1].
Qed.

Ltac other := intros X; exfalso; try (cbn in X; intuition congruence).
Lemma at_sound n l nd is l1 : parseAtRule run n l = Ok (nd, is, l1) ->
  soundNode nd /\ importOf nd = is /\ nodeId nd = (run, l_start l).
Proof.
  unfold parseAtRule. intros H.
  destruct (beq (l_str l) (B "import")) eqn:E1.
  { apply beq_eq in E1. apply bind_ok in H as ([[a i] l2] & H1 & H). inv. unfold parseImportAtRule in H1. cbv zeta in H1.
    apply bind_ok in H1 as (l3 & _ & H1). apply bind_ok in H1 as ([[psp target] l4] & _ & H1).
    apply bind_ok in H1 as ([mq l5] & H2 & H1).
    assert (Hq : forall q, mq = Some q -> soundQueries q) by (intros q ->; eapply mql_sound; eauto).
    rewrite E1 in H1.
    destruct mq as [q|]; okinj H1; (split; [|split; reflexivity]); cbn [soundNode]; unfold soundAt; cbn [ar_name ar_preludes ar_block];
      (split; [|split; [other|split; [other|split; [other|intros X; exfalso; apply X; left; reflexivity]]]]); intros _; split; auto.
    - exists psp, target, [APMql q]. split; auto. right. exists q. auto.
    - exists psp, target, []. auto. }
  destruct (beq (l_str l) (B "media")) eqn:E2.
  { apply beq_eq in E2. apply bind_ok in H as ([a l2] & H1 & H). inv. unfold parseMediaAtRule in H1. cbv zeta in H1.
    apply bind_ok in H1 as (l3 & _ & H1). apply bind_ok in H1 as ([mq l4] & H2 & H1).
    apply bind_ok in H1 as (l5 & _ & H1). apply bind_ok in H1 as ([[rs e] l6] & H3 & H1). apply rules_sound in H3.
    rewrite E2 in H1. okinj H1. split; [|split; reflexivity]. cbn [soundNode]; unfold soundAt; cbn [ar_name ar_preludes ar_block].
    split; [other|]. split; [other|]. split; [|split; [other|intros X; exfalso; apply X; right; left; reflexivity]].
    intros _. split; [|eexists; eexists; split; [reflexivity|auto]].
    destruct mq as [q|]; auto. right. exists q. split; auto. eapply mql_sound; eauto. }
  destruct (bmem (l_str l) _) eqn:E3.
  { apply bmem_In in E3. apply bind_ok in H as ([a l2] & H1 & H). inv. unfold parseKeyframes in H1. cbv zeta in H1.
    apply bind_ok in H1 as (l3 & _ & H1). apply bind_ok in H1 as (pre & H2 & H1). apply bind_ok in H1 as (l4 & _ & H1).
    apply bind_ok in H1 as (l5 & _ & H1). apply bind_ok in H1 as ([[rs e] l6] & H3 & H1). apply rules_sound in H3.
    okinj H1.
    assert (X1 : l_str l <> B "import") by (intros X; rewrite X in E3; cbn in E3; intuition congruence).
    assert (X2 : l_str l <> B "media") by (intros X; rewrite X in E3; cbn in E3; intuition congruence).
    assert (X3 : l_str l <> B "custom-media") by (intros X; rewrite X in E3; cbn in E3; intuition congruence).
    split; [|split; [|reflexivity]].
    2:{ unfold importOf; cbn [ar_name]. apply beq_neq in X1. rewrite X1. reflexivity. }
    cbn [soundNode]; unfold soundAt; cbn [ar_name ar_preludes ar_block].
    split; [congruence|]. split; [congruence|]. split; [congruence|]. split.
    - intros _. split; [|eexists; eexists; split; [reflexivity|auto]].
      destruct (l_cur l3); try discriminate H2; okinj H2; eexists; eexists; eauto.
    - intros X. exfalso. apply X. unfold knownAtRule. cbn in E3. cbn. tauto. }
  destruct (beq (l_str l) (B "custom-media")) eqn:E4.
  { apply beq_eq in E4. apply bind_ok in H as ([a l2] & H1 & H). inv. unfold parseCustomMediaAtRule in H1. cbv zeta in H1.
    apply bind_ok in H1 as (l3 & _ & H1). apply bind_ok in H1 as ([nm l4] & _ & H1). destruct nm; try discriminate H1.
    apply bind_ok in H1 as ([mq l5] & H2 & H1). destruct mq as [[qsp qs]|]; [|discriminate].
    destruct qs as [|q [|q2 qs]]; try discriminate H1. apply mql_sound in H2 as [_ H2]. cbn [snd] in H2.
    rewrite E4 in H1. okinj H1. split; [|split; reflexivity]. cbn [soundNode]; unfold soundAt; cbn [ar_name ar_preludes ar_block].
    split; [other|]. split; [|split; [other|split; [other|intros X; exfalso; apply X; do 5 right; left; reflexivity]]].
    intros _. split; auto. eexists; eexists; eexists. split; [reflexivity|]. inversion H2; auto. }
  apply bind_ok in H as ([a l2] & H1 & H). inv. unfold parseGenericAtRule in H1. cbv zeta in H1.
  apply bind_ok in H1 as (l3 & _ & H1). apply bind_ok in H1 as ([[bsp ds] l4] & H2 & H1). apply block_sound in H2 as [H2 _].
  okinj H1. split; [|split; [|reflexivity]].
  2:{ unfold importOf; cbn [ar_name]. rewrite E1. reflexivity. }
  assert (Hm : forall s, l_str l = s -> beq (l_str l) s = true) by (intros; apply beq_eq; auto).
  cbn [soundNode]; unfold soundAt; cbn [ar_name ar_preludes ar_block].
  split; [intros X; apply Hm in X; congruence|]. split; [intros X; apply Hm in X; congruence|]. split; [intros X; apply Hm in X; congruence|].
  split; [intros X; apply bmem_In in X; congruence|].
  intros _. split; auto. eexists; eexists; split; [reflexivity|auto].
Qed.

Lemma parseLoop_sound n : forall l nds is l1, parseLoop run n l = Ok (nds, is, l1) ->
  Forall soundNode nds /\ flat_map importOf nds = is /\ Forall (fun nd => fst (nodeId nd) = run) nds.
Proof.
  induction n as [|n IH]; intros l nds is l1 H; cbn [parseLoop] in H; [discriminate|].
  assert (Hdef : ('(r, l1) <- parseQualifiedRule run n false l ;;
      '(nds, iss, l2) <- parseLoop run n l1 ;; Ok (NRule r :: nds, iss, l2)) = Ok (nds, is, l1) ->
      Forall soundNode nds /\ flat_map importOf nds = is /\ Forall (fun nd => fst (nodeId nd) = run) nds).
  { clear H. intros H. apply bind_ok in H as ([r l2] & H1 & H). apply bind_ok in H as ([[rs2 e2] l3] & H2 & H). inv.
    apply rule_sound in H1 as (R1 & R2 & _). apply IH in H2 as (A1 & A2 & A3). split; [constructor; auto|]. split; auto. }
  assert (Hskip : (l2 <- next l ;; parseLoop run n l2) = Ok (nds, is, l1) ->
      Forall soundNode nds /\ flat_map importOf nds = is /\ Forall (fun nd => fst (nodeId nd) = run) nds).
  { clear H. intros H. apply bind_ok in H as (l2 & _ & H). eauto. }
  destruct (l_cur l); try exact (Hdef H); try exact (Hskip H).
  - inv. split; [constructor|split; [reflexivity|constructor]].
  - apply bind_ok in H as ([[nd i2] l2] & H1 & H). apply bind_ok in H as ([[nds2 is2] l3] & H2 & H). inv.
    apply at_sound in H1 as (S1 & S2 & S3). apply IH in H2 as (A1 & A2 & A3).
    split; [constructor; auto|]. split; [cbn; congruence|]. constructor; auto. rewrite S3. reflexivity.
Qed.
End Run.
End WithUnicode.
