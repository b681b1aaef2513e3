(** The grammar on tokens that are elsewhere. *)
From Verif Require Import Bytes Utf8 Source Lexer LexSpec Ast ReadSpec ReadProofs FullValue FullSel JoinSpec JoinTokens.

Section WithUnicode.
Context {U : UnicodeDigits}.
Local Existing Instance noLiberties.
Variable k : shift.
Hypothesis k_max : forall a b, sh_upto k (Nat.max a b) = Nat.max (sh_upto k a) (sh_upto k b).
Local Notation mSpan := (moveSpan k). Local Notation mValue := (moveValue k).

(** * Tokens and spans *)
Lemma mvs_app a : forall b c, mvs k (a ++ b) c -> exists c1 c2, c = c1 ++ c2 /\ mvs k a c1 /\ mvs k b c2.
Proof.
  induction a as [|x a IH]; intros b c H; [exists [], c; repeat split; auto; constructor|].
  cbn [app] in H. inversion H as [|x' y ts ts' Mx Mh Ms]; subst. destruct (IH _ _ Ms) as (c1 & c2 & -> & M1 & M2).
  exists (y :: c1), c2. repeat split; auto. constructor; auto.
  destruct a as [|z a]; [exact I|]. inversion M1; subst. exact Mh.
Qed.
Lemma mv_is b t x y : mv k x y -> isK b t x -> isK b t y.
Proof. intros M [H1 H2]. split; [rewrite (mv_tok _ _ _ M)|rewrite (mv_kept _ _ _ M)]; auto. Qed.
Lemma move_pos sp : (0 < sp_end sp)%nat -> mSpan sp = mkSpan (sh_from k (sp_start sp)) (sh_upto k (sp_end sp)).
Proof. unfold moveSpan. destruct (Nat.eqb_spec (sp_end sp) 0); [lia|reflexivity]. Qed.
Lemma mv_span x y : mv k x y -> k_tok x <> EOF -> mSpan (k_sp x) = k_sp y.
Proof. intros M N. rewrite move_pos by (apply (mv_end _ _ _ M N)). symmetry. apply (mv_sp _ _ _ M). Qed.
Lemma mv_from x y : mv k x y -> from y = (sh_from k (from x)).
Proof. intros M. unfold from at 1. rewrite (mv_sp _ _ _ M). reflexivity. Qed.
Lemma mv_upto x y : mv k x y -> upto y = (sh_upto k (upto x)).
Proof. intros M. unfold upto at 1. rewrite (mv_sp _ _ _ M). reflexivity. Qed.
Lemma mv_across x y x' y' : mv k x x' -> mv k y y' -> k_tok y <> EOF -> mSpan (across x y) = across x' y'.
Proof.
  intros M M' N. rewrite move_pos by (apply (mv_end _ _ _ M' N)). unfold across. rewrite (mv_from _ _ M), (mv_upto _ _ M'). reflexivity.
Qed.
Lemma mv_first ts ts' : mvs k ts ts' -> ts <> [] -> firstFrom ts' = (sh_from k (firstFrom ts)).
Proof. intros M N. destruct M as [|x y ts ts' Mx _ _]; [contradiction|]. apply mv_from, Mx. Qed.
Lemma mvs_nil ts' : mvs k [] ts' -> ts' = [].
Proof. intros H. inversion H. reflexivity. Qed.

Definition posSpan (sp : span) : Prop := (0 < sp_end sp)%nat.
Lemma hd_move sps : sps <> [] -> Forall posSpan sps -> sp_start (hd (mkSpan 0 0) (map mSpan sps)) = (sh_from k (sp_start (hd (mkSpan 0 0) sps))).
Proof. destruct sps as [|s sps]; [contradiction|]. intros _ F. inversion F; subst. cbn [map hd]. rewrite move_pos by auto. reflexivity. Qed.
Lemma last_pos sps : sps <> [] -> Forall posSpan sps -> posSpan (last sps (mkSpan 0 0)).
Proof. induction sps as [|s [|t sps] IH]; intros N F; [contradiction| |]; inversion F; subst; [auto|]. apply IH; [discriminate|auto]. Qed.
Lemma last_move sps : sps <> [] -> Forall posSpan sps -> sp_end (last (map mSpan sps) (mkSpan 0 0)) = (sh_upto k (sp_end (last sps (mkSpan 0 0)))).
Proof.
  induction sps as [|s [|t sps] IH]; intros N F; [contradiction| |]; inversion F; subst.
  - cbn [map last]. rewrite move_pos by auto. reflexivity.
  - change (last (map mSpan (s :: t :: sps)) (mkSpan 0 0)) with (last (map mSpan (t :: sps)) (mkSpan 0 0)). apply IH; [discriminate|auto].
Qed.
Lemma spanning_move sps : sps <> [] -> Forall posSpan sps -> mSpan (spanning sps) = spanning (map mSpan sps) /\ posSpan (spanning sps).
Proof.
  intros N F. pose proof (last_pos _ N F) as L. split; [|exact L]. rewrite move_pos by exact L. unfold spanning. rewrite hd_move, last_move by auto. reflexivity.
Qed.

(** Everything about a token of known kind. *)
Ltac tok M :=
  match type of M with mv k ?x ?y =>
    match goal with
    | H : is ?t x |- _ => change (isK false t x) in H
    | _ => idtac
    end;
    match goal with
    | H : isK ?b ?t x |- _ =>
      let H' := fresh "T" in let E := fresh "E" in
      pose proof (mv_is b t x y M H) as H';
      assert (E : k_tok x <> EOF) by (destruct H as [H _]; rewrite H; discriminate);
      pose proof (mv_span x y M E); pose proof (mv_end k x y M E);
      try (assert (k_str y = k_str x) by (apply (mv_str k x y M); destruct H as [H _]; rewrite H; reflexivity));
      try (assert (k_num y = k_num x) by (apply (mv_num k x y M); destruct H as [H _]; rewrite H; reflexivity));
      pose proof (mv_upto x y M); pose proof (mv_from x y M)
    end
  end.
Ltac cut1 M := let Mx := fresh "Mx" in let Mh := fresh "Mh" in inversion M as [|? ? ? ? Mx Mh ?]; subst; clear M; try tok Mx.
Ltac cutA M := let c1 := fresh "c" in let c2 := fresh "d" in let M1 := fresh "M" in let M2 := fresh "M" in
  apply mvs_app in M as (c1 & c2 & -> & M1 & M2).
Ltac cuts := repeat match goal with
  | M : mvs k (_ :: _) _ |- _ => cut1 M
  | M : mvs k [] _ |- _ => apply mvs_nil in M; subst
  | M : mvs k (_ ++ _) _ |- _ => cutA M
  end.
Ltac same := repeat match goal with
  | H : k_str ?y = k_str ?x |- _ => progress (rewrite <- H in * ); clear H
  | H : k_num ?y = k_num ?x |- _ => progress (rewrite <- H in * ); clear H
  | H : mSpan (k_sp ?x) = k_sp ?y |- _ => progress (rewrite H in * ); clear H
  end.

(** * Values *)
Definition spanned (v : value) : Prop := exists sp, valueSpan v = Some sp /\ posSpan sp.
Lemma span_move v sp : valueSpan v = Some sp -> valueSpan (mValue v) = Some (mSpan sp).
Proof. destruct v; cbn; intros E; try discriminate; injection E as <-; reflexivity. Qed.
Definition PV (ts : list tk) (v : value) : Prop := forall ts', mvs k ts ts' -> gValue ts' (mValue v) /\ spanned v.
Definition PVs (G : list tk -> list value -> Prop) (ts : list tk) (vs : list value) : Prop := forall ts', mvs k ts ts' -> G ts' (map mValue vs).
Definition PO (G : list tk -> value -> Prop) (ts : list tk) (v : value) : Prop := forall ts', mvs k ts ts' -> G ts' (mValue v) /\ spanned v.
Ltac spd := eexists; split; [reflexivity|]; unfold posSpan; try assumption.
Lemma op_move a b spa spb : valueSpan a = Some spa -> valueSpan b = Some spb -> spanned a -> spanned b ->
  mSpan (mkSpan (sp_start spa) (sp_end spb)) = mkSpan (sp_start (mSpan spa)) (sp_end (mSpan spb)) /\ posSpan (mkSpan (sp_start spa) (sp_end spb)).
Proof.
  intros Ea Eb (sa & Ea' & Pa) (sb & Eb' & Pb). rewrite Ea in Ea'. rewrite Eb in Eb'. injection Ea' as <-. injection Eb' as <-.
  split; [|exact Pb]. rewrite (move_pos spa), (move_pos spb), move_pos by auto. reflexivity.
Qed.
Lemma values_moved :
  (forall ts v, gValue ts v -> PV ts v) /\ (forall ts vs, gValues ts vs -> PVs gValues ts vs) /\
  (forall ts vs, gArgs ts vs -> PVs gArgs ts vs) /\ (forall ts vs, gMathArgs ts vs -> PVs gMathArgs ts vs) /\
  (forall ts v, gSum ts v -> PO gSum ts v) /\ (forall ts v, gProduct ts v -> PO gProduct ts v) /\
  (forall ts v, gOperand ts v -> PO gOperand ts v).
Proof.
  apply values_m.
  - intros x H ts' M. cuts. split; [|spd]. cbn [moveValue]. same. apply gDim; auto.
  - intros x H ts' M. cuts. split; [|spd]. cbn [moveValue]. same. apply gPercent; auto.
  - intros x H ts' M. cuts. split; [|spd]. cbn [moveValue]. same. apply gNumber; auto.
  - intros x H ts' M. cuts. split; [|spd]. cbn [moveValue]. same. apply gIdent; auto.
  - intros x H ts' M. cuts. split; [|spd]. cbn [moveValue]. same. apply gHex; auto.
  - intros x H ts' M. cuts. split; [|spd]. cbn [moveValue]. same. apply gString; auto.
  - intros x H ts' M. cuts. split; [|spd]. cbn [moveValue map]. same. apply gUrl; auto.
  - intros x ts vs y Hx _ IH Hy ts' M. cuts. split; [|spd]. cbn [moveValue]. erewrite mv_across by eauto. apply gBrackets; auto.
  - intros x ts vs y Hx Hm _ IH Hy ts' M. cuts. split; [|spd]. cbn [moveValue]. erewrite mv_across by eauto. same. apply gMath; auto.
  - intros x ts vs y Hx Hm _ IH Hy ts' M. cuts. split; [|spd]. cbn [moveValue]. erewrite mv_across by eauto. same. apply gFunc; auto.
  - discriminate.
  - intros ts' M. cuts. constructor.
  - intros ts v ts2 vs _ IH _ IH2 ts' M. cuts. cbn [map]. apply gvCons; auto. apply IH; auto.
  - intros ts' M. cuts. constructor.
  - intros x ts vs Hx _ IH ts' M. cuts. cbn [map moveValue]. same. apply gaComma; auto.
  - intros ts v ts2 vs _ IH _ IH2 ts' M. cuts. cbn [map]. apply gaCons; auto. apply IH; auto.
  - intros ts' M. cuts. constructor.
  - intros x ts vs Hx _ IH ts' M. cuts. cbn [map moveValue]. same. apply gmComma; auto.
  - intros ts v ts2 vs _ IH _ IH2 ts' M. cuts. cbn [map]. apply gmCons; auto. apply IH; auto.
  - intros ts v _ IH ts' M. destruct (IH _ M). split; auto. apply gsProduct; auto.
  - intros ts a x ts2 b spa spb _ IHa Hx Hs _ IHb Ea Eb ts' M. cuts.
    destruct (IHa _ ltac:(eassumption)) as [Ga Sa], (IHb _ ltac:(eassumption)) as [Gb Sb]. destruct (op_move _ _ _ _ Ea Eb Sa Sb) as [E1 E2].
    split; [|spd]. cbn [moveValue]. rewrite E1. same. apply gsOp; auto using span_move.
  - intros ts v _ IH ts' M. destruct (IH _ M). split; auto. apply gpOperand; auto.
  - intros ts a x ts2 b spa spb _ IHa Hx Hs _ IHb Ea Eb ts' M. cuts.
    destruct (IHa _ ltac:(eassumption)) as [Ga Sa], (IHb _ ltac:(eassumption)) as [Gb Sb]. destruct (op_move _ _ _ _ Ea Eb Sa Sb) as [E1 E2].
    split; [|spd]. cbn [moveValue]. rewrite E1. same. apply gpOp; auto using span_move.
  - intros ts v _ IH ts' M. destruct (IH _ M). split; auto. apply goValue; auto.
  - intros x ts v y Hx _ IH Hy ts' M. cuts. split; [|spd]. cbn [moveValue]. erewrite mv_across by eauto. apply goParen; auto. apply IH; auto.
  - intros x y Hx Hy ts' M. cuts. split; [|spd]. cbn [moveValue]. erewrite mv_across by eauto. apply goEmpty; auto.
Qed.
Lemma value_moved ts v ts' : gValue ts v -> mvs k ts ts' -> gValue ts' (mValue v) /\ spanned v.
Proof. intros G. apply (proj1 values_moved _ _ G). Qed.
Lemma opt_moved ts v ts' : gOpt ts v -> mvs k ts ts' -> gOpt ts' (mValue v).
Proof.
  intros [[-> ->]|G] M; [apply mvs_nil in M; left; auto|right]. apply (value_moved _ _ _ G M).
Qed.

(** * Declarations *)
Lemma items_moved ts vs i : gItems ts vs i -> forall ts', mvs k ts ts' -> gItems ts' (map mValue vs) (option_map (sh_upto k) i) /\ Forall spanned vs.
Proof.
  induction 1 as [|ts v ts2 vs i G H IH|x ts vs i Hx H IH|x ts vs i Hx Hs H IH|x y ts vs i Hx Hs Hy Hi H IH]; intros ts' M.
  - cuts. split; constructor.
  - cuts. destruct (value_moved _ _ _ G ltac:(eassumption)) as [G' S']. destruct (IH _ ltac:(eassumption)). split; [|constructor; auto]. cbn [map]. apply giValue; auto.
  - cuts. destruct (IH _ ltac:(eassumption)). split; [|constructor; [spd|auto]]. cbn [map moveValue]. same. apply giComma; auto.
  - cuts. destruct (IH _ ltac:(eassumption)). split; [|constructor; [spd|auto]]. cbn [map moveValue]. same. apply giDelim; auto.
  - cut1 M. rename H0 into M. inversion M as [|? y' ? ? My Mh' Ms]; subst. destruct (IH _ Ms) as [G F]. split; [|exact F].
    assert (Sy : k_str y' = k_str y).
    { apply Mh. left. destruct Hx as [Hx _]. auto. }
    replace (option_map (sh_upto k) (Some (match i with Some e => e | None => upto y end)))
      with (Some (match option_map (sh_upto k) i with Some e => e | None => upto y' end)) by (destruct i; cbn; [reflexivity|rewrite (mv_upto _ _ My); reflexivity]).
    apply giImportant; auto; [congruence|rewrite (mv_kept _ _ _ My); auto|rewrite Sy; auto].
Qed.
Lemma valuesEnd_move vs : vs <> [] -> Forall spanned vs -> valuesEnd (map mValue vs) = (sh_upto k (valuesEnd vs)) /\ (0 < valuesEnd vs)%nat.
Proof.
  unfold valuesEnd. induction vs as [|v [|w vs] IH]; intros N F; [contradiction| |]; inversion F as [|? ? (sp & E & P) F']; subst.
  - cbn [map last]. rewrite (span_move _ _ E), E, move_pos by auto. auto.
  - apply IH; [discriminate|auto].
Qed.
Variables c c' : bytes.
Lemma decl_moved ts d ts' : gDecl c ts d -> mvs k ts ts' -> gDecl c' ts' (moveDecl k d).
Proof.
  intros [star p y ts0 vs i Hs Hp Hy G N|ts0 s L] M; [|discriminate L].
  cuts. destruct (items_moved _ _ _ G _ ltac:(eassumption)) as [G' F]. destruct (valuesEnd_move _ N F) as [V1 V2].
  cbn [moveDecl]. rewrite move_pos by (cbn [sp_end]; lia). cbn [sp_start sp_end].
  match goal with M0 : mvs k star ?c0 |- _ => rename M0 into Ms; rename c0 into star' end.
  assert (Hs' : (star' = [] \/ (exists s, star' = [s] /\ is Delim s /\ k_str s = B "*")) /\ concat (map k_str star') = concat (map k_str star)).
  { destruct Hs as [->|(s & -> & Hs1 & Hs2)]; cuts; [auto|]. split; [|cbn; congruence]. right. eexists. split; [reflexivity|]. split; auto. congruence. }
  destruct Hs' as [Hs' Ec]. rewrite <- Ec. same.
  replace (isSome i) with (isSome (option_map (sh_upto k) i)) by (destruct i; reflexivity).
  match goal with X : upto ?p' = (sh_upto k (upto p)), Y : from ?p' = (sh_from k (from p)) |- _ =>
    replace (sh_from k (from p)) with (from p') by exact Y;
    replace (sh_upto k (Nat.max (valuesEnd vs) (match i with Some e => e | None => upto p end)))
      with (Nat.max (valuesEnd (map mValue vs)) (match option_map (sh_upto k) i with Some e => e | None => upto p' end))
      by (rewrite V1; rewrite k_max; destruct i; cbn; rewrite ?X; lia) end.
  apply gdDecl; auto. destruct vs; [contradiction|discriminate].
Qed.
Lemma decls_moved ts ds : gDecls c ts ds -> forall ts', mvs k ts ts' -> gDecls c' ts' (map (moveDecl k) ds).
Proof.
  induction 1 as [|ts d ts2 ds L G H IH|ts d x ts2 ds G Hx H IH]; intros ts' M; cuts.
  - constructor.
  - cbn [map]. apply gdCons; auto; [|eapply decl_moved; eauto]. destruct L as [L| ->]; [discriminate L|]. cuts. auto.
  - cbn [map]. apply gdSemi; auto. eapply decl_moved; eauto.
Qed.
Lemma body_moved o o' ts ts' sp ds : gBody c o ts sp ds -> mv k o o' -> mvs k ts ts' -> gBody c' o' ts' (mSpan sp) (map (moveDecl k) ds) /\ posSpan sp.
Proof.
  intros (ts1 & y & -> & G & Hy & ->) Mo M. cuts. split; [|assumption]. eexists _, _. split; [reflexivity|].
  split; [eapply decls_moved; eauto|]. split; [auto|]. apply mv_across; auto.
Qed.

(** * Selectors *)
Lemma anb1_moved x y a s b : gAnb1 x a s b -> mv k x y -> gAnb1 y a s b /\ k_tok x <> EOF.
Proof.
  intros G M. assert (T := mv_tok _ _ _ M). assert (S1 := mv_str _ _ _ M). assert (N1 := mv_num _ _ _ M).
  destruct G as [K E|s b K E Hs Hb|K E|K E|s b K E Hs|K E]; rewrite K in *; cbn in S1, N1; try specialize (S1 eq_refl); try specialize (N1 eq_refl);
    (split; [|discriminate]); try rewrite <- N1.
  - apply anbDim; congruence.
  - apply anbDimB; auto; congruence.
  - apply anbN; congruence.
  - apply anbMinusN; congruence.
  - apply anbB; auto; congruence.
  - apply anbB0; auto. rewrite N1. exact E.
Qed.
Lemma anb2_moved ts s b e ts' : gAnb2 ts s b e -> mvs k ts ts' -> gAnb2 ts' s b (sh_upto k e) /\ (0 < e)%nat.
Proof.
  intros [y s0 b0 Hy E Hs|y z Hy Hs Hz] M; cuts.
  - split; [|assumption]. match goal with X : upto ?p = (sh_upto k (upto y)) |- _ => rewrite <- X end. apply anbSigned; auto. congruence.
  - split; [|assumption]. match goal with X : upto ?p = (sh_upto k (upto z)) |- _ => rewrite <- X end. same. apply anbApart; auto.
Qed.
Lemma nth_moved ts args k1 ts' : gNth ts args k1 -> mvs k ts ts' -> gNth ts' (moveArgs k args) k1.
Proof.
  intros [|x Hx Hs|x a s b Hk G|x a s b ts0 s2 b2 e Hk G G2] M; cuts; cbn [moveArgs].
  - constructor.
  - same. apply gnWord; auto.
  - destruct (anb1_moved _ _ _ _ _ G Mx) as [G' N]. rewrite (mv_span _ _ Mx N). apply gnAnb1; auto. rewrite (mv_kept _ _ _ Mx). auto.
  - destruct (anb1_moved _ _ _ _ _ G Mx) as [G' N]. destruct (anb2_moved _ _ _ _ _ G2 ltac:(eassumption)) as [G2' P2].
    rewrite move_pos by (cbn; auto). cbn [sp_start sp_end]. rewrite <- (mv_from _ _ Mx). eapply gnAnb2; eauto. rewrite (mv_kept _ _ _ Mx). auto.
Qed.
Lemma attrOp_moved ts pre ts' : gAttrOp ts pre -> mvs k ts ts' -> sameHead Ident ts ts' -> gAttrOp ts' pre.
Proof.
  intros [x Hx Hn|x y Hk Ht Hi Hy Hs] M Sh.
  - cuts. same. apply gaPlain; auto.
  - inversion M as [|? x' ? ? Mx _ M2]; subst. specialize (Sh (or_intror (conj eq_refl Hi))). cuts. rewrite <- Sh in *. apply gaPre; auto; [rewrite (mv_kept _ _ _ Mx); auto|rewrite (mv_tok _ _ _ Mx); auto|congruence].
Qed.
Lemma sameHead_app q a b a' b' : sameHead q (a ++ b) (a' ++ b') -> mvs k a a' -> sameHead q a a'.
Proof. intros H M. destruct M; [exact I|exact H]. Qed.

Definition posPart (p : selpart) : Prop := posSpan (partSpan p).
Definition posSel (s : selector) : Prop := posSpan (fst s).
Lemma parts_span ps : ps <> [] -> Forall posPart ps -> mSpan (spanning (map partSpan ps)) = spanning (map partSpan (map (movePart k) ps)) /\ posSpan (spanning (map partSpan ps)).
Proof.
  intros N F. destruct (spanning_move (map partSpan ps)) as [E P]; [destruct ps; [contradiction|discriminate]|apply Forall_map; exact F|].
  split; [|exact P]. rewrite E. f_equal. rewrite !map_map. apply map_ext. intros p. destruct p; reflexivity.
Qed.
Lemma sels_span sels : sels <> [] -> Forall posSel sels -> mSpan (spanning (map fst sels)) = spanning (map fst (map (moveSel k) sels)) /\ posSpan (spanning (map fst sels)).
Proof.
  intros N F. destruct (spanning_move (map fst sels)) as [E P]; [destruct sels; [contradiction|discriminate]|apply Forall_map; exact F|].
  split; [|exact P]. rewrite E. f_equal. rewrite !map_map. reflexivity.
Qed.
Lemma selectors_moved :
  (forall b ts p b1, gPart b ts p b1 -> forall ts', mvs k ts ts' -> gPart b ts' (movePart k p) b1 /\ posPart p) /\
  (forall ts n args e, gPseudo ts n args e -> forall ts', mvs k ts ts' -> gPseudo ts' n (moveArgs k args) (sh_upto k e) /\ (0 < e)%nat) /\
  (forall b ts ps b1, gParts b ts ps b1 -> forall ts', mvs k ts ts' -> gParts b ts' (map (movePart k) ps) b1 /\ Forall posPart ps) /\
  (forall b ts sels b1, gSelectors b ts sels b1 -> forall ts', mvs k ts ts' -> gSelectors b ts' (map (moveSel k) sels) b1 /\ Forall posSel sels /\ sels <> []).
Proof.
  apply selectors_m.
  - intros b x Hx ts' M. cuts. split; [|assumption]. cbn [movePart]. same. apply gpSpace; auto.
  - intros b x Hx ts' M. cuts. split; [|assumption]. cbn [movePart]. same. apply gpType; auto.
  - intros b x Hx Hs ts' M. cuts. split; [|assumption]. cbn [movePart]. same. apply gpAny; auto.
  - intros b x Hx ts' M. cuts. split; [|assumption]. cbn [movePart]. same. apply gpId; auto.
  - intros b x y Hx Hs Hy ts' M. cuts. split; [|assumption]. cbn [movePart]. erewrite mv_across by eauto. same. apply gpClass; auto.
  - intros b x Hx Hs ts' M. cuts. split; [|assumption]. cbn [movePart]. same. apply gpComb; auto.
  - intros b x ts n args e Hx _ IH ts' M. cuts. destruct (IH _ ltac:(eassumption)) as [G P]. split; [|exact P].
    change (movePart k (SPseudo (mkSpan (from x) e) n args)) with (SPseudo (mSpan (mkSpan (from x) e)) n (moveArgs k args)).
    rewrite move_pos by exact P. cbn [sp_start sp_end]. rewrite <- (mv_from _ _ Mx). apply gpPseudo; auto.
  - intros b x y ts n args e Hx Hy _ IH ts' M. cuts. destruct (IH _ ltac:(eassumption)) as [G P]. split; [|exact P].
    change (movePart k (SPseudoEl (mkSpan (from x) e) (mkSpan (from y) e) n args)) with (SPseudoEl (mSpan (mkSpan (from x) e)) (mSpan (mkSpan (from y) e)) n (moveArgs k args)).
    rewrite !move_pos by exact P. cbn [sp_start sp_end]. rewrite <- (mv_from _ _ Mx), <- (mv_from _ _ Mx0). apply gpPseudoEl; auto.
  - intros b x y z Hx Hy Hz ts' M. cuts. split; [|assumption]. cbn [movePart moveValue]. erewrite mv_across by eauto. same. apply gpAttr; auto.
  - intros b x y op pre ts v z Hx Hy Go Gv Hz ts' M. cuts. split; [|assumption].
    assert (Go' : gAttrOp c0 pre).
    { eapply attrOp_moved; eauto. eapply sameHead_app; eauto.
    match goal with X : sameHead (k_tok y) _ _ |- _ => destruct Hy as [Hy _]; rewrite Hy in X; exact X end. }
    cbn [movePart]. erewrite mv_across by eauto. same. apply gpAttrOp; auto. eapply value_moved; eauto.
  - intros b x y op pre ts v m z Hx Hy Go Gv Hm Hms Hz ts' M. cuts. split; [|assumption].
    assert (Go' : gAttrOp c0 pre).
    { eapply attrOp_moved; eauto. eapply sameHead_app; eauto.
    match goal with X : sameHead (k_tok y) _ _ |- _ => destruct Hy as [Hy _]; rewrite Hy in X; exact X end. }
    cbn [movePart]. erewrite mv_across by eauto. same. apply gpAttrMod; auto. eapply value_moved; eauto.
  - intros x Hx ts' M. cuts. split; [|assumption]. match goal with X : upto ?p = (sh_upto k (upto x)) |- _ => rewrite <- X end. same. apply gpsName; auto.
  - intros x ts args b1 y Hx Hn G Hy ts' M. cuts. split; [|assumption]. match goal with X : upto ?p = (sh_upto k (upto y)) |- _ => rewrite <- X end. same.
    eapply gpsNth; eauto. eapply nth_moved; eauto.
  - intros x ts sels b1 y Hx Hn _ IH Hy ts' M. cuts. destruct (IH _ ltac:(eassumption)) as (G & F & N). destruct (sels_span _ N F) as [Es P].
    split; [|assumption]. match goal with X : upto ?p = (sh_upto k (upto y)) |- _ => rewrite <- X end. cbn [moveArgs]. rewrite Es. same.
    apply (gpsSel _ _ (map (moveSel k) sels) b1); auto.
  - intros b ts' M. cuts. split; constructor.
  - intros b ts p b1 ts2 ps b2 _ IH _ IH2 ts' M. cuts. destruct (IH _ ltac:(eassumption)), (IH2 _ ltac:(eassumption)).
    split; [cbn [map]; eapply gpsCons; eauto|constructor; auto].
  - intros b ts ps b1 _ IH N ts' M. destruct (IH _ M) as [G F]. destruct (parts_span _ N F) as [Es P].
    split; [|split; [constructor; [exact P|constructor]|discriminate]]. cbn [map]. unfold moveSel. cbn [fst snd]. rewrite Es. apply gsOne; auto.
    destruct ps; [contradiction|discriminate].
  - intros b ts ps b1 x ts2 sels b2 _ IH N Hx _ IH2 ts' M. cuts. destruct (IH _ ltac:(eassumption)) as [G F], (IH2 _ ltac:(eassumption)) as (G2 & F2 & N2).
    destruct (parts_span _ N F) as [Es P]. split; [|split; [constructor; auto|discriminate]].
    cbn [map]. unfold moveSel at 1. cbn [fst snd]. rewrite Es. eapply gsMore; eauto. destruct ps; [contradiction|discriminate].
Qed.
Lemma sels_ne b ts sels b1 : gSelectors b ts sels b1 -> ts <> [].
Proof.
  assert (P : forall b ts ps b1, gParts b ts ps b1 -> ps <> [] -> ts <> []).
  { clear. intros b ts ps b1 G N. destruct G as [|b ts p b1 ts2 ps b2 G _]; [contradiction|]. destruct G; discriminate. }
  intros [b0 ts0 ps b2 G N|b0 ts0 ps b2 x ts2 sels0 b3 G N _ _]; [eauto|]. destruct ts0; discriminate.
Qed.

(** * Rules *)
Lemma key_moved x y key : gKey x key -> mv k x y -> gKey y (moveKey k key) /\ posSpan (keySpan key).
Proof.
  intros [Hx|Hx Hs] M; tok M; (split; [|assumption]); cbn [moveKey]; same; [apply gkPercent|apply gkIdent]; auto.
Qed.
Lemma keys_moved ts ks : gKeys ts ks -> forall ts', mvs k ts ts' -> gKeys ts' (map (moveKey k) ks) /\ Forall (fun x => posSpan (keySpan x)) ks /\ ks <> [] /\ ts <> [].
Proof.
  induction 1 as [x key G|x key y ts ks G Hy H IH]; intros ts' M; cuts.
  - destruct (key_moved _ _ _ G Mx) as [G' P]. repeat split; try discriminate; [cbn [map]; apply gksOne; auto|constructor; auto].
  - destruct (key_moved _ _ _ G Mx) as [G' P]. destruct (IH _ ltac:(eassumption)) as (G2 & F & _). repeat split; try discriminate; [cbn [map]; apply gksMore; auto|constructor; auto].
Qed.
Lemma keys_span ks : ks <> [] -> Forall (fun x => posSpan (keySpan x)) ks ->
  mSpan (spanning (map keySpan ks)) = spanning (map keySpan (map (moveKey k) ks)).
Proof.
  intros N F. destruct (spanning_move (map keySpan ks)) as [Es P]; [destruct ks; [contradiction|discriminate]|apply Forall_map; exact F|].
  rewrite Es. f_equal. rewrite !map_map. apply map_ext. intros p. destruct p; reflexivity.
Qed.
Variable run : nat.
Lemma rule_moved kf ts r ts' : gRule c run kf ts r -> mvs k ts ts' -> gRule c' run kf ts' (moveRule k r) /\ posSpan (r_sp r).
Proof.
  intros [kf0 o ts0 sp ds Ho G|ts0 sels b o ts2 sp ds Gs Ho G|ts0 ks o ts2 sp ds Gk Ho G] M; cuts.
  - destruct (body_moved _ _ _ _ _ _ G Mx ltac:(eassumption)) as [G' P]. split; [|exact P]. unfold moveRule. cbn [r_run r_sp r_prelude r_bsp r_decls movePrelude].
    apply grBare; auto.
  - destruct (body_moved _ _ _ _ _ _ G Mx ltac:(eassumption)) as [G' P]. split; [|exact P].
    destruct (proj2 (proj2 (proj2 selectors_moved)) _ _ _ _ Gs _ ltac:(eassumption)) as (Gs' & F & N). destruct (sels_span _ N F) as [Es _].
    unfold moveRule. cbn [r_run r_sp r_prelude r_bsp r_decls movePrelude]. rewrite Es. rewrite (move_pos (mkSpan _ _)) by exact P. cbn [sp_start sp_end].
    erewrite <- mv_first by (eauto; eapply sels_ne; eauto). replace (sh_upto k (sp_end sp)) with (sp_end (mSpan sp)) by (rewrite move_pos by exact P; reflexivity).
    eapply grSel; eauto.
  - destruct (body_moved _ _ _ _ _ _ G Mx ltac:(eassumption)) as [G' P]. split; [|exact P].
    destruct Gk as [ts0 ks Gk|ts0 ks ts3 ks2 L]; [|discriminate L].
    destruct (keys_moved _ _ Gk _ ltac:(eassumption)) as (Gk' & F & N & Nt).
    unfold moveRule. cbn [r_run r_sp r_prelude r_bsp r_decls movePrelude]. rewrite (keys_span _ N F). rewrite (move_pos (mkSpan _ _)) by exact P. cbn [sp_start sp_end].
    erewrite <- mv_first by eauto. replace (sh_upto k (sp_end sp)) with (sp_end (mSpan sp)) by (rewrite move_pos by exact P; reflexivity).
    eapply grKey; eauto. apply gklLast; auto.
Qed.
Lemma rules_moved kf ts rs : gRules c run kf ts rs -> forall ts', mvs k ts ts' -> gRules c' run kf ts' (map (moveRule k) rs).
Proof.
  induction 1 as [kf|kf ts r ts2 rs G H IH]; intros ts' M; cuts; [constructor|]. cbn [map]. apply grCons; auto.
  eapply rule_moved; eauto.
Qed.
Lemma ruleBody_moved kf o o' ts ts' sp rs : gRuleBody c run kf o ts sp rs -> mv k o o' -> mvs k ts ts' ->
  gRuleBody c' run kf o' ts' (mSpan sp) (map (moveRule k) rs) /\ posSpan sp.
Proof.
  intros (ts1 & y & -> & G & Hy & ->) Mo M. cuts. split; [|assumption]. eexists _, _. split; [reflexivity|].
  split; [eapply rules_moved; eauto|]. split; [auto|]. apply mv_across; auto.
Qed.

(** * Media queries *)
Lemma rangeOp_moved ts op ts' : gRangeOp ts op -> mvs k ts ts' -> gRangeOp ts' op.
Proof.
  intros [x Hx Hs|x y Hx Hs Hy Hsy] M; cuts; same; [apply groLt|apply groLe]; auto.
Qed.
Lemma queryPart_moved ts p ts' : gQueryPart ts p -> mvs k ts ts' -> gQueryPart ts' (moveQPart k p) /\ posSpan (mqpartSpan p).
Proof.
  intros [x Hx|x p0 y Hx Hp Hy|x p0 y ts0 v z Hx Hp Hy Gv Hz|x ts0 v o op p0 y Hx Gv Go Hp Hy|x ts0 v o op p0 o2 ts2 v2 y Hx Gv Go Hp Go2 Gv2 Hy|x p0 o op ts0 v y Hx Hp Go Gv Nv Hy] M;
    cuts; (split; [|assumption]); cbn [moveQPart moveValue]; try (erewrite mv_across by eauto).
  - same. apply gqIdent; auto.
  - same. apply gqName; auto.
  - same. apply gqPlain; auto. eapply opt_moved; eauto.
  - same. apply gqRange1; auto; [eapply opt_moved|eapply rangeOp_moved]; eauto.
  - same. apply gqRange2; auto; [apply (opt_moved ts0)|apply (rangeOp_moved o)|apply (rangeOp_moved o2)|apply (opt_moved ts2)]; auto.
  - same. apply gqRange3; auto; try (eapply opt_moved; eauto); try (eapply rangeOp_moved; eauto).
    intros sp s Ev. destruct v; try discriminate Ev. eapply Nv. reflexivity.
Qed.
Lemma query_moved ts ps : gQuery ts ps -> forall ts', mvs k ts ts' -> gQuery ts' (map (moveQPart k) ps) /\ Forall (fun p => posSpan (mqpartSpan p)) ps /\ (ts = [] -> ps = []).
Proof.
  induction 1 as [|ts p ts2 ps G H IH]; intros ts' M; cuts; [repeat split; auto; constructor|].
  destruct (queryPart_moved _ _ _ G ltac:(eassumption)) as [G' P]. destruct (IH _ ltac:(eassumption)) as (G2 & F & _).
  split; [cbn [map]; apply gqCons; auto|]. split; [constructor; auto|]. intros E0. exfalso. destruct G; discriminate E0.
Qed.
Definition posQuery (q : mquery) : Prop := posSpan (fst q).
Lemma asQuery_moved ps : Forall (fun p => posSpan (mqpartSpan p)) ps ->
  map (moveQuery k) (asQuery ps) = asQuery (map (moveQPart k) ps) /\ Forall posQuery (asQuery ps).
Proof.
  intros F. destruct ps as [|p ps]; [split; [reflexivity|constructor]|].
  destruct (spanning_move (map mqpartSpan (p :: ps))) as [Es P]; [discriminate|apply Forall_map; exact F|].
  split; [|constructor; [exact P|constructor]]. unfold asQuery. cbn [map]. unfold moveQuery. cbn [fst snd map]. f_equal. f_equal.
  change (mqpartSpan p :: map mqpartSpan ps) with (map mqpartSpan (p :: ps)). rewrite Es. f_equal. cbn [map]. f_equal; [destruct p; reflexivity|].
  rewrite !map_map. apply map_ext. intros q. destruct q; reflexivity.
Qed.
Lemma queries_moved ts qs : gQueries ts qs -> forall ts', mvs k ts ts' -> gQueries ts' (map (moveQuery k) qs) /\ Forall posQuery qs /\ (ts = [] -> qs = []).
Proof.
  induction 1 as [ts ps G|ts ps y ts2 qs G Hy H IH]; intros ts' M; cuts.
  - destruct (query_moved _ _ G _ M) as (G' & F & N). destruct (asQuery_moved _ F) as [Ea Fa]. rewrite Ea. split; [apply gqsOne; auto|]. split; [auto|].
    intros E0. rewrite (N E0). reflexivity.
  - destruct (query_moved _ _ G _ ltac:(eassumption)) as (G' & F & N). destruct (asQuery_moved _ F) as [Ea Fa]. destruct (IH _ ltac:(eassumption)) as (G2 & F2 & _).
    rewrite map_app, Ea. split; [apply gqsMore; auto|]. split; [apply Forall_app; auto|]. intros E0. destruct ts; discriminate.
Qed.
Lemma queriesSpan_moved ts ts' qs : mvs k ts ts' -> gQueries ts qs -> qs <> [] ->
  mSpan (queriesSpan ts qs) = queriesSpan ts' (map (moveQuery k) qs) /\ posSpan (queriesSpan ts qs).
Proof.
  intros M G N. destruct (queries_moved _ _ G _ M) as (_ & F & Nt).
  assert (N' : map fst qs <> []) by (destruct qs; [contradiction|discriminate]).
  assert (F' : Forall posSpan (map fst qs)) by (apply Forall_map; exact F).
  assert (P : posSpan (queriesSpan ts qs)) by (apply (last_pos _ N' F')). split; [|exact P].
  rewrite move_pos by exact P. unfold queriesSpan. cbn [sp_start sp_end]. rewrite (mv_first _ _ M) by auto.
  rewrite <- last_move by auto. rewrite !map_map. reflexivity.
Qed.

(** * At-rules and the file *)
Lemma target_moved ts sp s ts' : gTarget ts sp s -> mvs k ts ts' -> gTarget ts' (mSpan sp) s /\ posSpan sp.
Proof.
  intros [x Hx|x Hx|x y z Hx Hs Hy Hz] M; cuts; (split; [|assumption]); try (erewrite mv_across by eauto); same.
  - apply gtUrl; auto.
  - apply gtString; auto.
  - apply gtUrlString; auto.
Qed.
Lemma at_span x y sp : mv k x y -> posSpan sp -> mSpan (mkSpan (from x) (sp_end sp)) = mkSpan (from y) (sp_end (mSpan sp)).
Proof. intros M P. rewrite !move_pos by exact P. cbn [sp_start sp_end]. rewrite (mv_from _ _ M). reflexivity. Qed.
Lemma at_moved ts a ts' : gAt c run ts a -> mvs k ts ts' -> gAt c' run ts' (moveAt k a).
Proof.
  intros G M. destruct G as [x ts sp s Hx Hs Gt ts2 Gq|x ts sp s ts2 qs Hx Hs Gt Gq Nq|x ts qs o ts2 sp rs Hx Hs Gq Ho Gb
    |x y pre o ts sp rs Hx Hs Hy Ho Gb|x y ts q Hx Hs Hy Gq|x o ts sp ds Hx Hs Hk Ho Gb];
    unfold moveAt; cbn [ar_run ar_sp ar_name ar_preludes ar_block option_map map moveBlock moveAtPrelude].
  - cuts. destruct (target_moved _ _ _ _ Gt ltac:(eassumption)) as [Gt' P]. destruct (queries_moved _ _ Gq _ ltac:(eassumption)) as (Gq' & _).
    rewrite (at_span _ _ _ Mx P). same. apply gaImport; auto.
  - cuts. destruct (target_moved _ _ _ _ Gt ltac:(eassumption)) as [Gt' P]. destruct (queries_moved _ _ Gq _ ltac:(eassumption)) as (Gq' & _).
    destruct (queriesSpan_moved ts2 d qs) as [Eq Pq]; auto. rewrite (at_span _ _ _ Mx Pq), Eq. same. apply gaImportMedia; auto.
    destruct qs; [contradiction|discriminate].
  - cuts. destruct (queries_moved _ _ Gq _ ltac:(eassumption)) as (Gq' & _). destruct (ruleBody_moved _ _ _ _ _ _ _ Gb Mx0 ltac:(eassumption)) as [Gb' P].
    rewrite (at_span _ _ _ Mx P). same.
    match goal with |- gAt _ _ _ (mkAt _ _ _ [?p] _) => replace p with (match map (moveQuery k) qs with [] => APNilMql | _ => APMql (queriesSpan c0 (map (moveQuery k) qs), map (moveQuery k) qs) end) end.
    + apply gaMedia; auto.
    + destruct qs as [|q qs]; [reflexivity|]. destruct (queriesSpan_moved ts c0 (q :: qs)) as [Eq _]; auto; try discriminate. cbn [moveAtPrelude]. rewrite Eq. reflexivity.
  - inversion M as [|? x' ? ? Mx Mh M2]; subst. inversion M2 as [|? y' ? ? My Mh2 M3]; subst. tok Mx. cuts.
    destruct (ruleBody_moved _ _ _ _ _ _ _ Gb Mx0 ltac:(eassumption)) as [Gb' P]. rewrite (at_span _ _ _ Mx P). same.
    apply gaKeyframes; auto. destruct Hy as [[Hy ->]|[Hy ->]]; tok My; same; cbn [moveAtPrelude]; same; auto.
  - cuts. destruct (queries_moved _ _ Gq _ ltac:(eassumption)) as (Gq' & F & _). inversion F as [|? ? Pq _]; subst.
    rewrite (at_span _ _ _ Mx Pq). same. apply (gaCustomMedia _ _ _ _ _ (moveQuery k q)); auto.
  - cut1 M. match goal with M0 : mvs k (o :: _) _ |- _ => inversion M0 as [|? o' ? ? Mo _ M3]; subst end.
    destruct (body_moved _ _ _ _ _ _ Gb Mo M3) as [Gb' P]. rewrite (at_span _ _ _ Mx P). same. apply gaOther; auto. rewrite (mv_kept _ _ _ Mo). auto.
Qed.
Lemma nodes_moved ts nds : gNodes c run ts nds -> forall ts', mvs k ts ts' -> gNodes c' run ts' (map (moveNode k) nds).
Proof.
  induction 1 as [|x ts nds Hx H IH|ts r ts2 nds G H IH|ts a ts2 nds G H IH N]; intros ts' M.
  - cuts. constructor.
  - inversion M as [|? x' ? ? Mx _ M2]; subst. apply gnSkip; auto. destruct Hx as [Hx|[Hx|Hx]]; eauto 6 using mv_is.
    all: unfold is in *; eauto 6 using mv_is.
  - cuts. cbn [map moveNode]. apply gnRule; auto. eapply rule_moved; eauto.
  - cuts. cbn [map moveNode]. apply gnAt; auto; [eapply at_moved; eauto|].
    destruct N as [N|[N|(x & ts3 & -> & Hx)]]; [discriminate N| |].
    + right. left. cbn. destruct (ar_block a); [discriminate|contradiction].
    + right. right. cuts. eauto.
Qed.
End WithUnicode.
