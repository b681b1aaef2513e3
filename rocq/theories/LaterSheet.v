(** Two files with a common beginning: the rules that end well inside of it are
    the same. *)
From Verif Require Import Bytes Utf8 Source Lexer BytesFacts LexSpec LexFacts LexNext Ast Parser ParserSpec ParseMono LaterLex LaterParse LaterErr LaterSpec LaterRaw.

Section Two.
Context {U : UnicodeDigits}.
Variables (k : nat) (c c' : bytes).
Hypothesis Hk : (k <= length c)%nat.
Hypothesis Hk' : (k <= length c')%nat.
Hypothesis Hc : firstn k c = firstn k c'.
Notation sw := (LaterLex.sw c').
Notation early := (LaterLex.early k).
Notation onw := (LaterLex.onw c).
Notation fwd := (LaterLex.fwd c).
Notation RA := (LaterParse.RA k c c').
Notation RL := (LaterParse.RL k c c').

Definition RC {T} (ok : T -> Prop) (l : lexer) (r r' : res (T * lexer)) : Prop := forall x l1, r = Ok (x, l1) ->
  fwd l l1 /\ (ok x -> early l1 -> r' = Ok (x, sw l1)).
Definition RB {T} (ok blk : T -> Prop) (en : T -> nat) (l : lexer) (r r' : res (T * lexer)) : Prop := forall x l1, r = Ok (x, l1) ->
  fwd l l1 /\ (l_lastPos l <= en x)%nat /\
  (ok x -> (blk x -> (en x + 16 <= k)%nat -> (forall y, r' = Ok y -> exists l', y = (x, l') /\ LaterLex.onw c' l' /\ (en x <= l_start l')%nat) /\ (forall sp msg ln, r' = Panic (PLex sp msg) ln -> (en x <= sp_start sp)%nat)) /\ (early l1 -> r' = Ok (x, sw l1))).
Lemma RA_RC {T} ok l (r r' : res (T * lexer)) : RA l r r' -> RC ok l r r'.
Proof. intros H x l1 E. destruct (H _ _ E). auto. Qed.
Lemma RB_RC {T} ok blk en l (r r' : res (T * lexer)) : RB ok blk en l r r' -> RC ok l r r'.
Proof. intros H x l1 E. destruct (H _ _ E) as (F & _ & S). split; [exact F|]. intros Q. apply (S Q). Qed.
Lemma near_early l e : onw l -> (l_lastPos l <= e)%nat -> (e + 16 <= k)%nat -> early l.
Proof. intros [[_ W] _] H1 H2. pose proof (pos_last _ W). unfold LaterLex.early. lia. Qed.
Lemma RB_cons {A D} ok1 ok blk en l (m m' : res (A * lexer)) (f f' : A * lexer -> res (D * lexer)) :
  RC ok1 l m m' -> (forall x l1, onw l1 -> RB ok blk en l1 (f (x, l1)) (f' (x, sw l1))) ->
  (forall x l1 y l2, f (x, l1) = Ok (y, l2) -> ok y -> ok1 x) -> RB ok blk en l (bind m f) (bind m' f').
Proof.
  intros H K Hok y l2 E. apply bind_inv in E as ([x l1] & E1 & E). destruct (H _ _ E1) as [F1 S1]. destruct (K x l1 (proj1 F1) _ _ E) as (F2 & L2 & S2).
  pose proof (fwd_last _ _ _ (proj1 F1) F1) as L1. split; [eapply fwd_trans; [apply F1|exact F1|exact F2]|]. split; [lia|].
  intros Q. pose proof (Hok _ _ _ _ E Q) as Q1. destruct (S2 Q) as [T1 T2]. split.
  - intros Bk N. rewrite (S1 Q1 (near_early _ _ (proj1 F1) L2 N)). cbn [bind]. exact (T1 Bk N).
  - intros L. rewrite (S1 Q1 (fwd_early _ _ _ _ F2 L)). cbn [bind]. auto.
Qed.
Lemma RB_pair {A D} ok blk en l (m m' : res (A * lexer)) (f f' : A * lexer -> res (D * lexer)) :
  RA l m m' -> (forall x l1, onw l1 -> RB ok blk en l1 (f (x, l1)) (f' (x, sw l1))) -> RB ok blk en l (bind m f) (bind m' f').
Proof. intros H K. eapply (RB_cons (fun _ => True)); [apply RA_RC; exact H|exact K|auto]. Qed.
Lemma RB_lex {D} ok blk en l (m m' : res lexer) (f f' : lexer -> res (D * lexer)) :
  RL l m m' -> (forall l1, onw l1 -> RB ok blk en l1 (f l1) (f' (sw l1))) -> RB ok blk en l (bind m f) (bind m' f').
Proof.
  intros H K y l2 E. apply bind_inv in E as (l1 & E1 & E). destruct (H _ E1) as [F1 S1]. destruct (K l1 (proj1 F1) _ _ E) as (F2 & L2 & S2).
  pose proof (fwd_last _ _ _ (proj1 F1) F1) as L1. split; [eapply fwd_trans; [apply F1|exact F1|exact F2]|]. split; [lia|].
  intros Q. destruct (S2 Q) as [T1 T2]. split.
  - intros Bk N. rewrite (S1 (near_early _ _ (proj1 F1) L2 N)). cbn [bind]. exact (T1 Bk N).
  - intros L. rewrite (S1 (fwd_early _ _ _ _ F2 L)). cbn [bind]. auto.
Qed.
Lemma RB_any {A D} ok blk en l (m m' : res A) (f f' : A -> res (D * lexer)) : R0 m m' -> (forall x, RB ok blk en l (f x) (f' x)) -> RB ok blk en l (bind m f) (bind m' f').
Proof. intros H K y l2 E. apply bind_inv in E as (x & E1 & E). rewrite (H _ E1). cbn [bind]. exact (K x _ _ E). Qed.
Lemma RB_last {A D} (g : A -> D) (ok1 blk1 : A -> Prop) en1 (ok blk : D -> Prop) en l (m m' : res (A * lexer)) (f : A * lexer -> res (D * lexer)) :
  RB ok1 blk1 en1 l m m' -> (forall x l1, f (x, l1) = Ok (g x, l1)) -> (forall x, ok (g x) -> ok1 x) -> (forall x, blk (g x) -> blk1 x) -> (forall x, en (g x) = en1 x) ->
  RB ok blk en l (bind m f) (bind m' f).
Proof.
  intros H Hf Ho Hb He y l2 E. apply bind_inv in E as ([x l1] & E1 & E). rewrite Hf in E. injection E as <- <-. destruct (H _ _ E1) as (F1 & L1 & S1). split; [exact F1|]. rewrite He. split; [exact L1|].
  intros Q. destruct (S1 (Ho _ Q)) as [T1 T2]. split.
  - intros Bk N. destruct (T1 (Hb _ Bk) N) as [T3 T4]. split.
    + intros z Ez. apply bind_inv in Ez as ([x' l'] & Em & Ez). destruct (T3 _ Em) as (l3 & X & X2). injection X as -> ->. rewrite Hf in Ez. injection Ez as <-. eauto.
    + intros sp msg ln Ez. destruct m' as [[x' l']|p ln'|]; cbn [bind] in Ez; [|injection Ez as -> ->; exact (T4 _ _ _ eq_refl)|discriminate Ez].
      destruct (T3 _ eq_refl) as (l3 & X & _). injection X as -> ->. rewrite Hf in Ez. discriminate Ez.
  - intros L. rewrite (T2 L). cbn [bind]. apply Hf.
Qed.
Lemma onw_sw l : onw l -> early l -> LaterLex.onw c' (sw l).
Proof. intros [H1 H2] L. split; [split; [reflexivity|apply (cwf_sw k c c' Hk Hk' Hc); assumption]|exact H2]. Qed.
Lemma RB_end {T} (x : T) ok blk en l : onw l -> en x = l_lastPos l -> RB ok blk en l (l1 <- next l;; Ok (x, l1)) (l1 <- next (sw l);; Ok (x, l1)).
Proof.
  intros W He y l2 E. apply bind_inv in E as (l1 & E1 & E). injection E as <- <-. destruct (RL_next _ _ _ Hk Hk' Hc l l (fwd_refl _ _ W) _ E1) as [F S]. split; [exact F|]. split; [lia|].
  intros _. split.
  { intros _ N. assert (L : early l) by (apply (near_early _ (en x)); [exact W|lia|exact N]). split.
    { intros z Ez. apply bind_inv in Ez as (l' & En & Ez). injection Ez as <-. exists l'. destruct (next_fwd c' _ _ (proj1 (onw_sw l W L)) En) as (A & _ & D). rewrite He. auto. }
    intros sp msg ln Ez.
    destruct (next (sw l)) as [l'|p ln'|] eqn:En; cbn [bind] in Ez; [discriminate Ez|injection Ez as -> ->|discriminate Ez]. pose proof (next_err c' _ _ _ _ (onw_sw l W L) En) as X. cbn in X. lia. } intros L. rewrite (S L). reflexivity.
Qed.
Lemma RB_no {T} ok blk en l (r r' : res (T * lexer)) : (forall x, r <> Ok x) -> RB ok blk en l r r'.
Proof. intros H x l1 E. destruct (H _ E). Qed.
Lemma RB_plain {T} ok blk en l (r r' : res (T * lexer)) : RA l r r' -> (forall x, ~ blk x) -> (forall x l1, r = Ok (x, l1) -> (l_lastPos l <= en x)%nat) -> RB ok blk en l r r'.
Proof. intros H Nb He x l1 E. destruct (H _ _ E) as [F S]. split; [exact F|]. split; [eauto|]. intros _. split; [intros Bk; destruct (Nb _ Bk)|exact S]. Qed.

(** ** Declarations *)
Lemma fallback_later n l : onw l -> RC (fun _ => LaterRaw.Ch k c l) l (parseDeclarationOrFallback n l) (parseDeclarationOrFallback n (sw l)).
Proof. intros W d l1 E. exact (fallback_raw k c c' Hk Hk' Hc n l d l1 W E). Qed.
Notation tt1 := (fun _ => True).
Lemma block_later n : forall l, onw l -> RB tt1 tt1 snd l (declBlockLoop n l) (declBlockLoop n (sw l)).
Proof.
  induction n as [|n IH]; intros l W; [apply RB_no; discriminate|].
  assert (G : RB (fun _ => LaterRaw.Ch k c l) tt1 snd l (declBlockLoop (S n) l) (declBlockLoop (S n) (sw l))).
  { cbn [declBlockLoop]. cbv zeta. change (l_cur (sw l)) with (l_cur l). destruct (teq _ _).
    - apply (RB_end ([], tokenEnd l)); [exact W|]. reflexivity.
    - eapply RB_cons; [apply fallback_later; exact W| |intros; assumption].
      intros d l1 W1. cbn beta iota. change (l_cur (sw l1)) with (l_cur l1). eapply RB_lex; [|intros l2 W2].
      { destruct (teq (l_cur l1) Semicolon); [apply (RL_next _ _ _ Hk Hk' Hc)|apply RL_ok]; apply fwd_refl; exact W1. }
      apply (RB_last (fun x => (d :: fst x, snd x)) _ _ _ _ _ _ _ _ _ _ (IH l2 W2)); [intros [? ?] ?; reflexivity|auto|auto|reflexivity]. }
  intros [ds e] l1 E. destruct (G _ _ E) as (F & L & S). split; [exact F|]. split; [exact L|]. intros _. cbn [snd] in *. split.
  - intros Bk N. apply S; [|exact Bk|exact N]. eapply (block_chain k c c' Hk Hk' Hc); [exact W|exact E|]. intros cl Wc Ec _. apply (near_early _ e); [exact Wc|lia|exact N].
  - intros Le. apply S; [|exact Le]. eapply (block_chain k c c' Hk Hk' Hc); [exact W|exact E|]. intros cl Wc _ En. destruct (next_fwd _ _ _ (proj1 Wc) En) as (_ & P & _). unfold LaterLex.early in *. lia.
Qed.
Lemma body_later n l : onw l -> RB tt1 tt1 (fun x => sp_end (fst x)) l (parseDeclarationBlock n l) (parseDeclarationBlock n (sw l)).
Proof.
  intros W. unfold parseDeclarationBlock. cbv zeta. change (tokenSpan (sw l)) with (tokenSpan l). eapply RB_lex; [apply (RL_next _ _ _ Hk Hk' Hc), fwd_refl; exact W|]. intros l1 W1.
  apply (RB_last (fun x => (mkSpan (sp_start (tokenSpan l)) (snd x), fst x)) _ _ _ _ _ _ _ _ _ _ (block_later n l1 W1)); [intros [? ?] ?; reflexivity|auto|auto|reflexivity].
Qed.

Section Run.
Variable run : nat.
Definition ruleEnd (r : qrule) : nat := sp_end (r_sp r).
Lemma qrule_later n : forall b st pr l, onw l -> RB tt1 tt1 ruleEnd l (qruleLoop run n b st pr l) (qruleLoop run n b st pr (sw l)).
Proof.
  induction n as [|n IH]; intros b st pr l W; [apply RB_no; discriminate|]. cbn [qruleLoop]. change (l_cur (sw l)) with (l_cur l).
  assert (G : RB tt1 tt1 ruleEnd l
    (if b then '(pr1, l1) <- parseKeyframeSelectorList n l ;; qruleLoop run n b st pr1 l1 else '(sl, l1) <- parseSelectorList n l ;; qruleLoop run n b st (PrSel sl) l1)
    (if b then '(pr1, l1) <- parseKeyframeSelectorList n (sw l) ;; qruleLoop run n b st pr1 l1 else '(sl, l1) <- parseSelectorList n (sw l) ;; qruleLoop run n b st (PrSel sl) l1)).
  { destruct b; (eapply RB_pair; [first [apply (parseKey_later _ _ _ Hk Hk' Hc); exact W|apply (selectors_later _ _ _ Hk Hk' Hc); exact W]|]); intros x l1 W1; apply IH; exact W1. }
  destruct (l_cur l); try exact G; clear G.
  - apply RB_no; discriminate.
  - apply (RB_last (fun x => mkRule run (mkSpan st (sp_end (fst x))) pr (fst x) (snd x)) _ _ _ _ _ _ _ _ _ _ (body_later n l W)); [intros [? ?] ?; reflexivity|auto|auto|reflexivity].
Qed.
Lemma rules_later n b : forall l, onw l -> RB tt1 tt1 snd l (rulesLoop run n b l) (rulesLoop run n b (sw l)).
Proof.
  induction n as [|n IH]; intros l W; [apply RB_no; discriminate|]. cbn [rulesLoop]. change (l_cur (sw l)) with (l_cur l).
  assert (G : RB tt1 tt1 snd l
    ('(r, l1) <- parseQualifiedRule run n b l ;; '(rs, e, l2) <- rulesLoop run n b l1 ;; Ok (r :: rs, e, l2))
    ('(r, l1) <- parseQualifiedRule run n b (sw l) ;; '(rs, e, l2) <- rulesLoop run n b l1 ;; Ok (r :: rs, e, l2))).
  { eapply RB_cons; [eapply RB_RC; exact (qrule_later n b _ _ l W)| |auto].
    intros r l1 W1. cbn beta iota. apply (RB_last (fun x => (r :: fst x, snd x)) _ _ _ _ _ _ _ _ _ _ (IH l1 W1)); [intros [? ?] ?; reflexivity|auto|auto|reflexivity]. }
  destruct (l_cur l); try exact G; clear G.
  - apply RB_no; discriminate.
  - cbv zeta. apply (RB_end ([], tokenEnd l)); [exact W|]. reflexivity.
Qed.

(** ** At-rules *)
Lemma feature_end n l p l1 : onw l -> parseMediaFeature n l = Ok (p, l1) -> (l_lastPos l <= sp_end (mqpartSpan p))%nat.
Proof.
  intros W E. unfold parseMediaFeature in E. cbv zeta in E. apply bind_inv in E as (l2 & E2 & E). apply bind_inv in E as ([v l3] & E3 & E).
  assert (F2 : fwd l l2) by exact (proj1 (RL_expect _ _ _ Hk Hk' Hc _ l l (fwd_refl _ _ W) _ E2)).
  assert (F3 : fwd l l3) by (eapply fwd_trans; [apply F2|exact F2|]; exact (proj1 (parseValue_later _ _ _ Hk Hk' Hc n l2 (proj1 F2) _ _ E3))).
  pose proof (fwd_last _ _ _ (proj1 F3) F3) as L3.
  destruct (l_cur l3); try discriminate E.
  - (* Colon *) apply bind_inv in E as (l4 & E4 & E). destruct v; try discriminate E. apply bind_inv in E as ([v2 l5] & E5 & E). apply bind_inv in E as (l6 & _ & E). injection E as <- <-. cbn. unfold tokenEnd.
    assert (F4 : fwd l3 l4) by exact (proj1 (RL_next _ _ _ Hk Hk' Hc l3 l3 (fwd_refl _ _ (proj1 F3)) _ E4)).
    assert (F5 : fwd l3 l5) by (eapply fwd_trans; [apply F4|exact F4|]; exact (proj1 (parseValue_later _ _ _ Hk Hk' Hc n l4 (proj1 F4) _ _ E5))). pose proof (fwd_last _ _ _ (proj1 F5) F5) as L5. lia.
  - (* RParen *) apply bind_inv in E as (l4 & E4 & E). destruct v; try discriminate E. injection E as <- <-. cbn. unfold tokenEnd. lia.
  - (* Delim *) apply bind_inv in E as ([op l4] & E4 & E). apply bind_inv in E as ([v2 l5] & E5 & E).
    assert (F4 : fwd l3 l4) by exact (proj1 (range_later _ _ _ Hk Hk' Hc l3 (proj1 F3) _ _ E4)).
    assert (F5 : fwd l3 l5) by (eapply fwd_trans; [apply F4|exact F4|]; exact (proj1 (parseValue_later _ _ _ Hk Hk' Hc n l4 (proj1 F4) _ _ E5))). pose proof (fwd_last _ _ _ (proj1 F5) F5) as L5.
    destruct v2; try (destruct v; try discriminate E; apply bind_inv in E as (l6 & _ & E); injection E as <- <-; cbn; unfold tokenEnd; lia).
    apply bind_inv in E as ([v3 l6] & E6 & E). apply bind_inv in E as (l7 & _ & E). injection E as <- <-. cbn. unfold tokenEnd.
    assert (F6 : fwd l5 l6).
    { destruct (teq _ _); [|injection E6 as _ <-; apply fwd_refl, F5]. apply bind_inv in E6 as ([op2 l8] & E8 & E6). destruct (negb _); [discriminate E6|].
      assert (F8 : fwd l5 l8) by exact (proj1 (range_later _ _ _ Hk Hk' Hc l5 (proj1 F5) _ _ E8)). eapply fwd_trans; [apply F8|exact F8|]. exact (proj1 (parseValue_later _ _ _ Hk Hk' Hc n l8 (proj1 F8) _ _ E6)). }
    pose proof (fwd_last _ _ _ (proj1 F6) F6). lia.
Qed.
Lemma parts_end n : forall l ps l1, onw l -> mqPartsLoop n l = Ok (ps, l1) -> Forall (fun p => l_lastPos l <= sp_end (mqpartSpan p))%nat ps.
Proof.
  induction n as [|n IH]; intros l ps l1 W E; [discriminate|]. cbn [mqPartsLoop] in E. destruct (l_cur l); try discriminate E; try (injection E as <- <-; constructor).
  - apply bind_inv in E as ([p l2] & E2 & E). apply bind_inv in E as ([ps2 l3] & E3 & E). injection E as <- <-. constructor; [eapply feature_end; eauto|].
    assert (F2 : fwd l l2) by exact (proj1 (feature_later _ _ _ Hk Hk' Hc n l W _ _ E2)). pose proof (fwd_last _ _ _ (proj1 F2) F2). eapply Forall_impl; [|exact (IH _ _ _ (proj1 F2) E3)]. cbn beta. intros. lia.
  - apply bind_inv in E as (l2 & E2 & E). apply bind_inv in E as ([ps2 l3] & E3 & E). injection E as <- <-. constructor; [reflexivity|].
    assert (F2 : fwd l l2) by exact (proj1 (RL_next _ _ _ Hk Hk' Hc l l (fwd_refl _ _ W) _ E2)). pose proof (fwd_last _ _ _ (proj1 F2) F2). eapply Forall_impl; [|exact (IH _ _ _ (proj1 F2) E3)]. cbn beta. intros. lia.
Qed.
Lemma last_end {A} (f : A -> span) e d (x : list A) : x <> [] -> Forall (fun p => e <= sp_end (f p))%nat x -> (e <= lastEndOf d (map f x))%nat.
Proof.
  intros Hx H. unfold lastEndOf. induction H as [|p x Hp H IH]; [contradiction|]. destruct x as [|q x]; [exact Hp|]. cbn [map] in *. change (last (f p :: f q :: map f x) (mkSpan d d)) with (last (f q :: map f x) (mkSpan d d)). apply IH. discriminate.
Qed.
Lemma queries_end n : forall l qs l1, onw l -> mqListLoop n l = Ok (qs, l1) -> Forall (fun q : mquery => l_lastPos l <= sp_end (fst q))%nat qs.
Proof.
  induction n as [|n IH]; intros l qs l1 W E; [discriminate|]. cbn [mqListLoop] in E. destruct (teq _ _); [discriminate E|]. cbv zeta in E. apply bind_inv in E as ([ps l2] & E2 & E).
  pose proof (parts_end _ _ _ _ W E2) as P. assert (F2 : fwd l l2) by exact (proj1 (mqParts_later _ _ _ Hk Hk' Hc n l W _ _ E2)).
  match type of E with context [?h ++ _] => set (here := h) in * end.
  assert (Hh : Forall (fun q : mquery => l_lastPos l <= sp_end (fst q))%nat here).
  { subst here. destruct ps as [|p ps]; constructor; [|constructor]. cbn [fst sp_end]. apply last_end; [discriminate|exact P]. }
  destruct (teq _ _); [|injection E as <- <-; exact Hh]. apply bind_inv in E as (l3 & E3 & E). apply bind_inv in E as ([qs2 l4] & E4 & E). injection E as <- <-. apply Forall_app. split; [exact Hh|].
  assert (F3 : fwd l l3) by exact (proj1 (RL_next _ _ _ Hk Hk' Hc l l2 F2 _ E3)). pose proof (fwd_last _ _ _ (proj1 F3) F3). eapply Forall_impl; [|exact (IH _ _ _ (proj1 F3) E4)]. cbn beta. intros. lia.
Qed.
Lemma mq_end n l q l1 : onw l -> parseMediaQueryList n l = Ok (Some q, l1) -> (l_lastPos l <= sp_end (fst q))%nat /\ Forall (fun q : mquery => l_lastPos l <= sp_end (fst q))%nat (snd q).
Proof.
  intros W E. unfold parseMediaQueryList in E. cbv zeta in E. apply bind_inv in E as ([qs l2] & E2 & E). pose proof (queries_end _ _ _ _ W E2) as P. destruct qs as [|x qs]; [discriminate E|]. injection E as <- <-. cbn [fst snd sp_end].
  split; [apply (last_end fst _ _ (x :: qs)); [discriminate|exact P]|exact P].
Qed.
Definition atEnd (x : atrule * (bytes * ptr)) : nat := sp_end (ar_sp (fst x)).
Definition nodeEnd (x : node * list (bytes * ptr)) : nat := sp_end (nodeSpan (fst x)).
Definition blkN (x : node * list (bytes * ptr)) : Prop := closed (fst x).
Lemma import_end n l a i l1 : onw l -> parseImportAtRule run n l = Ok (a, i, l1) -> (l_lastPos l <= sp_end (ar_sp a))%nat /\ ar_block a = None.
Proof.
  intros W E. unfold parseImportAtRule in E. cbv zeta in E. apply bind_inv in E as (l2 & E2 & E). apply bind_inv in E as ([[psp target] l3] & E3 & E). apply bind_inv in E as ([mq l4] & E4 & E).
  assert (F2 : fwd l l2) by exact (proj1 (RL_next _ _ _ Hk Hk' Hc l l (fwd_refl _ _ W) _ E2)). pose proof (fwd_last _ _ _ (proj1 F2) F2) as L2.
  assert (G : fwd l2 l3 /\ (l_lastPos l2 <= sp_end psp)%nat).
  { destruct (l_cur l2); try discriminate E3.
    - apply bind_inv in E3 as (l5 & E5 & E3). injection E3 as <- <- <-. split; [exact (proj1 (RL_next _ _ _ Hk Hk' Hc l2 l2 (fwd_refl _ _ (proj1 F2)) _ E5))|]. reflexivity.
    - destruct (negb _); [discriminate E3|]. apply bind_inv in E3 as (l5 & E5 & E3). apply bind_inv in E3 as (l6 & E6 & E3). apply bind_inv in E3 as (l7 & E7 & E3). injection E3 as <- <- <-.
      assert (F5 : fwd l2 l5) by exact (proj1 (RL_next _ _ _ Hk Hk' Hc l2 l2 (fwd_refl _ _ (proj1 F2)) _ E5)).
      assert (F6 : fwd l2 l6) by exact (proj1 (RL_expect _ _ _ Hk Hk' Hc _ l2 l5 F5 _ E6)).
      assert (F7 : fwd l2 l7) by exact (proj1 (RL_expect _ _ _ Hk Hk' Hc _ l2 l6 F6 _ E7)). split; [exact F7|]. exact (fwd_last _ _ _ (proj1 F6) F6).
    - apply bind_inv in E3 as (l5 & E5 & E3). injection E3 as <- <- <-. split; [exact (proj1 (RL_expect _ _ _ Hk Hk' Hc _ l2 l2 (fwd_refl _ _ (proj1 F2)) _ E5))|]. reflexivity. }
  destruct G as [F3 L3]. pose proof (fwd_last _ _ _ (proj1 F3) F3) as L3'. destruct mq as [q|]; injection E as <- <- <-; cbn [ar_sp ar_block sp_end]; split; try reflexivity; [|lia].
  pose proof (mq_end _ _ _ _ (proj1 F3) E4) as [Q _]. lia.
Qed.
Lemma custom_end n l a l1 : onw l -> parseCustomMediaAtRule run n l = Ok (a, l1) -> (l_lastPos l <= sp_end (ar_sp a))%nat /\ ar_block a = None.
Proof.
  intros W E. unfold parseCustomMediaAtRule in E. cbv zeta in E. apply bind_inv in E as (l2 & E2 & E). apply bind_inv in E as ([v l3] & E3 & E). destruct v; try discriminate E. apply bind_inv in E as ([mq l4] & E4 & E).
  assert (F2 : fwd l l2) by exact (proj1 (RL_next _ _ _ Hk Hk' Hc l l (fwd_refl _ _ W) _ E2)).
  assert (F3 : fwd l l3) by (eapply fwd_trans; [apply F2|exact F2|]; exact (proj1 (parseValue_later _ _ _ Hk Hk' Hc n l2 (proj1 F2) _ _ E3))). pose proof (fwd_last _ _ _ (proj1 F3) F3) as L3.
  destruct mq as [[qsp [|q [|? ?]]]|]; try discriminate E. injection E as <- <-. cbn [ar_sp ar_block sp_end]. split; [|reflexivity]. pose proof (mq_end _ _ _ _ (proj1 F3) E4) as [_ Q]. cbn [snd] in Q. inversion Q; subst. lia.
Qed.
Lemma media_later n l : onw l -> RB tt1 tt1 (fun a => sp_end (ar_sp a)) l (parseMediaAtRule run n l) (parseMediaAtRule run n (sw l)).
Proof.
  intros W. unfold parseMediaAtRule. cbv zeta. change (tokenSpan (sw l)) with (tokenSpan l). change (l_str (sw l)) with (l_str l).
  eapply RB_lex; [apply (RL_next _ _ _ Hk Hk' Hc), fwd_refl; exact W|]. intros l1 W1. eapply RB_pair; [apply (mq_later _ _ _ Hk Hk' Hc); exact W1|]. intros mq l2 W2. cbn beta iota. change (tokenSpan (sw l2)) with (tokenSpan l2).
  eapply RB_lex; [apply (RL_expect _ _ _ Hk Hk' Hc), fwd_refl; exact W2|]. intros l3 W3.
  apply (RB_last (fun x => mkAt run (mkSpan (sp_start (tokenSpan l)) (snd x)) (l_str l) [match mq with None => APNilMql | Some q => APMql q end] (Some (BRules (mkSpan (sp_start (tokenSpan l2)) (snd x)) (fst x)))) _ _ _ _ _ _ _ _ _ _ (rules_later n false l3 W3));
    [intros [? ?] ?; reflexivity|auto|auto|reflexivity].
Qed.
Lemma keyframes_later n l : onw l -> RB tt1 tt1 (fun a => sp_end (ar_sp a)) l (parseKeyframes run n l) (parseKeyframes run n (sw l)).
Proof.
  intros W. unfold parseKeyframes. cbv zeta. change (tokenSpan (sw l)) with (tokenSpan l). change (l_str (sw l)) with (l_str l).
  eapply RB_lex; [apply (RL_next _ _ _ Hk Hk' Hc), fwd_refl; exact W|]. intros l1 W1. eapply RB_any.
  { change (l_cur (sw l1)) with (l_cur l1). change (l_str (sw l1)) with (l_str l1). change (tokenSpan (sw l1)) with (tokenSpan l1). destruct (l_cur l1); try apply R0_err; apply R0_ok. }
  intros pre. cbn beta. eapply RB_lex; [apply (RL_next _ _ _ Hk Hk' Hc), fwd_refl; exact W1|]. intros l2 W2. change (tokenSpan (sw l2)) with (tokenSpan l2).
  eapply RB_lex; [apply (RL_expect _ _ _ Hk Hk' Hc), fwd_refl; exact W2|]. intros l3 W3.
  apply (RB_last (fun x => mkAt run (mkSpan (sp_start (tokenSpan l)) (snd x)) (l_str l) [pre] (Some (BRules (mkSpan (sp_start (tokenSpan l2)) (snd x)) (fst x)))) _ _ _ _ _ _ _ _ _ _ (rules_later n true l3 W3));
    [intros [? ?] ?; reflexivity|auto|auto|reflexivity].
Qed.
Lemma generic_later n l : onw l -> RB tt1 tt1 (fun a => sp_end (ar_sp a)) l (parseGenericAtRule run n l) (parseGenericAtRule run n (sw l)).
Proof.
  intros W. unfold parseGenericAtRule. cbv zeta. change (tokenSpan (sw l)) with (tokenSpan l). change (l_str (sw l)) with (l_str l).
  eapply RB_lex; [apply (RL_next _ _ _ Hk Hk' Hc), fwd_refl; exact W|]. intros l1 W1.
  apply (RB_last (fun x => mkAt run (mkSpan (sp_start (tokenSpan l)) (sp_end (fst x))) (l_str l) [] (Some (BDecls (fst x) (snd x)))) _ _ _ _ _ _ _ _ _ _ (body_later n l1 W1));
    [intros [? ?] ?; reflexivity|auto|auto|reflexivity].
Qed.
Lemma at_later n l : onw l -> RB tt1 blkN nodeEnd l (parseAtRule run n l) (parseAtRule run n (sw l)).
Proof.
  intros W. unfold parseAtRule. change (l_str (sw l)) with (l_str l). destruct (beq _ _).
  { intros [nd is_] l1 E. apply bind_inv in E as ([[a i] l2] & E2 & E). injection E as <- <- <-. destruct (import_end _ _ _ _ _ W E2) as [Le Nb]. destruct (import_later _ _ _ Hk Hk' Hc run n l W _ _ E2) as [F S].
    split; [exact F|]. split; [exact Le|]. intros _. split; [intros Bk; destruct (Bk Nb)|]. intros L. rewrite (S L). reflexivity. }
  destruct (beq _ _); [|destruct (bmem _ _)]; [| |destruct (beq _ _)].
  - apply (RB_last (fun a => (NAt a, [])) _ _ _ _ _ _ _ _ _ _ (media_later n l W)); [intros; reflexivity|auto|auto|reflexivity].
  - apply (RB_last (fun a => (NAt a, [])) _ _ _ _ _ _ _ _ _ _ (keyframes_later n l W)); [intros; reflexivity|auto|auto|reflexivity].
  - intros [nd is_] l1 E. apply bind_inv in E as ([a l2] & E2 & E). injection E as <- <- <-. destruct (custom_end _ _ _ _ W E2) as [Le Nb]. destruct (custom_later _ _ _ Hk Hk' Hc run n l W _ _ E2) as [F S].
    split; [exact F|]. split; [exact Le|]. intros _. split; [intros Bk; destruct (Bk Nb)|]. intros L. rewrite (S L). reflexivity.
  - apply (RB_last (fun a => (NAt a, [])) _ _ _ _ _ _ _ _ _ _ (generic_later n l W)); [intros; reflexivity|auto|auto|reflexivity].
Qed.
(** ** The file *)
Definition nodeAt (n : nat) (l : lexer) : res (node * list (bytes * ptr) * lexer) :=
  match l_cur l with At => parseAtRule run n l | _ => '(r, l1) <- parseQualifiedRule run n false l ;; Ok (NRule r, [], l1) end.
Lemma node_later n l : onw l -> RB tt1 blkN nodeEnd l (nodeAt n l) (nodeAt n (sw l)).
Proof.
  intros W. unfold nodeAt. change (l_cur (sw l)) with (l_cur l).
  assert (G : RB tt1 blkN nodeEnd l ('(r, l1) <- parseQualifiedRule run n false l ;; Ok (NRule r, [], l1)) ('(r, l1) <- parseQualifiedRule run n false (sw l) ;; Ok (NRule r, [], l1))).
  { apply (RB_last (fun r => (NRule r, [])) _ _ _ _ _ _ _ _ _ _ (qrule_later n false _ _ l W)); [intros; reflexivity|auto|auto|reflexivity]. }
  destruct (l_cur l); try exact G. apply at_later. exact W.
Qed.
Definition skips (t : token) : bool := match t with Semicolon | CDO | CDC => true | _ => false end.
Lemma loop_cases n l : parseLoop run (S n) l =
  if teq (l_cur l) EOF then Ok ([], [], l) else if skips (l_cur l) then l1 <- next l ;; parseLoop run n l1
  else '(x, l1) <- nodeAt n l ;; '(nds, iss, l2) <- parseLoop run n l1 ;; Ok (fst x :: nds, snd x ++ iss, l2).
Proof.
  cbn [parseLoop]. unfold nodeAt. destruct (l_cur l); cbn [teq skips]; try reflexivity; try (destruct (parseQualifiedRule run n false l) as [[r l1]|? ?|]; reflexivity).
  destruct (parseAtRule run n l) as [[[nd i] l1]|? ?|]; reflexivity.
Qed.
Lemma loop_end n : forall l nds is_ l1, onw l -> parseLoop run n l = Ok (nds, is_, l1) -> Forall (fun nd => l_lastPos l <= sp_end (nodeSpan nd))%nat nds.
Proof.
  induction n as [|n IH]; intros l nds is_ l1 W E; [discriminate|]. rewrite loop_cases in E. destruct (teq _ _); [injection E as <- <- <-; constructor|]. destruct (skips _).
  - apply bind_inv in E as (l2 & E2 & E). destruct (RL_next _ _ _ Hk Hk' Hc l l (fwd_refl _ _ W) _ E2) as [F2 _]. pose proof (fwd_last _ _ _ (proj1 F2) F2). eapply Forall_impl; [|exact (IH _ _ _ _ (proj1 F2) E)]. cbn beta. intros. lia.
  - apply bind_inv in E as ([x l2] & E2 & E). apply bind_inv in E as ([[nds2 iss2] l3] & E3 & E). injection E as <- <- <-. destruct (node_later n l W _ _ E2) as (F2 & L2 & _). constructor; [exact L2|].
    pose proof (fwd_last _ _ _ (proj1 F2) F2). eapply Forall_impl; [|exact (IH _ _ _ _ (proj1 F2) E3)]. cbn beta. intros. lia.
Qed.
Lemma loop_later n : forall l nds is_ l1 pre nd post nds' is' l1', onw l -> parseLoop run n l = Ok (nds, is_, l1) -> parseLoop run n (sw l) = Ok (nds', is', l1') ->
  nds = pre ++ nd :: post -> wellBefore k nd ->
  exists post', nds' = pre ++ post' /\ (closed nd -> exists post2, post' = nd :: post2).
Proof.
  induction n as [|n IH]; intros l nds is_ l1 pre nd post nds' is' l1' W E E' Hn Wb; [discriminate|]. pose proof (loop_end _ _ _ _ _ W E) as Hl. rewrite loop_cases in E, E'. change (l_cur (sw l)) with (l_cur l) in E'.
  destruct (teq _ _); [injection E as <- <- <-; destruct pre; discriminate Hn|]. destruct (skips _).
  - apply bind_inv in E as (l2 & E2 & E). destruct (RL_next _ _ _ Hk Hk' Hc l l (fwd_refl _ _ W) _ E2) as [F2 S2].
    pose proof (loop_end _ _ _ _ _ (proj1 F2) E) as H2. rewrite Hn in H2. apply Forall_app in H2 as [_ H2]. inversion H2 as [|? ? H3 _]; subst. rewrite (S2 (near_early _ _ (proj1 F2) H3 Wb)) in E'. cbn [bind] in E'. exact (IH _ _ _ _ _ _ _ _ _ _ (proj1 F2) E E' eq_refl Wb).
  - apply bind_inv in E as ([x l2] & E2 & E). apply bind_inv in E as ([[nds2 iss2] l3] & E3 & E). injection E as <- <- <-. destruct (node_later n l W _ _ E2) as (F2 & L2 & S2).
    destruct pre as [|p pre]; cbn [app] in Hn; injection Hn as Hx Hn.
    + exists nds'. split; [reflexivity|]. intros Cl. rewrite <- Hx in *. apply bind_inv in E' as (y & Ey & E'). destruct (proj1 (proj1 (S2 Logic.I) Cl Wb) _ Ey) as (l4 & -> & _). apply bind_inv in E' as ([[nds3 iss3] l5] & _ & E'). injection E' as <- <- <-. eauto.
    + subst p.
      pose proof (loop_end _ _ _ _ _ (proj1 F2) E3) as H2. rewrite Hn in H2. apply Forall_app in H2 as [_ H2]. inversion H2 as [|? ? H3 _]; subst.
      rewrite (proj2 (S2 Logic.I) (near_early _ _ (proj1 F2) H3 Wb)) in E'. cbn [bind] in E'. apply bind_inv in E' as ([[nds3 iss3] l5] & E4 & E'). injection E' as <- <- <-.
      destruct (IH _ _ _ _ _ _ _ _ _ _ (proj1 F2) E3 E4 eq_refl Wb) as (post' & -> & H). exists post'. split; [reflexivity|exact H].
Qed.
Lemma qrule_start n : forall b st pr l r l1, qruleLoop run n b st pr l = Ok (r, l1) -> sp_start (r_sp r) = st.
Proof.
  induction n as [|n IH]; intros b st pr l r l1 E; [discriminate|]. cbn [qruleLoop] in E. 
  destruct (l_cur l); try discriminate E;
    try (destruct b; apply bind_inv in E as ([x l2] & _ & E); eapply IH; exact E).
  apply bind_inv in E as ([[bsp ds] l2] & _ & E). injection E as <- <-. reflexivity.
Qed.
Lemma node_start n l x l1 : nodeAt n l = Ok (x, l1) -> sp_start (nodeSpan (fst x)) = l_start l.
Proof.
  unfold nodeAt. intros E.
  assert (G : ('(r, l1) <- parseQualifiedRule run n false l ;; Ok (NRule r, @nil (bytes * ptr), l1)) = Ok (x, l1) -> sp_start (nodeSpan (fst x)) = l_start l).
  { intros E'. apply bind_inv in E' as ([r l2] & E2 & E'). injection E' as <- <-. exact (qrule_start _ _ _ _ _ _ _ E2). }
  destruct (l_cur l); try exact (G E). clear G. unfold parseAtRule, parseImportAtRule, parseMediaAtRule, parseKeyframes, parseCustomMediaAtRule, parseGenericAtRule in E. cbv zeta in E.
  destruct (beq _ _); [|destruct (beq _ _); [|destruct (bmem _ _); [|destruct (beq _ _)]]].
  - apply bind_inv in E as ([[a i] l2] & E2 & E). injection E as <- <-. apply bind_inv in E2 as (l3 & _ & E2). apply bind_inv in E2 as ([[p t] l4] & _ & E2). apply bind_inv in E2 as ([[q|] l5] & _ & E2); injection E2 as <- _ _; reflexivity.
  - apply bind_inv in E as ([a l2] & E2 & E). injection E as <- <-. apply bind_inv in E2 as (l3 & _ & E2). apply bind_inv in E2 as ([q l5] & _ & E2). apply bind_inv in E2 as (l6 & _ & E2). apply bind_inv in E2 as ([[rs e] l7] & _ & E2). injection E2 as <- _. reflexivity.
  - apply bind_inv in E as ([a l2] & E2 & E). injection E as <- <-. apply bind_inv in E2 as (l3 & _ & E2). apply bind_inv in E2 as (q & _ & E2). apply bind_inv in E2 as (l4 & _ & E2). apply bind_inv in E2 as (l6 & _ & E2). apply bind_inv in E2 as ([[rs e] l7] & _ & E2). injection E2 as <- _. reflexivity.
  - apply bind_inv in E as ([a l2] & E2 & E). injection E as <- <-. apply bind_inv in E2 as (l3 & _ & E2). apply bind_inv in E2 as ([v l4] & _ & E2). destruct v; try discriminate E2. apply bind_inv in E2 as ([[[qsp [|q [|? ?]]]|] l5] & _ & E2); try discriminate E2. injection E2 as <- _. reflexivity.
  - apply bind_inv in E as ([a l2] & E2 & E). injection E as <- <-. apply bind_inv in E2 as (l3 & _ & E2). apply bind_inv in E2 as ([[bsp ds] l4] & _ & E2). injection E2 as <- _. reflexivity.
Qed.
(** An error in the other file comes after the rules that are the same. *)
Lemma loop_late n : forall l nds is_ l1 pre nd post sp msg ln, onw l -> parseLoop run n l = Ok (nds, is_, l1) -> parseLoop run n (sw l) = Panic (PLex sp msg) ln ->
  nds = pre ++ nd :: post -> wellBefore k nd ->
  (sp_start (nodeSpan nd) <= sp_start sp)%nat /\ (closed nd -> (sp_end (nodeSpan nd) <= sp_start sp)%nat).
Proof.
  induction n as [|n IH]; intros l nds is_ l1 pre nd post sp msg ln W E E' Hn Wb; [discriminate|].
  pose proof (loop_end _ _ _ _ _ W E) as Hl. rewrite Hn in Hl. apply Forall_app in Hl as [_ Hl]. inversion Hl as [|? ? Hl1 _]; subst. pose proof (near_early _ _ W Hl1 Wb) as Le. pose proof (onw_sw l W Le) as W'.
  assert (Hs : (l_start l <= sp_start sp)%nat) by exact (proj2 (loop_err c' run (S n) (sw l) W') _ _ _ E').
  rewrite loop_cases in E, E'. change (l_cur (sw l)) with (l_cur l) in E'.
  destruct (teq _ _); [injection E as E _ _; destruct pre; discriminate E|]. destruct (skips _).
  - apply bind_inv in E as (l2 & E2 & E). destruct (RL_next _ _ _ Hk Hk' Hc l l (fwd_refl _ _ W) _ E2) as [F2 S2].
    pose proof (loop_end _ _ _ _ _ (proj1 F2) E) as H2. apply Forall_app in H2 as [_ H2]. inversion H2 as [|? ? H3 _]; subst. rewrite (S2 (near_early _ _ (proj1 F2) H3 Wb)) in E'. cbn [bind] in E'. exact (IH _ _ _ _ _ _ _ _ _ _ (proj1 F2) E E' eq_refl Wb).
  - apply bind_inv in E as ([x l2] & E2 & E). apply bind_inv in E as ([[nds2 iss2] l3] & E3 & E). injection E as Hn _ _. destruct (node_later n l W _ _ E2) as (F2 & L2 & S2).
    destruct pre as [|p pre]; cbn [app] in Hn; injection Hn as Hx Hn.
    + split; [rewrite <- Hx, (node_start _ _ _ _ E2); exact Hs|]. intros Cl. rewrite <- Hx in *. destruct (proj1 (S2 Logic.I) Cl Wb) as [T3 T4]. destruct (nodeAt n (sw l)) as [y|p0 ln0|] eqn:Ey; cbn [bind] in E'; [|injection E' as -> ->; exact (T4 _ _ _ eq_refl)|discriminate E'].
      destruct (T3 _ eq_refl) as (l4 & -> & W4 & L4). destruct (parseLoop run n l4) as [[[nds3 iss3] l5]|p0 ln0|] eqn:E4; cbn [bind] in E'; [discriminate E'| |discriminate E']. injection E' as -> ->.
      pose proof (proj2 (loop_err c' run n l4 W4) _ _ _ E4). unfold nodeEnd in L4. lia.
    + subst.
      pose proof (loop_end _ _ _ _ _ (proj1 F2) E3) as H2. apply Forall_app in H2 as [_ H2]. inversion H2 as [|? ? H3 _]; subst.
      rewrite (proj2 (S2 Logic.I) (near_early _ _ (proj1 F2) H3 Wb)) in E'. cbn [bind] in E'.
      destruct (parseLoop run n (sw l2)) as [[[nds3 iss3] l5]|p0 ln0|] eqn:E4; cbn [bind] in E'; [discriminate E'| |discriminate E']. injection E' as -> ->.
      exact (IH _ _ _ _ _ _ _ _ _ _ (proj1 F2) E3 E4 eq_refl Wb).
Qed.
End Run.
End Two.
