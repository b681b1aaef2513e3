(** The parser theorems: termination, crashes, recovery, imports. *)
From Verif Require Import Bytes Utf8 Source Lexer BytesFacts LexSpec LexFacts LexNext LexProps Ast Parser ParserSpec ParseMono ParseInv ParseSound.
From Coq Require Import Sorting.Sorted.

Section WithUnicode.
Context {U : UnicodeDigits}.

Lemma newLexer_noTimeout content : newLexer content [] <> Timeout.
Proof.
  destruct (first_step content) as (F1 & F2 & _). pose proof (call_go content _ F1 F2) as G.
  unfold newLexer. intros E. rewrite E in G. exact G.
Qed.

Section Run.
Variable run : nat.

(** * Termination *)
Lemma C10_lemma content :
  (forall i, ~ stuck (skipn i content)) -> ~ badMath content ->
  (forall l, visits run content InDecls l -> ~ lostDeclaration l) ->
  forall n, (10 * length content + 18 <= n)%nat -> parse run n content <> ParseTimeout.
Proof.
  intros H1 H2 H3 n Hn. unfold parse. pose proof (newLexer_noTimeout content).
  destruct (newLexer content []) as [l|p ls|] eqn:El; try congruence.
  pose proof (Tr_parseLoop run content True True (fun _ => H1) (fun _ => H2) (fun _ => H3) (fun _ => I) (fun _ => I) n l
    (pNew _ _ El) (vStart _ _ _ El)) as R.
  unfold Tr in R. destruct (parseLoop run n l) as [[[nds is] l1]|[sp m|] ls|]; try discriminate.
  specialize (R I). assert (Wt content l <= S (length content))%nat by (unfold Wt; destruct (teq _ _); lia). lia.
Qed.

(** The computation does not finish, whatever the budget. *)
Definition loops {A} (f : nat -> res A) : Prop := forall n, f n = Timeout.
Definition loopAt (p : place) (l : lexer) : Prop :=
  match p with
  | Top => loops (fun n => parseLoop run n l)
  | InRules k => loops (fun n => rulesLoop run n k l)
  | InPrelude k => forall st pr, loops (fun n => qruleLoop run n k st pr l)
  | InDecls => loops (fun n => declBlockLoop n l)
  end.
Lemma lef_ok {A} (f : nat -> res A) a n0 : (forall n m, (n <= m)%nat -> lef (f n) (f m)) -> f n0 = Ok a ->
  forall n, f n = Timeout \/ f n = Ok a.
Proof.
  intros H H0 n. destruct (Nat.le_ge_cases n n0) as [Hle|Hle]; destruct (H _ _ Hle) as [X|X].
  - auto.
  - right. congruence.
  - congruence.
  - right. congruence.
Qed.
Lemma teq_refl t : teq t t = true.
Proof. unfold teq. destruct (token_eq_dec t t); congruence. Qed.
Lemma teq_neq a b : a <> b -> teq a b = false.
Proof. unfold teq. destruct (token_eq_dec a b); congruence. Qed.

Lemma plainTop_loop n l : plainTop (l_cur l) = true -> parseLoop run (S n) l =
  ('(r, l1) <- parseQualifiedRule run n false l ;;
   '(nds, iss, l2) <- parseLoop run n l1 ;; Ok (NRule r :: nds, iss, l2)).
Proof. cbn [parseLoop]. destruct (l_cur l); try discriminate; reflexivity. Qed.
Lemma rulesLoop_inner n k l : l_cur l <> RCurly -> l_cur l <> EOF -> rulesLoop run (S n) k l =
  ('(r, l1) <- parseQualifiedRule run n k l ;; '(rs, e, l2) <- rulesLoop run n k l1 ;; Ok (r :: rs, e, l2)).
Proof. intros H1 H2. cbn [rulesLoop]. destruct (l_cur l); try congruence; reflexivity. Qed.
Lemma qrule_eof n k st pr l x : l_cur l = EOF -> qruleLoop run n k st pr l <> Ok x.
Proof. intros H E. destruct n; cbn [qruleLoop] in E; [discriminate|]. rewrite H in E. discriminate. Qed.

Lemma atRule_media n l l1 n0 q l2 l3 : l_str l = B "media" -> next l = Ok l1 -> parseMediaQueryList n0 l1 = Ok (q, l2) ->
  expect LCurly l2 = Ok l3 -> loopAt (InRules false) l3 -> parseAtRule run n l = Timeout.
Proof.
  intros Hs E1 E2 E3 HL. unfold parseAtRule. rewrite Hs. change (beq (B "media") (B "import")) with false.
  change (beq (B "media") (B "media")) with true. cbn [bind]. unfold parseMediaAtRule. rewrite E1. cbn [bind].
  destruct (lef_ok (fun n => parseMediaQueryList n l1) _ _ (fun n m H => parseMql_mono n m l1 H) E2 n) as [-> | ->]; [reflexivity|].
  cbn [bind]. rewrite E3. cbn [bind]. rewrite HL. reflexivity.
Qed.

Lemma visits_loops content p l : visits run content p l -> loopAt p l -> forall n, parse run n content = ParseTimeout.
Proof.
  intros Hv. induction Hv as
    [l E|l l1 Hv IH Hc E|l n0 nd is l1 Hv IH Hc E|l n0 r l1 Hv IH Hc E|l Hv IH Hc
    |l l1 n0 q l2 l3 Hv IH Hc Hs E1 E2 E3|l l1 l2 l3 Hv IH Hc Hs E1 Hi E2 E3|l l1 l2 Hv IH Hc Hk E1 E2
    |k l n0 r l1 Hv IH Hc E|k l Hv IH Hc|l n0 s l1 Hv IH Hc E|l n0 s l1 Hv IH Hc E|k l l1 Hv IH Hc E
    |l n0 d l1 l2 Hv IH Hc E1 E2]; intros HL.
  - intros n. unfold parse. rewrite E, HL. reflexivity.
  - apply IH. intros [|n]; [reflexivity|]. cbn [parseLoop].
    cbn in Hc. destruct Hc as [Hc|[Hc|[Hc|[]]]]; rewrite <- Hc, E; apply HL.
  - apply IH. intros [|n]; [reflexivity|]. cbn [parseLoop]. rewrite Hc.
    destruct (lef_ok (fun n => parseAtRule run n l) _ _ (fun n m H => parseAtRule_mono run n m l H) E n) as [-> | ->]; [reflexivity|].
    cbn [bind]. rewrite HL. reflexivity.
  - apply IH. intros [|n]; [reflexivity|]. rewrite plainTop_loop by auto.
    unfold parseQualifiedRule in *.
    destruct (lef_ok (fun n => qruleLoop run n false (sp_start (tokenSpan l)) PrNil l) _ _
      (fun n m H => qruleLoop_mono run n m H _ _ _ _) E n) as [-> | ->]; [reflexivity|].
    cbn [bind]. rewrite HL. reflexivity.
  - apply IH. intros [|n]; [reflexivity|]. rewrite plainTop_loop by auto. unfold parseQualifiedRule.
    rewrite HL. reflexivity.
  - apply IH. intros [|n]; [reflexivity|]. cbn [parseLoop]. rewrite Hc. 
    rewrite (atRule_media n l l1 n0 q l2 l3); auto.
  - apply IH. intros [|n]; [reflexivity|]. cbn [parseLoop]. rewrite Hc. unfold parseAtRule.
    assert (X : beq (l_str l) (B "import") = false /\ beq (l_str l) (B "media") = false).
    { cbn in Hs. split; apply beq_neq; intros Y; rewrite Y in Hs; intuition discriminate. }
    destruct X as [-> ->]. apply bmem_In in Hs. rewrite Hs. unfold parseKeyframes. rewrite E1. cbn [bind].
    assert (X : exists pre, match l_cur l1 with
         | TString => Ok (APString (tokenSpan l1) (l_str l1))
         | Ident => Ok (APIdent (tokenSpan l1) (l_str l1))
         | _ => errorf l1 (B "unexpected token " ++ tokenString (l_cur l1) ++ B ", expected string or identifier for keyframes")
         end = Ok pre) by (destruct Hi as [Hi|Hi]; rewrite Hi; eauto).
    destruct X as [pre ->]. cbn [bind]. rewrite E2. cbn [bind]. rewrite E3. cbn [bind]. rewrite HL. reflexivity.
  - apply IH. intros [|n]; [reflexivity|]. cbn [parseLoop]. rewrite Hc. unfold parseAtRule.
    assert (X : beq (l_str l) (B "import") = false /\ beq (l_str l) (B "media") = false /\ beq (l_str l) (B "custom-media") = false /\
      bmem (l_str l) [B "keyframes"; B "-webkit-keyframes"; B "-o-keyframes"] = false).
    { unfold knownAtRule in Hk. cbn [In] in Hk. repeat split.
      1-3: apply beq_neq; intros Y; apply Hk; rewrite Y; tauto.
      destruct (bmem _ _) eqn:Y; auto. apply bmem_In in Y. cbn [In] in Y. destruct Hk. tauto. }
    destruct X as (-> & -> & -> & ->). unfold parseGenericAtRule, parseDeclarationBlock. rewrite E1. cbn [bind]. rewrite E2. cbn [bind].
    rewrite HL. reflexivity.
  - apply IH. intros [|n]; [reflexivity|].
    assert (He : l_cur l <> EOF) by (intros X; eapply qrule_eof; eauto).
    rewrite rulesLoop_inner by auto. unfold parseQualifiedRule in *.
    destruct (lef_ok (fun n => qruleLoop run n k (sp_start (tokenSpan l)) PrNil l) _ _
      (fun n m H => qruleLoop_mono run n m H _ _ _ _) E n) as [-> | ->]; [reflexivity|].
    cbn [bind]. rewrite HL. reflexivity.
  - apply IH. intros [|n]; [reflexivity|].
    assert (He : l_cur l <> EOF).
    { intros X. specialize (HL 0%nat PrNil 1%nat). cbn [qruleLoop] in HL. rewrite X in HL. discriminate. }
    rewrite rulesLoop_inner by auto. unfold parseQualifiedRule. rewrite HL. reflexivity.
  - apply IH. intros st pr [|n]; [reflexivity|].
    assert (He : l_cur l <> EOF).
    { intros X. destruct n0 as [|[|[|[|n0]]]]; cbn [parseSelectorList selListLoop parseSelector partsLoop bind] in E; try discriminate E;
        rewrite X in E; discriminate E. }
    assert (Hq : qruleLoop run (S n) false st pr l = ('(sl, l1) <- parseSelectorList n l ;; qruleLoop run n false st (PrSel sl) l1)).
    { cbn [qruleLoop]. destruct (l_cur l); try congruence; reflexivity. }
    rewrite Hq. destruct (lef_ok (fun n => parseSelectorList n l) _ _ (fun n m H => parseSelectorList_mono n m _ H) E n) as [-> | ->]; [reflexivity|].
    cbn [bind]. apply HL.
  - apply IH. intros st pr [|n]; [reflexivity|].
    assert (He : l_cur l <> EOF).
    { intros X. destruct n0 as [|n0]; unfold parseKeyframeSelectorList in E; cbn [keyLoop bind] in E; [discriminate E|].
      rewrite X in E. discriminate E. }
    assert (Hq : qruleLoop run (S n) true st pr l = ('(pr1, l1) <- parseKeyframeSelectorList n l ;; qruleLoop run n true st pr1 l1)).
    { cbn [qruleLoop]. destruct (l_cur l); try congruence; reflexivity. }
    rewrite Hq. destruct (lef_ok (fun n => parseKeyframeSelectorList n l) _ _ (fun n m H => parseKey_mono n m _ H) E n) as [-> | ->]; [reflexivity|].
    cbn [bind]. apply HL.
  - apply IH. intros st pr [|n]; [reflexivity|]. cbn [qruleLoop]. rewrite Hc. unfold parseDeclarationBlock. rewrite E. cbn [bind].
    rewrite HL. reflexivity.
  - apply IH. intros [|n]; [reflexivity|]. cbn [declBlockLoop]. rewrite teq_neq by auto.
    destruct (lef_ok (fun n => parseDeclarationOrFallback n l) _ _ (fun n m H => fallback_mono n m _ H) E1 n) as [-> | ->]; [reflexivity|].
    cbn [bind]. rewrite E2. cbn [bind]. rewrite HL. reflexivity.
Qed.

Lemma next_atEnd content l : pstate content l -> l_lastPos l = length content -> exists l1, next l = Ok l1 /\ l_cur l1 = EOF.
Proof.
  intros Hp Hl. destruct (pstate_wfl _ _ Hp) as (C1 & C2 & _).
  assert (Hr : rest l = []) by (unfold rest; rewrite C1, Hl; apply skipn_all).
  apply cwf_eof in Hr; auto. unfold next, lfuel. cbn [nextLoop].
  change (l_ch (setStart l (l_lastPos l))) with (l_ch l). rewrite Hr. eexists. split; reflexivity.
Qed.

Lemma raw_loops content l : noSemicolon l -> pstate content l -> loops (fun n => rawLoop n l).
Proof.
  intros H. induction H as [l He|l l1 Hc E H IH]; intros Hp.
  - assert (Hall : forall n l, pstate content l -> l_cur l = EOF -> rawLoop n l = Timeout).
    { clear l He Hp. induction n as [|n IHn]; intros l Hp He; [reflexivity|]. cbn [rawLoop]. rewrite teq_neq by congruence.
      pose proof (wfl_eof _ _ (pstate_wfl _ _ Hp) He) as [Hs Hl].
      destruct (next_atEnd _ _ Hp Hl) as (l1 & E & E1). rewrite E. cbn [bind]. apply IHn; auto. eapply pNext; eauto. }
    intros n. eapply Hall; eauto.
  - intros [|n]; [reflexivity|]. cbn [rawLoop]. rewrite teq_neq by auto. rewrite E. cbn [bind].
    apply IH. eapply pNext; eauto.
Qed.

Lemma visits_pstate content p l : visits run content p l -> pstate content l.
Proof.
  assert (TS : False -> forall i, ~ stuck (skipn i content)) by tauto.
  assert (TM : False -> ~ badMath content) by tauto.
  assert (TL : False -> forall l, visits run content InDecls l -> ~ lostDeclaration l) by tauto.
  assert (EM : badMath content -> True) by auto. assert (EC : badCustomMedia content -> True) by auto.
  intros Hv. induction Hv as
    [l E|l l1 Hv IH Hc E|l n0 nd is l1 Hv IH Hc E|l n0 r l1 Hv IH Hc E|l Hv IH Hc
    |l l1 n0 q l2 l3 Hv IH Hc Hs E1 E2 E3|l l1 l2 l3 Hv IH Hc Hs E1 Hi E2 E3|l l1 l2 Hv IH Hc Hk E1 E2
    |k l n0 r l1 Hv IH Hc E|k l Hv IH Hc|l n0 s l1 Hv IH Hc E|l n0 s l1 Hv IH Hc E|k l l1 Hv IH Hc E
    |l n0 d l1 l2 Hv IH Hc E1 E2]; auto.
  - apply pNew; auto.
  - eapply pNext; eauto.
  - pose proof (Tr_atRule run content False True TS TM TL EM EC n0 l IH Hv Hc) as R. rewrite E in R. apply R.
  - pose proof (Tr_qrule run content False True TS TM TL EM n0 false (sp_start (tokenSpan l)) PrNil l IH) as R.
    unfold parseQualifiedRule in E. rewrite E in R. apply R. apply vTopPrelude; auto.
  - assert (P1 : pstate content l1) by (eapply pNext; eauto).
    pose proof (Tr_mql content False True TS TM EM n0 l1 P1) as R. rewrite E2 in R.
    unfold expect in E3. destruct (negb _) in E3; [discriminate|]. eapply pNext; [|exact E3]. apply R.
  - assert (P1 : pstate content l1) by (eapply pNext; eauto). assert (P2 : pstate content l2) by (eapply pNext; eauto).
    unfold expect in E3. destruct (negb _) in E3; [discriminate|]. eapply pNext; [|exact E3]. auto.
  - assert (P1 : pstate content l1) by (eapply pNext; eauto). eapply pNext; eauto.
  - pose proof (Tr_qrule run content False True TS TM TL EM n0 k (sp_start (tokenSpan l)) PrNil l IH) as R.
    unfold parseQualifiedRule in E. rewrite E in R. apply R. apply vInnerPrelude; auto.
  - pose proof (Tr_selectors content False True TS TM EM n0 l IH) as R. rewrite E in R. apply R.
  - pose proof (Tr_key content False True TS n0 l IH) as R. rewrite E in R. apply R.
  - eapply pNext; eauto.
  - pose proof (Tr_fallback run content False True TS TM TL EM n0 l IH Hv Hc) as R. rewrite E1 in R.
    assert (P1 : pstate content l1) by apply R.
    destruct (teq (l_cur l1) Semicolon); [eapply pNext; eauto|]. inversion E2; subst; auto.
Qed.

(** A declaration that does not parse and has no semicolon after it. *)
Lemma C10_lost_lemma content l : visits run content InDecls l -> lostDeclaration l ->
  forall n, parse run n content = ParseTimeout.
Proof.
  intros Hv (Hc & n0 & p & lines & Hd & Hs). apply (visits_loops _ _ _ Hv). intros [|n]; [reflexivity|].
  cbn [declBlockLoop]. rewrite teq_neq by auto. unfold parseDeclarationOrFallback.
  assert (X : parseDeclaration n l = Timeout \/ parseDeclaration n l = Panic p lines).
  { destruct (Nat.le_ge_cases n n0) as [Hle|Hle]; destruct (parseDeclaration_mono _ _ l Hle) as [X|X]; auto.
    - right. congruence.
    - congruence.
    - right. congruence. }
  destruct X as [-> | ->]; [reflexivity|]. unfold parseRaw.
  rewrite (raw_loops content); auto. apply pLines. eapply visits_pstate; eauto.
Qed.

(** A token with no place in a math function, right after its parenthesis. *)
Lemma stray_operand n l : strayToken l -> mathParen n l = Timeout \/ mathParen n l = Ok (VNil, l).
Proof.
  intros (H1 & H2 & H3 & _). destruct n as [|[|n]]; auto; cbn [mathParen].
  - destruct (l_cur l); try discriminate H1; cbn; auto.
  - unfold teq. destruct (token_eq_dec (l_cur l) LParen) as [E|E]; [rewrite E in H1; discriminate|]. cbn [negb].
    right. cbn [parseValue]. destruct (l_cur l); try discriminate H1; try congruence; reflexivity.
Qed.
Lemma notOperator l ops : ~ isOperator l -> (forall o, In o ops -> In o [B "+"; B "-"; B "*"; B "/"]) -> curDelim l ops = false.
Proof.
  intros H Ho. destruct (curDelim l ops) eqn:E; auto. destruct H. unfold curDelim in E.
  apply Bool.andb_true_iff in E as [E1 E2]. split; [apply teq_true; auto|]. apply Ho. apply bmem_In; auto.
Qed.
Lemma stray_product n l : strayToken l -> mathProduct n l = Timeout \/ mathProduct n l = Ok (VNil, l).
Proof.
  intros H. destruct n as [|n]; auto. cbn [mathProduct].
  destruct (stray_operand n l H) as [E|E].
  - left. change (bind (mathParen n l) (fun x => let '(lhs, l1) := x in mathProductLoop n lhs l1) = Timeout). rewrite E. reflexivity.
  - change (bind (mathParen n l) (fun x => let '(lhs, l1) := x in mathProductLoop n lhs l1) = Timeout \/
            bind (mathParen n l) (fun x => let '(lhs, l1) := x in mathProductLoop n lhs l1) = Ok (VNil, l)).
    rewrite E. cbn [bind]. destruct n as [|n]; auto. cbn [mathProductLoop].
    rewrite notOperator; [auto|apply H|]. cbn; tauto.
Qed.
Lemma stray_sum n l : strayToken l -> mathSum n l = Timeout \/ mathSum n l = Ok (VNil, l).
Proof.
  intros H. destruct n as [|n]; auto. cbn [mathSum].
  change (bind (mathProduct n l) (fun x => let '(lhs, l1) := x in mathSumLoop n lhs l1) = Timeout \/
            bind (mathProduct n l) (fun x => let '(lhs, l1) := x in mathSumLoop n lhs l1) = Ok (VNil, l)).
  destruct (stray_product n l H) as [E|E]; rewrite E; cbn [bind]; auto.
  destruct n as [|n]; auto. cbn [mathSumLoop]. rewrite notOperator; [auto|apply H|]. cbn; tauto.
Qed.
Lemma args_loop name l : isMathName name = true -> strayToken l -> loops (fun n => argsLoop n name l).
Proof.
  intros Hn Hs. intros n. induction n as [|n IH]; [reflexivity|]. cbn [argsLoop].
  pose proof Hs as (_ & H2 & H3 & _). rewrite !teq_neq by auto. rewrite Hn.
  change (bind (mathSum n l) (fun x => let '(v, l1) := x in bind (argsLoop n name l1)
    (fun x => let '(vs, e, l2) := x in Ok (v :: vs, e, l2))) = Timeout).
  destruct (stray_sum n l Hs) as [-> | ->]; [reflexivity|]. cbn [bind]. rewrite IH. reflexivity.
Qed.

(** A declaration whose first value is a math function that begins with such a
    token. *)
Lemma C10_stray_lemma content l l1 l2 l3 : visits run content InDecls l ->
  l_cur l = Ident -> next l = Ok l1 -> l_cur l1 = Colon -> next l1 = Ok l2 ->
  l_cur l2 = FunctionStart -> isMathName (l_str l2) = true -> next l2 = Ok l3 -> strayToken l3 ->
  forall n, parse run n content = ParseTimeout.
Proof.
  intros Hv H0 E0 H1 E1 H2 Hm E2 Hs. apply (visits_loops _ _ _ Hv). intros [|n]; [reflexivity|].
  cbn [declBlockLoop]. rewrite teq_neq by congruence. unfold parseDeclarationOrFallback.
  assert (X : parseDeclaration n l = Timeout).
  { unfold parseDeclaration. rewrite H0. change (teq Ident Delim) with false. cbn [andb bind].
    unfold expect. rewrite H0. change (teq Ident Ident) with true. cbn [negb]. rewrite E0. cbn [bind].
    rewrite H1. change (teq Colon Colon) with true. cbn [negb]. rewrite E1. cbn [bind].
    destruct n as [|n]; [reflexivity|]. cbn [declLoop]. rewrite H2.
    destruct n as [|n]; [reflexivity|]. cbn [parseValue]. rewrite H2.
    assert (Hv2 : beq (l_str l2) (B "var") = false \/ True) by auto.
    rewrite E2. cbn [bind].
    change (argsLoop n (l_str l2) l3) with (argsLoop n (l_str l2) l3).
    pose proof (args_loop (l_str l2) l3 Hm Hs n) as L.
    match goal with |- context [bind ?m _] => change m with (argsLoop n (l_str l2) l3) end. rewrite L. reflexivity. }
  rewrite X. reflexivity.
Qed.

(** * Crashes *)
Lemma C11_lemma content n : 
  (parse run n content = ParseCrash ->
     (exists p lines, newLexer content [] = Panic p lines) \/ badMath content \/ badCustomMedia content) /\
  (forall sp msg lines, parse run n content = ParseErr sp msg lines -> (sp_start sp <= sp_end sp <= length content)%nat).
Proof.
  unfold parse. destruct (newLexer content []) as [l|p ls|] eqn:El.
  - pose proof (Tr_parseLoop run content False (badMath content \/ badCustomMedia content)) as R.
    assert (R1 : Tr content False (badMath content \/ badCustomMedia content) n (10 * Wt content l + 8) (parseLoop run n l)
      (fun a => go content False false l (snd a) /\ l_cur (snd a) = EOF)).
    { apply R; try tauto; [apply pNew; auto|apply vStart; auto]. }
    unfold Tr in R1. destruct (parseLoop run n l) as [[[nds is] l1]|[sp m|] ls|]; split; try discriminate; auto.
    intros sp0 msg lines H. inversion H; subst. exact R1.
  - split; [eauto|discriminate].
  - split; discriminate.
Qed.

(** * Recovery *)
Lemma raw_to n : forall l ls, rawLoop n l = Ok ls -> toSemicolon l ls.
Proof.
  induction n as [|n IH]; intros l ls H; cbn [rawLoop] in H; [discriminate|].
  destruct (teq (l_cur l) Semicolon) eqn:E.
  - inversion H; subst. apply tsHere. apply teq_true; auto.
  - apply bind_ok in H as (l1 & E1 & H). eapply tsNext; eauto. apply teq_false; auto.
Qed.
Lemma to_raw l ls : toSemicolon l ls -> exists n, rawLoop n l = Ok ls.
Proof.
  induction 1 as [l E|l l1 ls E E1 _ (n & IH)].
  - exists 1%nat. cbn [rawLoop]. rewrite E. reflexivity.
  - exists (S n). cbn [rawLoop]. rewrite teq_neq by auto. rewrite E1. exact IH.
Qed.
Lemma to_semi content l ls : toSemicolon l ls -> pstate content l ->
  pstate content ls /\ (l_start l <= l_start ls)%nat /\ l_cur ls = Semicolon.
Proof.
  induction 1 as [l E|l l1 ls E E1 _ IH]; intros Hp; auto.
  pose proof (pstate_call _ _ Hp) as G. rewrite E1 in G. cbn in G. destruct G as (_ & G & _).
  destruct IH as (I1 & I2 & I3); [eapply pNext; eauto|]. destruct (pstate_wfl _ _ Hp) as (_ & _ & W & _).
  repeat split; auto. lia.
Qed.
Lemma semi_text content l : pstate content l -> l_cur l = Semicolon -> exists s, sub content (l_start l) (l_lastPos l) = s ++ B ";".
Proof.
  intros Hp E. destruct (pstate_wfl _ _ Hp) as (_ & _ & _ & W & _). rewrite E in W. cbn in W.
  destruct W as [-> | ->]; [exists []; reflexivity|exists [CR]; reflexivity].
Qed.
End Run.
End WithUnicode.
