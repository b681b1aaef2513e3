(** Plain readings are found by the parser: rules, media queries, at-rules
    and the file. *)
From Verif Require Import Bytes Utf8 Source Lexer BytesFacts LexSpec LexFacts LexNext LexProps LexSame Ast Parser ParserSpec ParseMono ParseInv ParseSound ReadSpec ReadProofs FullValue FullDecl FullSel.

Section WithUnicode.
Context {U : UnicodeDigits}.
Local Existing Instance noLiberties.
Ltac fuel n := let L := fresh "L" in intros [|n] L; [lia|].
Ltac uses E := rewrite E by lia; cbn [bind].
Ltac expects t l l1 T := rewrite (expect_next t l l1) by (auto; rewrite (toks_cur _ _ _ T); auto).

(** * Keyframe selectors *)
Lemma keys_first ts ks : gKeys ts ks -> exists x r k kr, ts = x :: r /\ ks = k :: kr /\ k_kept x = false /\ (k_tok x = Percentage \/ k_tok x = Ident) /\ keySpan k = k_sp x.
Proof.
  intros H. inversion H as [x k G|x k c ts2 ks2 G]; subst; inversion G as [[K F]|[K F] _]; subst; eexists _, _, _, _; split; [reflexivity| |reflexivity| |reflexivity| |reflexivity|]; auto.
Qed.
Definition keyEnd (rest : list tk) : Prop := match rest with y :: _ => k_tok y = LCurly /\ k_kept y = false | [] => False end.
Lemma keys_loop ts ks : gKeys ts ks -> forall l rest, toks l (ts ++ rest) -> l_rws l = false -> keyEnd rest ->
  exists l1, gives (fun n => keyLoop n l) (ks, l1) /\ toks l1 rest /\ l_rws l1 = false.
Proof.
  assert (K : forall x key l r, gKey x key -> toks l (x :: r) ->
    teq (l_cur l) EOF = false /\ match l_cur l with
         | Percentage => Ok (KPercent (tokenSpan l) (l_num l))
         | Ident =>
           if negb (beq (l_str l) (B "from")) && negb (beq (l_str l) (B "to")) then
             errorf l (B "unexpected string: " ++ l_str l ++ B ". keyframe selector can only be from, to, or a percentage")
           else Ok (KIdent (tokenSpan l) (l_str l))
         | _ => errorf l (B "unexepected token: " ++ tokenString (l_cur l) ++ B ". keyframe selector can only be from, to, or a percentage")
         end = Ok key).
  { intros x key l r G T. rewrite (toks_cur _ _ _ T), (toks_num _ _ _ T), (toks_str _ _ _ T), (toks_span _ _ _ T).
    inversion G as [[X1 X2]|[X1 X2] S]; subst; rewrite X1; split; try reflexivity. destruct S as [S|S]; rewrite S; reflexivity. }
  intros H. induction H as [x key G|x key c ts ks G [C1 C2] H IH]; intros l rest T R E; cbn [app] in T; destruct (K _ _ _ _ G T) as [K1 K2].
  - destruct rest as [|y r]; [contradiction|]. destruct E as [E1 E2]. destruct (step1 _ _ _ T R E2) as (l1 & N & T1 & R1). exists l1. split; [|auto].
    exists 1%nat. fuel n. cbn [keyLoop]. rewrite K1. eapply via; [exact K2|]. cbv beta. rewrite N. cbn [bind]. rewrite (toks_cur _ _ _ T1), E1. reflexivity.
  - destruct (step1 _ _ _ T R C2) as (l1 & N & T1 & R1).
    assert (F : fin (ts ++ rest)) by (destruct (keys_first _ _ H) as (x2 & r2 & k2 & kr & -> & _ & F & _); exact F).
    destruct (step1 _ _ _ T1 R1 F) as (l2 & N2 & T2 & R2). destruct (IH l2 rest T2 R2 E) as (l3 & (n0 & E0) & T3 & R3). exists l3. split; [|auto].
    exists (S n0). fuel n. cbn [keyLoop]. rewrite K1. eapply via; [exact K2|]. cbv beta. rewrite N. cbn [bind]. rewrite (toks_cur _ _ _ T1), C1.
    change (teq Comma Comma) with true. cbv iota. rewrite N2. cbn [bind]. uses E0. reflexivity.
Qed.
Lemma keys_found ts ks : gKeys ts ks -> forall l rest, toks l (ts ++ rest) -> l_rws l = false -> keyEnd rest ->
  exists l1, gives (fun n => parseKeyframeSelectorList n l) (PrKey (spanning (map keySpan ks)) ks, l1) /\ toks l1 rest /\ l_rws l1 = false.
Proof.
  intros H l rest T R E. destruct (keys_loop _ _ H l rest T R E) as (l1 & (n0 & E0) & T1 & R1). exists l1. split; [|auto].
  destruct (keys_first _ _ H) as (x & r & k & kr & -> & -> & _ & _ & S). cbn [app] in T.
  exists n0. intros n Hn. unfold parseKeyframeSelectorList. rewrite E0 by lia. cbn [bind]. cbv zeta. rewrite (toks_span _ _ _ T). unfold lastEndOf.
  rewrite (spanning_start (sp_start (k_sp x)) _ _ (keySpan k)); [reflexivity|reflexivity|discriminate|rewrite S; reflexivity].
Qed.

(** * Rules *)
Section Content.
Variable content : bytes.
Variable run : nat.
Definition ruleToken (t : token) : bool := partToken t || teq t LCurly || teq t Percentage.
Lemma rule_first kf ts r : gRule content run kf ts r -> opens ruleToken ts.
Proof.
  intros H. inversion H as [? o ts2 sp ds [O1 O2]|ts1 sels k o ts2 sp ds G|ts1 ks o ts2 sp ds G]; subst.
  - exists o. eexists. split; [reflexivity|]. split; [exact O2|]. unfold ruleToken. rewrite O1. reflexivity.
  - destruct (sels_first _ _ _ _ [] G) as (x & q & -> & K & V & _). exists x. eexists. split; [reflexivity|]. split; [exact K|]. unfold ruleToken. rewrite V. reflexivity.
  - inversion G as [? ? G2|? ? ? ? L]; subst; [|discriminate L]. destruct (keys_first _ _ G2) as (x & q & k & kr & -> & _ & F & K & _).
    exists x. eexists. split; [reflexivity|]. split; [exact F|]. unfold ruleToken. destruct K as [-> | ->]; reflexivity.
Qed.
Lemma brace_found n0 kf st pr o ts sp ds : gBody content o ts sp ds -> k_tok o = LCurly -> forall l rest, toks l (o :: ts ++ rest) -> l_rws l = false -> fin rest ->
  exists l1, (exists n1, forall n, (n0 + n1 <= n)%nat -> qruleLoop run n kf st pr l = Ok (mkRule run (mkSpan st (sp_end sp)) pr sp ds, l1)) /\ toks l1 rest /\ l_rws l1 = false.
Proof.
  intros G O1 l rest T R F. destruct (body_found _ _ _ _ _ G l rest T R F) as (l1 & (n1 & E1) & T1 & R1). exists l1. split; [|auto].
  exists (S n1). fuel n. cbn [qruleLoop]. rewrite (toks_cur _ _ _ T), O1. uses E1. reflexivity.
Qed.
Lemma rule_found kf ts r : gRule content run kf ts r -> forall l rest, toks l (ts ++ rest) -> l_rws l = false -> fin rest ->
  exists l1, gives (fun n => parseQualifiedRule run n kf l) (r, l1) /\ toks l1 rest /\ l_rws l1 = false.
Proof.
  intros H l rest T R F. inversion H as [? o ts2 sp ds [O1 O2] G|ts1 sels k o ts2 sp ds Gs [O1 O2] G|ts1 ks o ts2 sp ds Gk [O1 O2] G]; subst.
  - cbn [app] in T. destruct (brace_found 0 kf (from o) PrNil _ _ _ _ G O1 l rest T R F) as (l1 & (n1 & E1) & H1). exists l1. split; [|exact H1].
    exists n1. intros n Hn. unfold parseQualifiedRule. rewrite (toks_span _ _ _ T). change (sp_start (k_sp o)) with (from o). rewrite E1 by lia.
    destruct G as (? & y & _ & _ & _ & ->). reflexivity.
  - rewrite <- app_assoc in T. cbn [app] in T. destruct (sels_first _ _ _ _ (o :: ts2 ++ rest) Gs) as (x & q & -> & K & V & _ & Hh).
    destruct (sellist_found _ _ _ _ Gs l (o :: ts2 ++ rest) T R) as (l1 & (n0 & E0) & T1 & R1).
    { reflexivity. } { unfold selsEnd, selEnd. rewrite O1. repeat split; discriminate. }
    destruct (brace_found n0 false (from x) (PrSel (spanning (map fst sels), sels)) _ _ _ _ G O1 l1 rest T1 R1 F) as (l2 & (n1 & E1) & H1). exists l2. split; [|exact H1].
    exists (S (n0 + n1)). fuel n. unfold parseQualifiedRule. cbn [app] in T. rewrite (toks_span _ _ _ T). cbn [qruleLoop]. rewrite (toks_cur _ _ _ T).
    change (sp_start (k_sp x)) with (from x). uses E0. uses E1. cbn [app firstFrom]. destruct (k_tok x); try discriminate V; reflexivity.
  - inversion Gk as [? ? G2|? ? ? ? L]; subst; [|discriminate L]. rewrite <- app_assoc in T. cbn [app] in T.
    destruct (keys_found _ _ G2 l (o :: ts2 ++ rest) T R) as (l1 & (n0 & E0) & T1 & R1); [split; auto|].
    destruct (keys_first _ _ G2) as (x & q & k & kr & -> & _ & Fx & K & _).
    destruct (brace_found n0 true (from x) (PrKey (spanning (map keySpan ks)) ks) _ _ _ _ G O1 l1 rest T1 R1 F) as (l2 & (n1 & E1) & H1). exists l2. split; [|exact H1].
    exists (S (n0 + n1)). fuel n. unfold parseQualifiedRule. cbn [app] in T. rewrite (toks_span _ _ _ T). cbn [qruleLoop]. rewrite (toks_cur _ _ _ T).
    change (sp_start (k_sp x)) with (from x). uses E0. uses E1. cbn [app firstFrom]. destruct K as [-> | ->]; reflexivity.
Qed.
Lemma rules_first kf ts rs y rest : gRules content run kf ts rs -> is RCurly y -> fin (ts ++ y :: rest).
Proof.
  intros H [Y1 Y2]. inversion H as [|? ? ? ? ? G]; subst; [exact Y2|]. apply rule_first in G. rewrite <- app_assoc. eapply opens_fin; eauto.
Qed.
Lemma rules_found kf ts rs : gRules content run kf ts rs -> forall l y rest, toks l (ts ++ y :: rest) -> l_rws l = false -> is RCurly y -> fin rest ->
  exists l1, gives (fun n => rulesLoop run n kf l) (rs, upto y, l1) /\ toks l1 rest /\ l_rws l1 = false.
Proof.
  intros H. induction H as [kf|kf ts r ts2 rs G H IH]; intros l y rest T R Y F.
  - cbn [app] in T. destruct (step1 _ _ _ T R F) as (l1 & N & T1 & R1). exists l1. split; [|auto]. exists 1%nat. fuel n. cbn [rulesLoop].
    rewrite (toks_cur _ _ _ T), (toks_end _ _ _ T), (is_tok _ _ Y), N. reflexivity.
  - rewrite <- app_assoc in T. destruct (rule_found _ _ _ G l _ T R (rules_first _ _ _ _ _ H Y)) as (l1 & (n0 & E0) & T1 & R1).
    destruct (IH l1 y rest T1 R1 Y F) as (l2 & (n1 & E1) & T2 & R2). exists l2. split; [|auto]. exists (S (n0 + n1)). fuel n. cbn [rulesLoop].
    pose proof (opens_cur _ _ _ _ T (rule_first _ _ _ G)) as O. uses E0. uses E1. destruct (l_cur l); try discriminate O; reflexivity.
Qed.
Lemma rulebody_found kf o ts sp rs : gRuleBody content run kf o ts sp rs -> is LCurly o -> forall l rest, toks l (o :: ts ++ rest) -> l_rws l = false -> fin rest ->
  exists l1 l2, expect LCurly l = Ok l1 /\ sp_start (tokenSpan l) = sp_start sp /\ gives (fun n => rulesLoop run n kf l1) (rs, sp_end sp, l2) /\ toks l2 rest /\ l_rws l2 = false.
Proof.
  intros (ts1 & y & -> & G & Y & ->) [O1 O2] l rest T R F. rewrite <- app_assoc in T. cbn [app] in T.
  destruct (step1 _ _ _ T R (rules_first _ _ _ _ _ G Y)) as (l1 & N & T1 & R1). destruct (rules_found _ _ _ G l1 y rest T1 R1 Y F) as (l2 & E & H).
  exists l1, l2. split; [apply expect_next; auto; rewrite (toks_cur _ _ _ T); auto|]. split; [rewrite (toks_span _ _ _ T); reflexivity|]. auto.
Qed.
End Content.

(** * Media queries *)
Lemma opt_first ts v rest : gOpt ts v -> fin rest -> silent rest -> fin (ts ++ rest) /\ silent (ts ++ rest).
Proof.
  intros [[-> _]|G] F S; [auto|]. apply value_first in G. split; [eapply opens_fin; eauto|eapply opens_silent; eauto].
Qed.
Lemma rangeop_first o op rest : gRangeOp o op -> fin (o ++ rest) /\ exists x r, o = x :: r /\ k_tok x = Delim.
Proof. intros H. inversion H as [x [X1 X2]|x y [X1 X2]]; subst; (split; [exact X2|eexists _, _; split; [reflexivity|auto]]). Qed.
Lemma rangeop_found o op : gRangeOp o op -> forall l rest, toks l (o ++ rest) -> l_rws l = false -> fin rest -> silent rest ->
  exists l1, parseMediaRangeOperator l = Ok (op, l1) /\ toks l1 rest /\ l_rws l1 = false.
Proof.
  intros H l rest T R F S. inversion H as [x [X1 X2] C|x y [X1 X2] C [Y1 Y2] Cy]; subst; cbn [app] in T.
  - destruct (step1 _ _ _ T R F) as (l1 & N & T1 & R1). exists l1. split; [|auto]. unfold parseMediaRangeOperator. cbv zeta. rewrite N. cbn [bind].
    destruct rest as [|z r]; [contradiction|]. rewrite (toks_cur _ _ _ T1), (teq_no _ _ S), (toks_str _ _ _ T). destruct C as [C|C]; rewrite C; reflexivity.
  - destruct (step1 _ _ _ T R Y2) as (l1 & N & T1 & R1). destruct (step1 _ _ _ T1 R1 F) as (l2 & N2 & T2 & R2). exists l2. split; [|auto].
    unfold parseMediaRangeOperator. cbv zeta. rewrite N. cbn [bind]. rewrite (toks_cur _ _ _ T1), (toks_str _ _ _ T), (toks_str _ _ _ T1), Y1, Cy, N2. destruct C as [C|C]; rewrite C; reflexivity.
Qed.
Lemma ident_value p : is Ident p -> gValue [p] (VIdent (k_sp p) (k_str p)). Proof. apply gIdent. Qed.
Definition notValue (rest : list tk) : Prop := match rest with y :: _ => valueToken (k_tok y) = false | [] => True end.
Lemma queryPart_found ts p : gQueryPart ts p -> forall l rest, toks l (ts ++ rest) -> l_rws l = false -> fin rest -> k_tok (hd (mkTk EOF [] [] (mkSpan 0 0) false) ts) = LParen ->
  exists l1, gives (fun n => parseMediaFeature n l) (p, l1) /\ toks l1 rest /\ l_rws l1 = false.
Proof.
  intros H l rest T R F Hl.
  inversion H as [x [X1 X2]|x q y [X1 X2] Q [Y1 Y2]|x q c ts1 v y [X1 X2] Q [C1 C2] Gv [Y1 Y2]|x ts1 v o op q y [X1 X2] Gv Go Q [Y1 Y2]
    |x ts1 v o op q o2 ts2 v2 y [X1 X2] Gv Go Q Go2 Gv2 [Y1 Y2]|x q o op ts1 v y [X1 X2] Q Go Gv Nv [Y1 Y2]]; subst.
  - cbn [hd] in Hl. congruence.
  - cbn [app] in T. destruct (step1 _ _ _ T R (is_kept _ _ Q)) as (l1 & N1 & T1 & R1).
    destruct (value_found _ _ (ident_value _ Q) l1 (y :: rest) T1 R1 Y2) as (l2 & (n0 & E0) & T2 & R2).
    destruct (step1 _ _ _ T2 R2 F) as (l3 & N3 & T3 & R3). exists l3. split; [|auto]. exists n0. intros n Hn. unfold parseMediaFeature.
    expects LParen l l1 T. cbn [bind]. cbv zeta. uses E0. rewrite (toks_cur _ _ _ T2), Y1, N3. cbn [bind]. rewrite (toks_span _ _ _ T), (toks_end _ _ _ T2). reflexivity.
  - cbn [app] in T. rewrite <- app_assoc in T. cbn [app] in T. destruct (step1 _ _ _ T R (is_kept _ _ Q)) as (l1 & N1 & T1 & R1).
    destruct (value_found _ _ (ident_value _ Q) l1 _ T1 R1 C2) as (l2 & (n0 & E0) & T2 & R2).
    assert (Sy : silent (y :: rest)) by (cbn; rewrite Y1; discriminate).
    destruct (step1 _ _ _ T2 R2 (proj1 (opt_first _ _ (y :: rest) Gv Y2 Sy))) as (l3 & N3 & T3 & R3).
    destruct (opt_found _ _ Gv l3 (y :: rest) T3 R3 Y2) as (l4 & (n1 & E1) & T4 & R4); [rewrite Y1; reflexivity|].
    destruct (step1 _ _ _ T4 R4 F) as (l5 & N5 & T5 & R5). exists l5. split; [|auto]. exists (n0 + n1)%nat. intros n Hn. unfold parseMediaFeature.
    expects LParen l l1 T. cbn [bind]. cbv zeta. uses E0. rewrite (toks_cur _ _ _ T2), C1, N3. cbn [bind]. uses E1. expects RParen l4 l5 T4. cbn [bind].
    rewrite (toks_span _ _ _ T), (toks_end _ _ _ T4). reflexivity.
  - cbn [app] in T. rewrite <- !app_assoc in T. cbn [app] in T. destruct (rangeop_first _ _ (q :: y :: rest) Go) as (Fo & w & r & Ew & Cw).
    assert (Hw : fin (ts1 ++ o ++ q :: y :: rest)) by (destruct Gv as [[-> _]|Gv]; [exact Fo|eapply opens_fin; eapply value_first; eauto]).
    destruct (step1 _ _ _ T R Hw) as (l1 & N1 & T1 & R1).
    destruct (opt_found _ _ Gv l1 _ T1 R1 Fo) as (l2 & (n0 & E0) & T2 & R2); [rewrite Ew; cbn [app]; rewrite Cw; reflexivity|].
    destruct (rangeop_found _ _ Go l2 _ T2 R2 (is_kept _ _ Q)) as (l3 & E3 & T3 & R3); [cbn; rewrite (is_tok _ _ Q); discriminate|].
    destruct (value_found _ _ (ident_value _ Q) l3 (y :: rest) T3 R3 Y2) as (l4 & (n1 & E1) & T4 & R4).
    destruct (step1 _ _ _ T4 R4 F) as (l5 & N5 & T5 & R5). exists l5. split; [|auto]. exists (n0 + n1)%nat. intros n Hn. unfold parseMediaFeature.
    expects LParen l l1 T. cbn [bind]. cbv zeta. uses E0. replace (l_cur l2) with Delim by (symmetry; rewrite Ew in T2; cbn [app] in T2; rewrite (toks_cur _ _ _ T2); exact Cw).
    rewrite E3. cbn [bind]. uses E1. rewrite (toks_cur _ _ _ T4), Y1. change (teq RParen Delim) with false. cbn [bind]. expects RParen l4 l5 T4. cbn [bind].
    rewrite (toks_span _ _ _ T), (toks_end _ _ _ T4). reflexivity.
  - cbn [app] in T. rewrite <- !app_assoc in T. cbn [app] in T. rewrite <- !app_assoc in T. cbn [app] in T.
    destruct (rangeop_first _ _ (q :: o2 ++ ts2 ++ y :: rest) Go) as (Fo & w & r & Ew & Cw). destruct (rangeop_first _ _ (ts2 ++ y :: rest) Go2) as (Fo2 & w2 & r2 & Ew2 & Cw2).
    assert (Hw : fin (ts1 ++ o ++ q :: o2 ++ ts2 ++ y :: rest)) by (destruct Gv as [[-> _]|Gv]; [exact Fo|eapply opens_fin; eapply value_first; eauto]).
    destruct (step1 _ _ _ T R Hw) as (l1 & N1 & T1 & R1).
    destruct (opt_found _ _ Gv l1 _ T1 R1 Fo) as (l2 & (n0 & E0) & T2 & R2); [rewrite Ew; cbn [app]; rewrite Cw; reflexivity|].
    destruct (rangeop_found _ _ Go l2 _ T2 R2 (is_kept _ _ Q)) as (l3 & E3 & T3 & R3); [cbn; rewrite (is_tok _ _ Q); discriminate|].
    destruct (value_found _ _ (ident_value _ Q) l3 _ T3 R3 Fo2) as (l4 & (n1 & E1) & T4 & R4).
    assert (Sy : silent (y :: rest)) by (cbn; rewrite Y1; discriminate). destruct (opt_first _ _ (y :: rest) Gv2 Y2 Sy) as [F2 S2].
    destruct (rangeop_found _ _ Go2 l4 _ T4 R4 F2 S2) as (l5 & E5 & T5 & R5).
    destruct (opt_found _ _ Gv2 l5 (y :: rest) T5 R5 Y2) as (l6 & (n2 & E2) & T6 & R6); [rewrite Y1; reflexivity|].
    destruct (step1 _ _ _ T6 R6 F) as (l7 & N7 & T7 & R7). exists l7. split; [|auto]. exists (n0 + n1 + n2)%nat. intros n Hn. unfold parseMediaFeature.
    expects LParen l l1 T. cbn [bind]. cbv zeta. uses E0. replace (l_cur l2) with Delim by (symmetry; rewrite Ew in T2; cbn [app] in T2; rewrite (toks_cur _ _ _ T2); exact Cw).
    rewrite E3. cbn [bind]. uses E1. replace (l_cur l4) with Delim by (symmetry; rewrite Ew2 in T4; cbn [app] in T4; rewrite (toks_cur _ _ _ T4); exact Cw2).
    change (teq Delim Delim) with true. cbv iota. rewrite E5. cbn [bind]. rewrite beq_refl. cbn [negb]. uses E2. expects RParen l6 l7 T6. cbn [bind].
    rewrite (toks_span _ _ _ T), (toks_end _ _ _ T6). reflexivity.
  - cbn [app] in T. rewrite <- !app_assoc in T. cbn [app] in T. destruct (rangeop_first _ _ (ts1 ++ y :: rest) Go) as (Fo & w & r & Ew & Cw).
    destruct (step1 _ _ _ T R (is_kept _ _ Q)) as (l1 & N1 & T1 & R1).
    destruct (value_found _ _ (ident_value _ Q) l1 _ T1 R1 Fo) as (l2 & (n0 & E0) & T2 & R2).
    assert (Sy : silent (y :: rest)) by (cbn; rewrite Y1; discriminate). destruct (opt_first _ _ (y :: rest) Gv Y2 Sy) as [F2 S2].
    destruct (rangeop_found _ _ Go l2 _ T2 R2 F2 S2) as (l3 & E3 & T3 & R3).
    destruct (opt_found _ _ Gv l3 (y :: rest) T3 R3 Y2) as (l4 & (n1 & E1) & T4 & R4); [rewrite Y1; reflexivity|].
    destruct (step1 _ _ _ T4 R4 F) as (l5 & N5 & T5 & R5). exists l5. split; [|auto]. exists (n0 + n1)%nat. intros n Hn. unfold parseMediaFeature.
    expects LParen l l1 T. cbn [bind]. cbv zeta. uses E0. replace (l_cur l2) with Delim by (symmetry; rewrite Ew in T2; cbn [app] in T2; rewrite (toks_cur _ _ _ T2); exact Cw).
    rewrite E3. cbn [bind]. uses E1. expects RParen l4 l5 T4. cbn [bind].
    rewrite (toks_span _ _ _ T), (toks_end _ _ _ T4). destruct v; try reflexivity. destruct (Nv _ _ eq_refl).
Qed.

(** What follows a query, and a list of them. *)
Definition queryEnd (rest : list tk) : Prop := match rest with y :: _ => k_tok y = LCurly \/ k_tok y = Semicolon \/ k_tok y = Comma | [] => False end.
Definition queriesEnd (rest : list tk) : Prop := match rest with y :: _ => k_tok y = LCurly \/ k_tok y = Semicolon | [] => False end.
Definition queryToken (t : token) : bool := teq t Ident || teq t LParen.
Lemma queryPart_first ts p : gQueryPart ts p -> exists x r, ts = x :: r /\ k_kept x = false /\ queryToken (k_tok x) = true /\ sp_start (mqpartSpan p) = from x.
Proof.
  assert (X : forall t x r p, is t x -> queryToken t = true -> sp_start (mqpartSpan p) = from x ->
    exists x' r', x :: r = x' :: r' /\ k_kept x' = false /\ queryToken (k_tok x') = true /\ sp_start (mqpartSpan p) = from x').
  { intros t x r q [H1 H2] V S. exists x, r. rewrite H1. auto. }
  intros H. inversion H; subst; eapply X; eauto.
Qed.
Lemma query_first ts ps rest : gQuery ts ps -> fin rest -> fin (ts ++ rest).
Proof.
  intros H F. inversion H as [|? ? ? ? G]; subst; [exact F|]. apply queryPart_first in G as (x & r & -> & K & _). exact K.
Qed.
Lemma query_found ts ps : gQuery ts ps -> forall l rest, toks l (ts ++ rest) -> l_rws l = false -> fin rest -> queryEnd rest ->
  exists l1, gives (fun n => mqPartsLoop n l) (ps, l1) /\ toks l1 rest /\ l_rws l1 = false.
Proof.
  intros H. induction H as [|ts p ts2 ps G H IH]; intros l rest T R F E.
  - cbn [app] in T. exists l. split; [|auto]. exists 1%nat. fuel n. cbn [mqPartsLoop]. destruct rest as [|y r]; [contradiction|]. rewrite (toks_cur _ _ _ T).
    destruct E as [-> |[-> | ->]]; reflexivity.
  - rewrite <- app_assoc in T. pose proof (query_first _ _ _ H F) as F2. destruct (queryPart_first _ _ G) as (x & r & Ex & K & V & _).
    destruct (token_eq_dec (k_tok x) LParen) as [C|C].
    + destruct (queryPart_found _ _ G l _ T R F2) as (l1 & (n0 & E0) & T1 & R1); [rewrite Ex; exact C|].
      destruct (IH l1 rest T1 R1 F E) as (l2 & (n1 & E1) & T2 & R2). exists l2. split; [|auto]. exists (S (n0 + n1)). fuel n. cbn [mqPartsLoop].
      uses E0. uses E1. rewrite Ex in T. cbn [app] in T. rewrite (toks_cur _ _ _ T), C. reflexivity.
    + inversion G as [x' [X1 X2]|x' ? ? [X1 ?]|x' ? ? ? ? ? [X1 ?]|x' ? ? ? ? ? ? [X1 ?]|x' ? ? ? ? ? ? ? ? ? [X1 ?]|x' ? ? ? ? ? ? [X1 ?]]; subst;
        match goal with Q : _ :: _ = x :: r |- _ => injection Q as <- ? | Q : [_] = x :: r |- _ => injection Q as <- ? end; try contradiction.
      match goal with Q : [] = r |- _ => subst r end. cbn [app] in T. destruct (step1 _ _ _ T R F2) as (l1 & N & T1 & R1). destruct (IH l1 rest T1 R1 F E) as (l2 & (n1 & E1) & T2 & R2). exists l2. split; [|auto].
      exists (S n1). fuel n. cbn [mqPartsLoop]. rewrite (toks_cur _ _ _ T), (toks_span _ _ _ T), (toks_str _ _ _ T), X1, N. cbn [bind]. uses E1. reflexivity.
Qed.
Lemma queries_first ts qs rest : gQueries ts qs -> fin rest -> fin (ts ++ rest).
Proof.
  intros H F. inversion H as [? ? G|? ? c ? ? G [_ C]]; subst; [eapply query_first; eauto|]. rewrite <- app_assoc. eapply query_first; eauto.
Qed.
Lemma asQuery_is ts ps l rest : gQuery ts ps -> toks l (ts ++ rest) ->
  match ps with [] => [] | _ => [(mkSpan (sp_start (tokenSpan l)) (lastEndOf (sp_start (tokenSpan l)) (map mqpartSpan ps)), ps)] end = asQuery ps.
Proof.
  intros G T. destruct ps as [|p ps]; [reflexivity|]. inversion G as [|? ? ? ? Gp]; subst. apply queryPart_first in Gp as (x & r & -> & _ & _ & S). cbn [app] in T.
  rewrite (toks_span _ _ _ T). unfold asQuery, lastEndOf. rewrite (spanning_start (sp_start (k_sp x)) _ _ (mqpartSpan p)); [reflexivity|reflexivity|discriminate|exact S].
Qed.
Lemma query_eof ts ps l rest : gQuery ts ps -> toks l (ts ++ rest) -> queryEnd rest -> teq (l_cur l) EOF = false.
Proof.
  intros G T E. inversion G as [|? ? ? ? Gp]; subst.
  - cbn [app] in T. destruct rest as [|y r]; [contradiction|]. rewrite (toks_cur _ _ _ T). destruct E as [-> |[-> | ->]]; reflexivity.
  - apply queryPart_first in Gp as (x & r & -> & _ & V & _). cbn [app] in T. rewrite (toks_cur _ _ _ T). destruct (k_tok x); try discriminate V; reflexivity.
Qed.
Lemma queries_loop ts qs : gQueries ts qs -> forall l rest, toks l (ts ++ rest) -> l_rws l = false -> fin rest -> queriesEnd rest ->
  exists l1, gives (fun n => mqListLoop n l) (qs, l1) /\ toks l1 rest /\ l_rws l1 = false.
Proof.
  intros H. induction H as [ts ps G|ts ps c ts2 qs G [C1 C2] H IH]; intros l rest T R F E.
  - assert (E' : queryEnd rest) by (destruct rest as [|y r]; [contradiction|]; destruct E; cbn; auto).
    destruct (query_found _ _ G l rest T R F E') as (l1 & (n0 & E0) & T1 & R1). exists l1. split; [|auto]. exists (S n0). fuel n. cbn [mqListLoop].
    rewrite (query_eof _ _ _ _ G T E'). cbv zeta. uses E0. rewrite (asQuery_is _ _ _ _ G T). destruct rest as [|y r]; [contradiction|]. rewrite (toks_cur _ _ _ T1). destruct E as [-> | ->]; reflexivity.
  - rewrite <- app_assoc in T. cbn [app] in T. assert (E' : queryEnd (c :: ts2 ++ rest)) by (cbn; auto).
    destruct (query_found _ _ G l _ T R C2 E') as (l1 & (n0 & E0) & T1 & R1). destruct (step1 _ _ _ T1 R1 (queries_first _ _ _ H F)) as (l2 & N2 & T2 & R2).
    destruct (IH l2 rest T2 R2 F E) as (l3 & (n1 & E1) & T3 & R3). exists l3. split; [|auto]. exists (S (n0 + n1)). fuel n. cbn [mqListLoop].
    rewrite (query_eof _ _ _ _ G T E'). cbv zeta. uses E0. rewrite (asQuery_is _ _ _ _ G T), (toks_cur _ _ _ T1), C1. change (teq Comma Comma) with true. cbv iota. rewrite N2. cbn [bind]. uses E1. reflexivity.
Qed.
Definition listOf (ts : list tk) (qs : list mquery) : option mqlist := match qs with [] => None | _ => Some (queriesSpan ts qs, qs) end.
Lemma queries_found ts qs : gQueries ts qs -> forall l rest, toks l (ts ++ rest) -> l_rws l = false -> fin rest -> queriesEnd rest ->
  exists l1, gives (fun n => parseMediaQueryList n l) (listOf ts qs, l1) /\ toks l1 rest /\ l_rws l1 = false.
Proof.
  intros H l rest T R F E. destruct (queries_loop _ _ H l rest T R F E) as (l1 & (n0 & E0) & T1 & R1). exists l1. split; [|auto].
  exists n0. intros n Hn. unfold parseMediaQueryList. rewrite E0 by lia. cbn [bind]. cbv zeta. destruct qs as [|q qs]; [reflexivity|]. unfold listOf, queriesSpan, lastEndOf.
  assert (N : ts <> []).
  { intros ->. inversion H as [? ? G|? ? ? ? ? G]; subst; [|destruct ts; discriminate]. inversion G as [|? ? ? ? Gp]; subst; [discriminate|].
    apply queryPart_first in Gp as (x & r & -> & _). discriminate. }
  destruct ts as [|x ts]; [contradiction|]. cbn [app] in T. rewrite (toks_span _ _ _ T). cbn [firstFrom]. rewrite (last_any _ (mkSpan (sp_start (k_sp x)) (sp_start (k_sp x))) (mkSpan 0 0)) by discriminate. reflexivity.
Qed.

(** * At-rules *)
Section Content2.
Variable content : bytes.
Variable run : nat.
Lemma target_found ts sp s : gTarget ts sp s -> forall l1 rest, toks l1 (ts ++ rest) -> l_rws l1 = false -> fin rest ->
  exists l2, match l_cur l1 with
    | URL => l2 <- next l1 ;; Ok (tokenSpan l1, l_str l1, l2)
    | FunctionStart =>
      if negb (beq (l_str l1) (B "url")) then errorf l1 (B "@import target must be a url or string")
      else
        l2 <- next l1 ;;
        l3 <- expect TString l2 ;;
        l4 <- expect RParen l3 ;;
        Ok (mkSpan (sp_start (tokenSpan l1)) (tokenEnd l3), l_str l2, l4)
    | TString => l2 <- expect TString l1 ;; Ok (tokenSpan l1, l_str l1, l2)
    | _ => errorf l1 (B "unexpected import specifier")
    end = Ok (sp, s, l2) /\ toks l2 rest /\ l_rws l2 = false.
Proof.
  intros H l1 rest T R F. inversion H as [x [X1 X2]|x [X1 X2]|x y z [X1 X2] S [Y1 Y2] [Z1 Z2]]; subst; cbn [app] in T.
  - destruct (step1 _ _ _ T R F) as (l2 & N & T2 & R2). exists l2. split; [|auto]. rewrite (toks_cur _ _ _ T), (toks_span _ _ _ T), (toks_str _ _ _ T), X1, N. reflexivity.
  - destruct (step1 _ _ _ T R F) as (l2 & N & T2 & R2). exists l2. split; [|auto]. expects TString l1 l2 T. rewrite (toks_cur _ _ _ T), (toks_span _ _ _ T), (toks_str _ _ _ T), X1. reflexivity.
  - destruct (step1 _ _ _ T R Y2) as (l2 & N & T2 & R2). destruct (step1 _ _ _ T2 R2 Z2) as (l3 & N3 & T3 & R3). destruct (step1 _ _ _ T3 R3 F) as (l4 & N4 & T4 & R4).
    exists l4. split; [|auto]. rewrite (toks_cur _ _ _ T), (toks_span _ _ _ T), (toks_str _ _ _ T), X1, S, beq_refl, N. cbn [negb bind].
    expects TString l2 l3 T2. cbn [bind]. expects RParen l3 l4 T3. cbn [bind]. rewrite (toks_end _ _ _ T3), (toks_str _ _ _ T2). reflexivity.
Qed.
Lemma target_first ts sp s rest : gTarget ts sp s -> fin (ts ++ rest).
Proof. intros H. inversion H as [x [X1 X2]|x [X1 X2]|x y z [X1 X2] S]; subst; exact X2. Qed.

Lemma import_found x ts sp s ts2 qs : is At x -> gTarget ts sp s -> gQueries ts2 qs ->
  forall l rest, toks l (x :: ts ++ ts2 ++ rest) -> l_rws l = false -> fin rest -> queriesEnd rest ->
  exists i l1, gives (fun n => parseImportAtRule run n l)
    (match listOf ts2 qs with
     | None => mkAt run (mkSpan (from x) (sp_end sp)) (k_str x) [APString sp s] None
     | Some q => mkAt run (mkSpan (from x) (sp_end (fst q))) (k_str x) [APString sp s; APMql q] None
     end, i, l1) /\ toks l1 rest /\ l_rws l1 = false.
Proof.
  intros [X1 X2] Gt Gq l rest T R F E. destruct (step1 _ _ _ T R (target_first _ _ _ _ Gt)) as (l1 & N1 & T1 & R1).
  destruct (target_found _ _ _ Gt l1 _ T1 R1 (queries_first _ _ _ Gq F)) as (l2 & E2 & T2 & R2).
  destruct (queries_found _ _ Gq l2 rest T2 R2 F E) as (l3 & (n0 & E3) & T3 & R3). 
  exists (s, atRuleId (match listOf ts2 qs with
     | None => mkAt run (mkSpan (from x) (sp_end sp)) (k_str x) [APString sp s] None
     | Some q => mkAt run (mkSpan (from x) (sp_end (fst q))) (k_str x) [APString sp s; APMql q] None
     end)), l3. split; [|auto].
  exists n0. intros n Hn. unfold parseImportAtRule. cbv zeta. rewrite N1. cbn [bind]. eapply via; [exact E2|]. cbv iota beta. rewrite E3 by lia. cbn [bind].
  rewrite (toks_span _ _ _ T), (toks_str _ _ _ T). destruct (listOf ts2 qs); reflexivity.
Qed.

Lemma at_found ts a : gAt content run ts a -> forall l rest, toks l (ts ++ rest) -> l_rws l = false -> fin rest ->
  ar_block a <> None \/ match rest with y :: _ => k_tok y = Semicolon | [] => False end ->
  exists i l1, gives (fun n => parseAtRule run n l) (NAt a, i, l1) /\ toks l1 rest /\ l_rws l1 = false.
Proof.
  intros H l rest T R F Hb.
  inversion H as [x ts1 sp s X Hx Gt ts2 Gq|x ts1 sp s ts2 qs X Hx Gt Gq Nq|x ts1 qs o ts2 sp rs X Hx Gq O G|x y pre o ts2 sp rs X Hx Hy O G|x y ts1 q X Hx [Y1 Y2] Gq|x o ts2 sp ds X Hn1 Hn2 Ko G]; subst.
  - cbn [app] in T. rewrite <- app_assoc in T. destruct (import_found _ _ _ _ _ _ X Gt Gq l rest T R F) as (i & l1 & (n0 & E0) & H1).
    { destruct Hb as [Hb|Hb]; [contradiction|]. destruct rest; [contradiction|]. cbn. auto. }
    exists [i], l1. split; [|exact H1]. exists n0. intros n Hn. unfold parseAtRule. rewrite (toks_str _ _ _ T), Hx. change (beq (B "import") (B "import")) with true. cbv iota.
    rewrite E0 by lia. rewrite Hx. reflexivity.
  - cbn [app] in T. rewrite <- app_assoc in T. destruct (import_found _ _ _ _ _ _ X Gt Gq l rest T R F) as (i & l1 & (n0 & E0) & H1).
    { destruct Hb as [Hb|Hb]; [contradiction|]. destruct rest; [contradiction|]. cbn. auto. }
    exists [i], l1. split; [|exact H1]. exists n0. intros n Hn. unfold parseAtRule. rewrite (toks_str _ _ _ T), Hx. change (beq (B "import") (B "import")) with true. cbv iota.
    rewrite E0 by lia. rewrite Hx. destruct qs; [contradiction|]. reflexivity.
  - cbn [app] in T. rewrite <- app_assoc in T. cbn [app] in T. destruct X as [X1 X2].
    assert (Fo : fin (o :: ts2 ++ rest)) by exact (is_kept _ _ O).
    destruct (step1 _ _ _ T R (queries_first _ _ _ Gq Fo)) as (l1 & N1 & T1 & R1).
    destruct (queries_found _ _ Gq l1 _ T1 R1 Fo) as (l2 & (n0 & E0) & T2 & R2); [left; exact (is_tok _ _ O)|].
    destruct (rulebody_found _ _ _ _ _ _ _ G O l2 rest T2 R2 F) as (l3 & l4 & E3 & S3 & (n1 & E4) & T4 & R4).
    exists [], l4. split; [|auto]. exists (n0 + n1)%nat. intros n Hn. unfold parseAtRule. rewrite (toks_str _ _ _ T), Hx. change (beq (B "media") (B "import")) with false.
    change (beq (B "media") (B "media")) with true. cbv iota. unfold parseMediaAtRule. cbv zeta. rewrite N1. cbn [bind]. uses E0. rewrite E3. cbn [bind]. uses E4.
    rewrite (toks_span _ _ _ T), (toks_str _ _ _ T), S3, Hx. destruct sp. destruct qs; reflexivity.
  - cbn [app] in T. destruct X as [X1 X2]. assert (Ky : k_kept y = false) by (destruct Hy as [[[_ K] _]|[[_ K] _]]; exact K).
    destruct (step1 _ _ _ T R Ky) as (l1 & N1 & T1 & R1). destruct (step1 _ _ _ T1 R1 (is_kept _ _ O)) as (l2 & N2 & T2 & R2).
    destruct (rulebody_found _ _ _ _ _ _ _ G O l2 rest T2 R2 F) as (l3 & l4 & E3 & S3 & (n1 & E4) & T4 & R4).
    exists [], l4. split; [|auto]. exists n1. intros n Hn. unfold parseAtRule. rewrite (toks_str _ _ _ T).
    assert (P : parseKeyframes run n l = Ok (mkAt run (mkSpan (from x) (sp_end sp)) (k_str x) [pre] (Some (BRules sp rs)), l4)).
    { unfold parseKeyframes. cbv zeta. rewrite N1. cbn [bind]. rewrite (toks_cur _ _ _ T1), (toks_span _ _ _ T1), (toks_str _ _ _ T1).
      destruct Hy as [[[Y1 _] ->]|[[Y1 _] ->]]; rewrite Y1; cbn [bind]; rewrite N2; cbn [bind]; rewrite E3; cbn [bind]; rewrite E4 by lia; cbn [bind];
        rewrite (toks_span _ _ _ T), (toks_str _ _ _ T), S3; destruct sp; reflexivity. }
    rewrite P. rewrite (bmem_true _ _ Hx).
    replace (beq (k_str x) (B "import")) with false by (symmetry; apply beq_neq; intros Z; rewrite Z in Hx; cbn in Hx; intuition discriminate).
    replace (beq (k_str x) (B "media")) with false by (symmetry; apply beq_neq; intros Z; rewrite Z in Hx; cbn in Hx; intuition discriminate). reflexivity.
  - cbn [app] in T. destruct X as [X1 X2]. destruct (step1 _ _ _ T R Y2) as (l1 & N1 & T1 & R1).
    destruct (value_found [y] _ (ident_value y (conj Y1 Y2)) l1 _ T1 R1 (queries_first _ _ _ Gq F)) as (l2 & (n0 & E0) & T2 & R2).
    destruct (queries_found _ _ Gq l2 rest T2 R2 F) as (l3 & (n1 & E1) & T3 & R3).
    { destruct Hb as [Hb|Hb]; [contradiction|]. destruct rest; [contradiction|]. cbn. auto. }
    exists [], l3. split; [|auto]. exists (n0 + n1)%nat. intros n Hn. unfold parseAtRule. rewrite (toks_str _ _ _ T), Hx.
    change (beq (B "custom-media") (B "import")) with false. change (beq (B "custom-media") (B "media")) with false. change (beq (B "custom-media") (B "custom-media")) with true.
    change (bmem (B "custom-media") [B "keyframes"; B "-webkit-keyframes"; B "-o-keyframes"]) with false. cbv iota.
    unfold parseCustomMediaAtRule. cbv zeta. rewrite N1. cbn [bind]. uses E0. uses E1. rewrite (toks_span _ _ _ T), (toks_str _ _ _ T), Hx. reflexivity.
  - cbn [app] in T. destruct X as [X1 X2]. destruct (step1 _ _ _ T R Ko) as (l1 & N1 & T1 & R1).
    destruct (body_found _ _ _ _ _ G l1 rest T1 R1 F) as (l2 & (n0 & E0) & T2 & R2).
    exists [], l2. split; [|auto]. exists n0. intros n Hn. unfold parseAtRule. rewrite (toks_str _ _ _ T), (bmem_false _ _ Hn2).
    replace (beq (k_str x) (B "import")) with false by (symmetry; apply beq_neq; intros Z; apply Hn1; rewrite Z; cbn; auto).
    replace (beq (k_str x) (B "media")) with false by (symmetry; apply beq_neq; intros Z; apply Hn1; rewrite Z; cbn; auto).
    replace (beq (k_str x) (B "custom-media")) with false by (symmetry; apply beq_neq; intros Z; apply Hn1; rewrite Z; cbn; auto).
    unfold parseGenericAtRule. cbv zeta. rewrite N1. cbn [bind]. uses E0. rewrite (toks_span _ _ _ T), (toks_str _ _ _ T). reflexivity.
Qed.
Lemma at_first ts a : gAt content run ts a -> exists x r, ts = x :: r /\ is At x.
Proof. intros H. inversion H; subst; eexists _, _; split; try reflexivity; auto. Qed.

(** * The file *)
Lemma nodes_first ts nds eof : gNodes content run ts nds -> k_kept eof = false -> fin (ts ++ [eof]).
Proof.
  intros H K. inversion H as [|x ? ? Hx|? ? ? ? G|? ? ? ? G]; subst.
  - exact K.
  - destruct Hx as [[_ X]|[[_ X]|[_ X]]]; exact X.
  - apply rule_first in G. rewrite <- app_assoc. eapply opens_fin; eauto.
  - apply at_first in G as (x & r & -> & [_ X]). exact X.
Qed.
Lemma nodes_found ts nds : gNodes content run ts nds -> forall l eof, toks l (ts ++ [eof]) -> l_rws l = false -> k_kept eof = false ->
  exists i l1, gives (fun n => parseLoop run n l) (nds, i, l1).
Proof.
  intros H. induction H as [|x ts nds Hx H IH|ts r ts2 nds G H IH|ts a ts2 nds G H IH Hb]; intros l eof T R K.
  - cbn [app] in T. exists [], l. exists 1%nat. fuel n. cbn [parseLoop]. destruct T as [_ ->]. reflexivity.
  - cbn [app] in T. destruct (step1 _ _ _ T R (nodes_first _ _ _ H K)) as (l1 & N & T1 & R1). destruct (IH l1 eof T1 R1 K) as (i & l2 & n0 & E0).
    exists i, l2. exists (S n0). fuel n. cbn [parseLoop]. rewrite (toks_cur _ _ _ T), N. destruct Hx as [[-> _]|[[-> _]|[-> _]]]; cbn [bind]; apply E0; lia.
  - rewrite <- app_assoc in T. destruct (rule_found _ _ _ _ _ G l _ T R (nodes_first _ _ _ H K)) as (l1 & (n0 & E0) & T1 & R1).
    destruct (IH l1 eof T1 R1 K) as (i & l2 & n1 & E1). exists i, l2. exists (S (n0 + n1)). fuel n. cbn [parseLoop].
    pose proof (opens_cur _ _ _ _ T (rule_first _ _ _ _ _ G)) as O. uses E0. uses E1. destruct (l_cur l); try discriminate O; reflexivity.
  - rewrite <- app_assoc in T. destruct (at_found _ _ G l _ T R (nodes_first _ _ _ H K)) as (i & l1 & (n0 & E0) & T1 & R1).
    { destruct Hb as [L|[Hb|(s & ts3 & -> & [S1 _])]]; [discriminate L|left; exact Hb|right; exact S1]. }
    destruct (IH l1 eof T1 R1 K) as (i2 & l2 & n1 & E1). exists (i ++ i2), l2. exists (S (n0 + n1)). fuel n. cbn [parseLoop].
    destruct (at_first _ _ G) as (x & q & -> & [X1 _]). cbn [app] in T. rewrite (toks_cur _ _ _ T), X1. uses E0. uses E1. reflexivity.
Qed.
End Content2.

Lemma C49_lemma run content nds : readsPlainly run content nds ->
  exists imps lines n0, forall n, (n0 <= n)%nat -> parse run n content = ParseOk (mkSheet nds imps) lines.
Proof.
  intros (ts & (l & l1 & E & P & C) & G). destruct (new_here _ _ E) as [[Hp Hr] _].
  pose proof (path_toks content _ _ _ _ _ P Hp C) as T. destruct (nodes_found _ _ _ _ G l _ T Hr eq_refl) as (i & l2 & n0 & E0).
  exists i, (l_lines l2), n0. intros n Hn. unfold parse. rewrite E, E0 by exact Hn. reflexivity.
Qed.
Lemma C49_unique_lemma run content nds nds' : readsPlainly run content nds -> readsPlainly run content nds' -> nds = nds'.
Proof.
  intros H1 H2. apply C49_lemma in H1 as (i1 & ls1 & n1 & E1). apply C49_lemma in H2 as (i2 & ls2 & n2 & E2).
  specialize (E1 (n1 + n2)%nat). specialize (E2 (n1 + n2)%nat). rewrite E1 in E2 by lia. specialize (E2 ltac:(lia)). congruence.
Qed.
End WithUnicode.
