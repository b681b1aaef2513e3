(** Plain readings are found by the parser: declarations. *)
From Verif Require Import Bytes Utf8 Source Lexer BytesFacts LexSpec LexFacts LexNext LexProps LexSame Ast Parser ParserSpec ParseMono ParseInv ParseSound ReadSpec ReadProofs FullValue.

Section WithUnicode.
Context {U : UnicodeDigits}.
Local Existing Instance noLiberties.
Ltac fuel n := let L := fresh "L" in intros [|n] L; [lia|].
Ltac uses E := rewrite E by lia; cbn [bind].

(** What follows a declaration. *)
Definition ends (rest : list tk) : Prop := match rest with y :: _ => k_tok y = Semicolon \/ k_tok y = RCurly | [] => False end.

Lemma important_back s : saysImportant s -> isImportantString s = true.
Proof.
  unfold isImportantString, saysImportant.
  destruct s as [|b0 [|b1 [|b2 [|b3 [|b4 [|b5 [|b6 [|b7 [|b8 [|]]]]]]]]]]; try discriminate.
  intros H. cbn [map] in H. change (map bz (B "important")) with [105; 109; 112; 111; 114; 116; 97; 110; 116] in H.
  assert (X : forall b lo, (97 <=? lo) && (lo <=? 122) = true -> lowerByte b = lo -> lower_upper b lo (lo - 32) = true).
  { intros b lo Hu Hl. unfold lowerByte in Hl. unfold lower_upper. apply Bool.andb_true_iff in Hu as [U1 U2]. apply Z.leb_le in U1. apply Z.leb_le in U2.
    destruct ((65 <=? bz b) && (bz b <=? 90)) eqn:E; apply Bool.orb_true_iff; [right|left]; apply Z.eqb_eq; lia. }
  injection H as H0 H1 H2 H3 H4 H5 H6 H7 H8.
  apply X in H0, H1, H2, H3, H4, H5, H6, H7, H8; try reflexivity.
  change (105 - 32) with 73 in H0. change (109 - 32) with 77 in H1. change (112 - 32) with 80 in H2. change (111 - 32) with 79 in H3.
  change (114 - 32) with 82 in H4. change (116 - 32) with 84 in H5, H8. change (97 - 32) with 65 in H6. change (110 - 32) with 78 in H7.
  rewrite H0, H1, H2, H3, H4, H5, H6, H7, H8. reflexivity.
Qed.

Lemma valueSpan_some ts v : gValue ts v -> exists sp, valueSpan v = Some sp.
Proof. intros H. inversion H; subst; eexists; reflexivity. Qed.
Definition endAfter (le : option nat) (vs : list value) : option nat :=
  match vs with [] => le | _ => match valueSpan (last vs VNil) with Some sp => Some (sp_end sp) | None => None end end.
Lemma endAfter_cons le v sp vs : valueSpan v = Some sp -> endAfter le (v :: vs) = endAfter (Some (sp_end sp)) vs.
Proof. intros E. destruct vs; [cbn; rewrite E; reflexivity|reflexivity]. Qed.

Lemma items_fin ts vs i rest : gItems ts vs i -> fin rest -> fin (ts ++ rest).
Proof.
  intros G F. inversion G as [|? ? ? ? ? S ?|? ? ? ? [? K] ?|? ? ? ? [? K] ? ?|? ? ? ? ? [? K] ? ? ? ?]; subst; auto.
  apply value_first in S. rewrite <- app_assoc. eapply opens_fin; eauto.
Qed.
Lemma items_found ts vs i : gItems ts vs i -> forall l rest le de imp le1, toks l (ts ++ rest) -> l_rws l = false -> fin rest -> ends rest ->
  endAfter le vs = Some le1 ->
  exists l1, gives (fun n => declLoop n le de imp l) (vs, Nat.max le1 (match i with Some e => e | None => de end), (isSome i || imp)%bool, l1) /\
    toks l1 rest /\ l_rws l1 = false.
Proof.
  intros G. induction G as [|ts v ts2 vs i Gv G IH|x ts vs i [X1 X2] G IH|x ts vs i [X1 X2] Nx G IH|x y ts vs i [X1 X2] Bx Ky Im G IH]; intros l rest le de imp le1 T R F E Le.
  - cbn [app] in T. exists l. split; [|auto]. cbn [endAfter] in Le. subst le. exists 2%nat. intros [|[|n]] L; try lia.
    destruct rest as [|y r]; [contradiction|]. cbn [ends] in E. cbn [declLoop]. rewrite (toks_cur _ _ _ T).
    assert (V : parseValue (S n) l = Ok (VNil, l)) by (cbn [parseValue]; rewrite (toks_cur _ _ _ T); destruct E as [-> | ->]; reflexivity).
    rewrite V. cbn [bind isSome orb].
    replace (if (de <? le1)%nat then le1 else de) with (Nat.max le1 de) by (destruct (Nat.ltb_spec de le1); lia).
    destruct E as [-> | ->]; reflexivity.
  - destruct (valueSpan_some _ _ Gv) as (sp & Sp). rewrite (endAfter_cons _ _ _ _ Sp) in Le. rewrite <- app_assoc in T.
    destruct (value_found _ _ Gv l _ T R (items_fin _ _ _ _ G F)) as (l1 & (n0 & E0) & T1 & R1).
    destruct (IH l1 rest _ de imp le1 T1 R1 F E Le) as (l2 & (n1 & E1) & T2 & R2). exists l2. split; [|auto].
    exists (S (n0 + n1)). fuel n. cbn [declLoop]. pose proof (opens_cur _ _ _ _ T (value_first _ _ Gv)) as O.
    uses E0. rewrite Sp. uses E1. destruct (l_cur l); try discriminate O; reflexivity.
  - rewrite (endAfter_cons _ _ (k_sp x)) in Le by reflexivity. cbn [app] in T. destruct (step1 _ _ _ T R (items_fin _ _ _ _ G F)) as (l1 & N & T1 & R1).
    destruct (IH l1 rest _ de imp le1 T1 R1 F E Le) as (l2 & (n1 & E1) & T2 & R2). exists l2. split; [|auto].
    exists (S n1). fuel n. cbn [declLoop]. rewrite (toks_cur _ _ _ T), (toks_span _ _ _ T), X1, N. cbn [bind]. uses E1. reflexivity.
  - rewrite (endAfter_cons _ _ (k_sp x)) in Le by reflexivity. cbn [app] in T. destruct (step1 _ _ _ T R (items_fin _ _ _ _ G F)) as (l1 & N & T1 & R1).
    destruct (IH l1 rest _ de imp le1 T1 R1 F E Le) as (l2 & (n1 & E1) & T2 & R2). exists l2. split; [|auto].
    exists (S n1). fuel n. cbn [declLoop]. rewrite (toks_cur _ _ _ T), (toks_span _ _ _ T), (toks_str _ _ _ T), X1, N.
    apply beq_neq in Nx. rewrite Nx. cbn [negb bind]. uses E1. reflexivity.
  - cbn [app] in T. destruct (step1 _ _ _ T R Ky) as (l1 & N & T1 & R1). destruct (step1 _ _ _ T1 R1 (items_fin _ _ _ _ G F)) as (l2 & N2 & T2 & R2).
    destruct (IH l2 rest le (upto y) true le1 T2 R2 F E Le) as (l3 & (n1 & E1) & T3 & R3). exists l3. split; [|auto].
    exists (S n1). fuel n. cbn [declLoop]. rewrite (toks_cur _ _ _ T), (toks_str _ _ _ T), X1, N, Bx, beq_refl. cbn [negb bind].
    rewrite (toks_str _ _ _ T1), (toks_end _ _ _ T1), (important_back _ Im), N2. cbn [negb bind]. cbv zeta. rewrite E1 by lia.
    rewrite Bool.orb_true_r. reflexivity.
Qed.

Definition declToken (x : tk) : Prop := k_tok x = Ident \/ k_tok x = Delim.
Lemma decl_first content ts d : gDecl content ts d -> exists x r, ts = x :: r /\ k_kept x = false /\ declToken x.
Proof.
  intros H. inversion H as [star p c ts1 vs i Hs [P1 P2] Hc G Hv|? ? L]; subst; [|discriminate L].
  destruct Hs as [->|(s & -> & [S1 S2] & _)].
  - exists p. eexists. split; [reflexivity|]. unfold declToken. auto.
  - exists s. eexists. split; [reflexivity|]. unfold declToken. auto.
Qed.
Lemma decl_found content ts d : gDecl content ts d -> forall l rest, toks l (ts ++ rest) -> l_rws l = false -> fin rest -> ends rest ->
  exists l1, gives (fun n => parseDeclarationOrFallback n l) (d, l1) /\ toks l1 rest /\ l_rws l1 = false.
Proof.
  intros H l rest T R F E.
  cut (exists l1, gives (fun n => parseDeclaration n l) (d, l1) /\ toks l1 rest /\ l_rws l1 = false).
  { intros (l1 & (n0 & E0) & H1). exists l1. split; [|exact H1]. exists n0. intros n Hn. unfold parseDeclarationOrFallback. rewrite E0 by lia. reflexivity. }
  inversion H as [star p c ts1 vs i Hs [P1 P2] [C1 C2] G Hv|? ? L]; subst; [|discriminate L].
  assert (X : exists l0, (if teq (l_cur l) Delim && beq (l_str l) (B "*") then l1 <- next l ;; Ok (l_str l, l1) else Ok ([], l)) = Ok (concat (map k_str star), l0) /\
    toks l0 (p :: c :: ts1 ++ rest) /\ l_rws l0 = false).
  { destruct Hs as [->|(s & -> & [S1 S2] & S3)].
    - exists l. cbn [app] in T. split; [|auto]. rewrite (toks_cur _ _ _ T), P1. reflexivity.
    - cbn [app] in T. destruct (step1 _ _ _ T R P2) as (l1 & N & T1 & R1). exists l1. split; [|auto].
      rewrite (toks_cur _ _ _ T), (toks_str _ _ _ T), S1, N. cbn [map concat]. rewrite app_nil_r, S3. reflexivity. }
  destruct X as (l0 & E0 & T0 & R0). destruct (step1 _ _ _ T0 R0 C2) as (l1 & N1 & T1 & R1).
  destruct (step1 _ _ _ T1 R1 (items_fin _ _ _ _ G F)) as (l2 & N2 & T2 & R2).
  assert (Ve : exists le, endAfter None vs = Some le /\ le = valuesEnd vs).
  { exists (valuesEnd vs). split; [|reflexivity]. unfold endAfter, valuesEnd. destruct vs as [|v vs]; [contradiction|].
    assert (S : exists sp, valueSpan (last (v :: vs) VNil) = Some sp).
    { clear -G Hv. revert G Hv. generalize (v :: vs). clear v vs. intros vs G. induction G as [|ts v ts2 vs i Gv G IH|x ts vs i X G IH|x ts vs i X Nx G IH|x y ts vs i X Bx Ky Im G IH]; intros Hv;
        [contradiction|destruct vs; [exact (valueSpan_some _ _ Gv)|]|destruct vs; [eexists; reflexivity|]|destruct vs; [eexists; reflexivity|]|auto];
        apply IH; discriminate. }
    destruct S as (sp & ->). reflexivity. }
  destruct Ve as (le & Ve & ->).
  destruct (items_found _ _ _ G l2 rest None (upto p) false _ T2 R2 F E Ve) as (l3 & (n0 & E3) & T3 & R3). exists l3. split; [|auto].
  exists n0. intros n Hn. unfold parseDeclaration. rewrite E0. cbn [bind]. cbv zeta.
  rewrite (expect_next Ident l0 l1) by (auto; rewrite (toks_cur _ _ _ T0); auto). cbn [bind].
  rewrite (expect_next Colon l1 l2) by (auto; rewrite (toks_cur _ _ _ T1); auto). cbn [bind].
  rewrite (toks_span _ _ _ T0). change (sp_end (k_sp p)) with (upto p). rewrite E3 by lia. cbn [bind].
  rewrite (toks_str _ _ _ T0), Bool.orb_false_r. reflexivity.
Qed.

Lemma decls_first content ts ds y rest : gDecls content ts ds -> is RCurly y -> fin (ts ++ y :: rest).
Proof.
  intros H [Y1 Y2]. inversion H as [|? ? ? ? L G|? ? ? ? ? G]; subst; [exact Y2| |]; apply decl_first in G as (x0 & r0 & -> & K & _); exact K.
Qed.
Lemma decls_found content ts ds : gDecls content ts ds -> forall l y rest, toks l (ts ++ y :: rest) -> l_rws l = false -> is RCurly y -> fin rest ->
  exists l1, gives (fun n => declBlockLoop n l) (ds, upto y, l1) /\ toks l1 rest /\ l_rws l1 = false.
Proof.
  intros H. assert (NC : forall l ts d r, toks l (ts ++ r) -> gDecl content ts d -> teq (l_cur l) RCurly = false).
  { intros l ts1 d r T G. apply decl_first in G as (x & q & -> & _ & D). cbn [app] in T. rewrite (toks_cur _ _ _ T). destruct D as [-> | ->]; reflexivity. }
  induction H as [|ts d ts2 ds L G H IH|ts d x ts2 ds G [X1 X2] H IH]; intros l y rest T R Y F.
  - cbn [app] in T. destruct (step1 _ _ _ T R F) as (l1 & N & T1 & R1). exists l1. split; [|auto]. exists 1%nat. fuel n. cbn [declBlockLoop].
    rewrite (toks_cur _ _ _ T), (toks_end _ _ _ T), (is_tok _ _ Y), N. reflexivity.
  - destruct L as [L| ->]; [discriminate L|]. rewrite app_nil_r in T. pose proof (NC _ _ _ _ T G) as C.
    destruct (decl_found _ _ _ G l _ T R (is_kept _ _ Y)) as (l1 & (n0 & E0) & T1 & R1); [right; exact (is_tok _ _ Y)|].
    destruct (IH l1 y rest T1 R1 Y F) as (l2 & (n1 & E1) & T2 & R2). exists l2. split; [|auto].
    exists (S (n0 + n1)). fuel n. cbn [declBlockLoop]. rewrite C. uses E0. rewrite (toks_cur _ _ _ T1), (is_tok _ _ Y). change (teq RCurly Semicolon) with false. cbn [bind]. uses E1. reflexivity.
  - rewrite <- app_assoc in T. cbn [app] in T. pose proof (NC _ _ _ _ T G) as C.
    destruct (decl_found _ _ _ G l _ T R X2) as (l1 & (n0 & E0) & T1 & R1); [left; exact X1|].
    destruct (step1 _ _ _ T1 R1 (decls_first _ _ _ _ _ H Y)) as (l2 & N & T2 & R2).
    destruct (IH l2 y rest T2 R2 Y F) as (l3 & (n1 & E1) & T3 & R3). exists l3. split; [|auto].
    exists (S (n0 + n1)). fuel n. cbn [declBlockLoop]. rewrite C. uses E0. rewrite (toks_cur _ _ _ T1), X1. change (teq Semicolon Semicolon) with true. rewrite N. cbn [bind]. uses E1. reflexivity.
Qed.
Lemma body_found content o ts sp ds : gBody content o ts sp ds -> forall l rest, toks l (o :: ts ++ rest) -> l_rws l = false -> fin rest ->
  exists l1, gives (fun n => parseDeclarationBlock n l) (sp, ds, l1) /\ toks l1 rest /\ l_rws l1 = false.
Proof.
  intros (ts1 & y & -> & G & Y & ->) l rest T R F. rewrite <- app_assoc in T. cbn [app] in T.
  destruct (step1 _ _ _ T R (decls_first _ _ _ _ _ G Y)) as (l1 & N & T1 & R1).
  destruct (decls_found _ _ _ G l1 y rest T1 R1 Y F) as (l2 & (n0 & E0) & T2 & R2). exists l2. split; [|auto].
  exists n0. intros n Hn. unfold parseDeclarationBlock. rewrite N. cbn [bind]. cbv zeta. rewrite E0 by lia. cbn [bind]. rewrite (toks_span _ _ _ T). reflexivity.
Qed.
End WithUnicode.
