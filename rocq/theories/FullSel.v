(** Plain readings are found by the parser: selectors. *)
From Verif Require Import Bytes Utf8 Source Lexer BytesFacts LexSpec LexFacts LexNext LexProps LexSame Ast Parser ParserSpec ParseMono ParseInv ParseSound ReadSpec ReadProofs FullValue.

Section WithUnicode.
Context {U : UnicodeDigits}.
Local Existing Instance noLiberties.
Ltac fuel n := let L := fresh "L" in intros [|n] L; [lia|].
Ltac uses E := rewrite E by lia; cbn [bind].

Definition hdk (k : bool) (rest : list tk) : Prop := match rest with y :: _ => k_kept y = k | [] => False end.
Lemma stepk k l x rest : toks l (x :: rest) -> l_rws l = k -> hdk k rest -> exists l1, next l = Ok l1 /\ toks l1 rest /\ l_rws l1 = k.
Proof.
  intros T R F. destruct rest as [|y r]; [contradiction|]. cbn in F. destruct (toks_next _ _ _ _ T) as (l1 & N & R1 & T1); [congruence|].
  exists l1. repeat split; try congruence; apply T1.
Qed.

Lemma beq_true a b : a = b -> beq a b = true. Proof. intros ->. apply beq_refl. Qed.
Lemma bmem_true a l : In a l -> bmem a l = true. Proof. apply bmem_In. Qed.
Lemma bmem_false a l : ~ In a l -> bmem a l = false. Proof. intros H. destruct (bmem a l) eqn:E; auto. apply bmem_In in E. contradiction. Qed.

Lemma via {A C} (x : res A) (f : A -> res C) a r : x = Ok a -> f a = r -> bind x f = r.
Proof. intros ->. auto. Qed.

(** * An+B *)
Definition signOf (num : bytes) : option bytes :=
  if hasPrefix (B "-") num then Some (B "-") else if hasPrefix (B "+") num then Some (B "+") else None.
Lemma sign_of s b : sign s -> (hasPrefix (B "-") (s ++ b) = true /\ s = B "-") \/ (hasPrefix (B "-") (s ++ b) = false /\ hasPrefix (B "+") (s ++ b) = true /\ s = B "+").
Proof. intros [->| ->]; [right|left]; repeat split; reflexivity. Qed.
Lemma no_sign num : unsigned num -> hasPrefix (B "-") num = false /\ hasPrefix (B "+") num = false.
Proof.
  intros H. split.
  - destruct (hasPrefix (B "-") num) eqn:E; auto. apply hasPrefix_spec in E as [r E]. destruct (H _ r (or_intror eq_refl) E).
  - destruct (hasPrefix (B "+") num) eqn:E; auto. apply hasPrefix_spec in E as [r E]. destruct (H _ r (or_introl eq_refl) E).
Qed.
Lemma skip1 s b : sign s -> skipn 1 (s ++ b) = b. Proof. intros [->| ->]; reflexivity. Qed.

Lemma anb_found x a s b ts s2 b2 e : gAnb1 x a s b -> ts = [] /\ s2 = s /\ b2 = b /\ e = upto x \/ gAnb2 ts s2 b2 e ->
  forall l y rest, toks l (x :: ts ++ y :: rest) -> l_rws l = true -> isK false RParen y ->
  exists l1, parseANPlusB l = Ok (PAAnb (mkSpan (from x) e) a s2 b2, l1) /\ toks l1 (y :: rest) /\ l_rws l1 = true.
Proof.
  intros G1 G2 l y rest T R [Y1 Y2].
  assert (F1 : fin (ts ++ y :: rest)) by (destruct G2 as [(-> & _)|G2]; [exact Y2|inversion G2 as [? ? ? [_ K]|? ? [_ K]]; exact K]).
  pose (l' := setRws l false). assert (T' : toks l' (x :: ts ++ y :: rest)) by (apply toks_rws; exact T).
  destruct (step1 l' _ _ T' eq_refl F1) as (l1 & N1 & T1 & R1).
  assert (E1 : (if teq (l_cur l') Dimension && beq (l_str l') (B "n") then
       l1 <- next l' ;; Ok (l_num l', [], [], tokenEnd l', l1)
     else if teq (l_cur l') Dimension && hasPrefix (B "n") (l_str l') then
       let numeral := skipn 1 (l_str l') in
       op <- (if hasPrefix (B "-") numeral then Ok (B "-")
              else if hasPrefix (B "+") numeral then Ok (B "+")
              else errorf l' (B "expected +/- as part of An+B")) ;;
       let b := skipn 1 numeral in
       if isEmpty b then errorf l' (B "expected number after operator")
       else l1 <- next l' ;; Ok (l_num l', op, b, tokenEnd l', l1)
     else if teq (l_cur l') Ident && beq (l_str l') (B "n") then
       l1 <- expect Ident l' ;; Ok ([], [], [], tokenEnd l', l1)
     else if teq (l_cur l') Ident && beq (l_str l') (B "-n") then
       l1 <- expect Ident l' ;; Ok (B "-1", [], [], tokenEnd l', l1)
     else if teq (l_cur l') Number then
       let '(op, b) :=
         if hasPrefix (B "-") (l_num l') then (B "-", skipn 1 (l_num l'))
         else if hasPrefix (B "+") (l_num l') then (B "+", skipn 1 (l_num l'))
         else ([], l_num l') in
       l1 <- expect Number l' ;; Ok (B "0", op, b, tokenEnd l', l1)
     else Ok ([], [], [], sp_end (tokenSpan l'), l')) = Ok (a, s, b, upto x, l1)).
  { assert (Ex : forall t, k_tok x = t -> expect t l' = Ok l1) by (intros t Ht; apply expect_next; auto; rewrite (toks_cur _ _ _ T'); auto).
    rewrite (toks_cur _ _ _ T'), (toks_str _ _ _ T'), (toks_num _ _ _ T'), (toks_end _ _ _ T').
    inversion G1 as [K S|s' b' K S Sg Nb|K S|K S|s' b' K S Sg|K S]; subst; rewrite K.
    - rewrite S, N1. reflexivity.
    - assert (X : k_str x = B "n" ++ s ++ b) by exact S. rewrite X. change (teq Dimension Dimension) with true. cbn [andb].
      replace (beq (B "n" ++ s ++ b) (B "n")) with false by (symmetry; apply beq_neq; destruct Sg as [->| ->]; discriminate).
      replace (hasPrefix (B "n") (B "n" ++ s ++ b)) with true by (symmetry; apply hasPrefix_spec; eexists; reflexivity).
      change (skipn 1 (B "n" ++ s ++ b)) with (s ++ b). cbv zeta. rewrite skip1 by exact Sg.
      assert (Ne : isEmpty b = false) by (destruct b; [contradiction|reflexivity]). rewrite N1.
      destruct (sign_of s b Sg) as [(P1 & ->)|(P1 & P2 & ->)]; [rewrite P1|rewrite P1, P2]; cbn [bind]; rewrite Ne; reflexivity.
    - rewrite S, (Ex _ K). reflexivity.
    - rewrite S, (Ex _ K). reflexivity.
    - rewrite (Ex _ K), S. change (teq Number Dimension) with false. change (teq Number Ident) with false. change (teq Number Number) with true. cbn [andb].
      rewrite skip1 by exact Sg. destruct (sign_of s b Sg) as [(P1 & ->)|(P1 & P2 & ->)]; [rewrite P1|rewrite P1, P2]; reflexivity.
    - rewrite (Ex _ K). destruct (no_sign _ S) as [P1 P2]. rewrite P1, P2. reflexivity. }
  assert (E2 : exists l2, (if teq (l_cur l1) Number then
       op2 <- (if hasPrefix (B "-") (l_num l1) then Ok (B "-")
               else if hasPrefix (B "+") (l_num l1) then Ok (B "+")
               else errorf l1 (B "expected +/- as part of An+B")) ;;
       l2 <- expect Number l1 ;; Ok (op2, skipn 1 (l_num l1), tokenEnd l1, l2)
     else if curDelim l1 [B "+"; B "-"] then
       l2 <- next l1 ;;
       l3 <- expect Number l2 ;; Ok (l_str l1, l_num l2, tokenEnd l2, l3)
     else Ok (s, b, upto x, l1)) = Ok (s2, b2, e, l2) /\ toks l2 (y :: rest)).
  { destruct G2 as [(-> & -> & -> & ->)|G2].
    - cbn [app] in T1. exists l1. split; [|exact T1]. unfold curDelim. rewrite (toks_cur _ _ _ T1), Y1. reflexivity.
    - inversion G2 as [z s' b' [Z1 Z2] S Sg|z w [Z1 Z2] Sg [W1 W2]]; subst; cbn [app] in T1.
      + destruct (step1 _ _ _ T1 R1 Y2) as (l2 & N2 & T2 & R2). exists l2. split; [|exact T2].
        rewrite (expect_next Number l1 l2) by (auto; rewrite (toks_cur _ _ _ T1); auto).
        rewrite (toks_cur _ _ _ T1), (toks_num _ _ _ T1), (toks_end _ _ _ T1), Z1, S. change (teq Number Number) with true. cbv iota.
        rewrite skip1 by exact Sg. destruct (sign_of s2 b2 Sg) as [(P1 & ->)|(P1 & P2 & ->)]; [rewrite P1|rewrite P1, P2]; reflexivity.
      + destruct (step1 _ _ _ T1 R1 W2) as (l2 & N2 & T2 & R2). destruct (step1 _ _ _ T2 R2 Y2) as (l3 & N3 & T3 & R3). exists l3. split; [|exact T3].
        unfold curDelim. rewrite (toks_cur _ _ _ T1), (toks_str _ _ _ T1), Z1, N2. change (teq Delim Number) with false. change (teq Delim Delim) with true. cbn [andb].
        rewrite bmem_true by (destruct Sg as [->| ->]; cbn; auto). cbn [bind].
        rewrite (expect_next Number l2 l3) by (auto; rewrite (toks_cur _ _ _ T2); auto). cbn [bind]. rewrite (toks_num _ _ _ T2), (toks_end _ _ _ T2). reflexivity. }
  destruct E2 as (l2 & E2 & T2). exists (setRws l2 true). split; [|split; [apply toks_rws; exact T2|reflexivity]].
  cbv zeta in E1. unfold parseANPlusB. cbv zeta. fold l'. eapply via; [exact E1|]. cbv iota beta. eapply via; [exact E2|]. cbv iota beta. rewrite R, (toks_span _ _ _ T'). reflexivity.
Qed.

(** The arguments of an nth function, selectors.go:117-139. *)
Definition nthArgs (l3 : lexer) : res (pargs selpart * lexer) :=
  match l_cur l3 with
  | Number | Dimension => parseANPlusB l3
  | Ident =>
    if beq (l_str l3) (B "n") || beq (l_str l3) (B "-n") then parseANPlusB l3
    else if negb (beq (l_str l3) (B "even")) && negb (beq (l_str l3) (B "odd")) then
      errorf l3 (B "expected even, odd, or an+b syntax")
    else l4 <- next l3 ;; Ok (PAIdent (tokenSpan l3) (l_str l3), l4)
  | _ => Ok (PANone, l3)
  end.
Lemma nth_found ts args k : gNth ts args k -> forall l y rest, toks l (ts ++ y :: rest) -> l_rws l = true -> isK k RParen y ->
  exists l1, nthArgs l = Ok (args, l1) /\ toks l1 (y :: rest) /\ l_rws l1 = true.
Proof.
  assert (D : forall x a s b l r v, gAnb1 x a s b -> toks l (x :: r) -> parseANPlusB l = v -> nthArgs l = v).
  { intros x a s b l r v G T <-. unfold nthArgs. rewrite (toks_cur _ _ _ T), (toks_str _ _ _ T).
    inversion G as [K S|s' b' K S Sg Nb|K S|K S|s' b' K S Sg|K S]; rewrite K; try rewrite S; reflexivity. }
  intros G l y rest T R Y. inversion G as [|x [X1 X2] W|x a s b K G1|x a s b ts1 s2 b2 e K G1 G2]; subst; cbn [app] in T.
  - exists l. split; [|auto]. unfold nthArgs. rewrite (toks_cur _ _ _ T). destruct Y as [-> _]. reflexivity.
  - destruct (stepk true _ _ _ T R (proj2 Y)) as (l1 & N & T1 & R1). exists l1. split; [|auto]. unfold nthArgs.
    rewrite (toks_cur _ _ _ T), (toks_str _ _ _ T), (toks_span _ _ _ T), X1, N. destruct W as [W|W]; rewrite W; reflexivity.
  - destruct (anb_found x a s b [] s b (upto x) G1) with (l := l) (y := y) (rest := rest) as (l1 & E & H); auto.
    exists l1. split; [|auto]. eapply D; eauto. rewrite E. unfold from, upto. destruct (k_sp x). reflexivity.
  - destruct (anb_found x a s b ts1 s2 b2 e G1 (or_intror G2) l y rest) as (l1 & E & H); auto. exists l1. split; [|auto]. eapply D; eauto.
Qed.

(** * Attribute selectors *)
Lemma attrop_first op pre : gAttrOp op pre -> opens (fun t => negb (teq t RBracket)) op.
Proof.
  intros H. inversion H as [x [X1 X2]|x y K N]; subst; exists x; eexists; (split; [reflexivity|]); split; auto.
  - rewrite X1. reflexivity.
  - rewrite teq_no; auto.
Qed.
Lemma attr_found k x y op pre ts v m z r2 : isK k LBracket x -> is Ident y -> gAttrOp op pre -> gValue ts v ->
  r2 = [] /\ m = [] \/ (exists w, r2 = [w] /\ is Ident w /\ (k_str w = B "s" \/ k_str w = B "i") /\ m = k_str w) -> is RBracket z ->
  forall l rest, toks l (x :: y :: op ++ ts ++ r2 ++ z :: rest) -> l_rws l = true -> hdk false rest ->
  exists l1, gives (fun n => parseAttributeSelector n l) (SAttr (mkSpan (from x) (upto (hd z r2))) (k_str y) pre v m, l1) /\ toks l1 rest /\ l_rws l1 = true.
Proof.
  intros [X1 X2] [Y1 Y2] Go Gv Hm [Z1 Z2] l rest T R Fr.
  pose (l' := setRws l false). assert (T' : toks l' (x :: y :: op ++ ts ++ r2 ++ z :: rest)) by (apply toks_rws; exact T).
  destruct (step1 l' _ _ T' eq_refl Y2) as (l1 & N1 & T1 & R1).
  pose proof (attrop_first _ _ Go) as Fo. pose proof (value_first _ _ Gv) as Fv.
  destruct (step1 _ _ _ T1 R1 (opens_fin _ _ _ Fo)) as (l2 & N2 & T2 & R2).
  assert (C2 : teq (l_cur l2) RBracket = false) by (pose proof (opens_cur _ _ _ _ T2 Fo) as X; apply Bool.negb_true_iff in X; exact X).
  assert (E3 : exists l3, (if bmem (l_str l2) [B "^"; B "~"; B "$"; B "*"; B "|"] then
         let pre := l_str l2 in
         l3 <- next l2 ;;
         if negb (beq (l_str l3) (B "=")) then
           errorf l3 (B "expected =, got " ++ l_str l3 ++ B ": ")
         else l4 <- expect Delim l3 ;; Ok (pre, l4)
       else l3 <- expect Delim l2 ;; Ok ([], l3)) = Ok (pre, l3) /\ toks l3 (ts ++ r2 ++ z :: rest) /\ l_rws l3 = false).
  { inversion Go as [a [A1 A2] Na|a b Ka Ta Ia [B1 B2] Sb]; subst; cbn [app] in T2.
    - destruct (step1 _ _ _ T2 R2 (opens_fin _ _ _ Fv)) as (l3 & N3 & T3 & R3). exists l3. split; [|auto].
      rewrite (toks_str _ _ _ T2), bmem_false by exact Na. rewrite (expect_next Delim l2 l3) by (auto; rewrite (toks_cur _ _ _ T2); auto). reflexivity.
    - destruct (step1 _ _ _ T2 R2 B2) as (l3 & N3 & T3 & R3). destruct (step1 _ _ _ T3 R3 (opens_fin _ _ _ Fv)) as (l4 & N4 & T4 & R4).
      exists l4. split; [|auto]. rewrite (toks_str _ _ _ T2), bmem_true by exact Ia. cbv zeta. rewrite N3. cbn [bind]. rewrite (toks_str _ _ _ T3), Sb, beq_refl. cbn [negb].
      rewrite (expect_next Delim l3 l4) by (auto; rewrite (toks_cur _ _ _ T3); auto). reflexivity. }
  destruct E3 as (l3 & E3 & T3 & R3).
  assert (F4 : fin (r2 ++ z :: rest)) by (destruct Hm as [[-> _]|(w & -> & [_ W] & _)]; assumption).
  destruct (value_found _ _ Gv l3 _ T3 R3 F4) as (l4 & (n0 & E4) & T4 & R4).
  assert (E5 : exists l6, (let e := tokenEnd l4 in
      if teq (l_cur l4) Ident && (beq (l_str l4) (B "s") || beq (l_str l4) (B "i")) then
        l5 <- next l4 ;;
        l6 <- expect RBracket l5 ;;
        Ok (SAttr (mkSpan (from x) e) (k_str y) pre v (l_str l4), setRws l6 true)
      else
        l5 <- expect RBracket l4 ;;
        Ok (SAttr (mkSpan (from x) e) (k_str y) pre v [], setRws l5 true)) =
     Ok (SAttr (mkSpan (from x) (upto (hd z r2))) (k_str y) pre v m, setRws l6 true) /\ toks l6 rest).
  { destruct Hm as [[-> ->]|(w & -> & [W1 W2] & W3 & ->)]; cbn [app hd] in *.
    - destruct (step1 _ _ _ T4 R4 Fr) as (l5 & N5 & T5 & R5). exists l5. split; [|exact T5]. cbv zeta.
      rewrite (expect_next RBracket l4 l5) by (auto; rewrite (toks_cur _ _ _ T4); auto).
      rewrite (toks_cur _ _ _ T4), (toks_end _ _ _ T4), Z1. reflexivity.
    - destruct (step1 _ _ _ T4 R4 Z2) as (l5 & N5 & T5 & R5). destruct (step1 _ _ _ T5 R5 Fr) as (l6 & N6 & T6 & R6). exists l6. split; [|exact T6]. cbv zeta.
      rewrite N5. cbn [bind]. rewrite (expect_next RBracket l5 l6) by (auto; rewrite (toks_cur _ _ _ T5); auto).
      rewrite (toks_cur _ _ _ T4), (toks_str _ _ _ T4), (toks_end _ _ _ T4), W1. destruct W3 as [W3|W3]; rewrite W3; reflexivity. }
  destruct E5 as (l6 & E5 & T6). exists (setRws l6 true). split; [|split; [apply toks_rws; exact T6|reflexivity]].
  cbv zeta in E3, E5. exists n0. intros n Hn. unfold parseAttributeSelector. cbv zeta. fold l'. rewrite N1. cbn [bind].
  rewrite (expect_next Ident l1 l2) by (auto; rewrite (toks_cur _ _ _ T1); auto). cbn [bind]. rewrite C2. eapply via; [exact E3|]. cbv iota beta. rewrite E4 by lia. cbn [bind].
  rewrite (gvalue_notnil _ _ Gv), R, (toks_span _ _ _ T'), (toks_str _ _ _ T1). exact E5.
Qed.
Lemma attr0_found k x y z : isK k LBracket x -> is Ident y -> is RBracket z ->
  forall l rest, toks l (x :: y :: z :: rest) -> l_rws l = true -> hdk false rest ->
  exists l1, gives (fun n => parseAttributeSelector n l) (SAttr (across x z) (k_str y) [] VNil [], l1) /\ toks l1 rest /\ l_rws l1 = true.
Proof.
  intros [X1 X2] [Y1 Y2] [Z1 Z2] l rest T R Fr.
  pose (l' := setRws l false). assert (T' : toks l' (x :: y :: z :: rest)) by (apply toks_rws; exact T).
  destruct (step1 l' _ _ T' eq_refl Y2) as (l1 & N1 & T1 & R1). destruct (step1 _ _ _ T1 R1 Z2) as (l2 & N2 & T2 & R2).
  destruct (step1 _ _ _ T2 R2 Fr) as (l3 & N3 & T3 & R3). exists (setRws l3 true). split; [|split; [apply toks_rws; exact T3|reflexivity]].
  exists 0%nat. intros n Hn. unfold parseAttributeSelector. cbv zeta. fold l'. rewrite N1. cbn [bind].
  rewrite (expect_next Ident l1 l2) by (auto; rewrite (toks_cur _ _ _ T1); auto). cbn [bind].
  rewrite (toks_cur _ _ _ T2), Z1. change (teq RBracket RBracket) with true. cbv iota. rewrite N3. cbn [bind].
  rewrite R, (toks_span _ _ _ T'), (toks_str _ _ _ T1), (toks_end _ _ _ T2). reflexivity.
Qed.

(** * Selectors *)
Definition partToken (t : token) : bool :=
  match t with Whitespace | Ident | Hash | Delim | Colon | LBracket => true | _ => false end.
(** What ends the parts of a selector. *)
Definition selEnd (rest : list tk) : Prop :=
  match rest with y :: _ => partToken (k_tok y) = false /\ k_tok y <> EOF | [] => False end.
Lemma part_first k ts p k1 : gPart k ts p k1 -> exists x r, ts = x :: r /\ k_kept x = k /\ partToken (k_tok x) = true /\ sp_start (partSpan p) = from x.
Proof.
  assert (X : forall t x r p, isK k t x -> partToken t = true -> sp_start (partSpan p) = from x ->
    exists x' r', x :: r = x' :: r' /\ k_kept x' = k /\ partToken (k_tok x') = true /\ sp_start (partSpan p) = from x').
  { intros t x r q [H1 H2] V S. exists x, r. rewrite H1. auto. }
  intros H. inversion H; subst; eapply X; eauto.
Qed.
Lemma parts_first k ts ps k1 rest : gParts k ts ps k1 -> ps <> [] -> exists x r, ts = x :: r /\ k_kept x = k /\ partToken (k_tok x) = true /\
  (forall d, sp_start (partSpan (hd d ps)) = from x) /\ hdk k (ts ++ rest).
Proof.
  intros H N. inversion H as [|? ? ? ? ? ? ? G]; subst; [contradiction|]. apply part_first in G as (x & r & -> & K & V & S).
  exists x. eexists. split; [reflexivity|]. auto.
Qed.
Lemma parts_hdk k ts ps k1 rest : gParts k ts ps k1 -> hdk k1 rest -> hdk k (ts ++ rest).
Proof.
  intros H F. inversion H as [|? ? ? ? ? ? ? G]; subst; [exact F|]. apply part_first in G as (x & r & -> & K & V & S). exact K.
Qed.
Lemma sels_first k ts sels k1 rest : gSelectors k ts sels k1 -> exists x r, ts = x :: r /\ k_kept x = k /\ partToken (k_tok x) = true /\
  (exists s ss, sels = s :: ss /\ sp_start (fst s) = from x) /\ hdk k (ts ++ rest).
Proof.
  assert (Z : forall ps x, (forall d, sp_start (partSpan (hd d ps)) = from x) -> ps <> [] -> sp_start (spanning (map partSpan ps)) = from x).
  { intros [|p ps] x S N; [contradiction|]. exact (S p). }
  intros H. inversion H as [? ? ps ? G N|? ? ps ? c ts2 sels2 ? G N]; subst;
    destruct (parts_first _ _ _ _ rest G N) as (x & r & -> & K & V & S & F); exists x; eexists; (split; [reflexivity|]); repeat split; auto; eexists _, _; split; try reflexivity; apply Z; auto.
Qed.

(** What follows the colons of a pseudo-class, selectors.go:102-168. *)
Definition pseudoTail (n : nat) (l2 : lexer) : res (pargs selpart * nat * lexer) :=
  match l_cur l2 with
  | Ident => l3 <- next l2 ;; Ok (PANone, tokenEnd l2, l3)
  | FunctionStart =>
    l3 <- next l2 ;;
    '(args, l4) <-
      (if isNthName (l_str l2) then nthArgs l3
       else '((slsp, sels), l4) <- parseSelectorList n l3 ;; Ok (PASel slsp sels, l4)) ;;
    let e := tokenEnd l4 in
    l5 <- expect RParen l4 ;; Ok (args, e, l5)
  | _ => errorf l2 (B "unexpected token: " ++ tokenString (l_cur l2))
  end.
Definition goesOn (n : nat) (p : selpart) (l1 : lexer) : res (list selpart * nat * lexer) :=
  '(ps, e, l2) <- partsLoop n (Some (sp_end (partSpan p))) l1 ;; Ok (p :: ps, e, l2).
Lemma colon_eq n le l : l_cur l = Colon -> partsLoop (S n) le l =
  (l1 <- next l ;;
   l2 <- (if teq (l_cur l1) Colon then next l1 else Ok l1) ;;
   '(args, e, l3) <- pseudoTail n l2 ;;
   goesOn n (if teq (l_cur l1) Colon then SPseudoEl (mkSpan (sp_start (tokenSpan l)) e) (mkSpan (sp_start (tokenSpan l1)) e) (l_str l2) args
             else SPseudo (mkSpan (sp_start (tokenSpan l)) e) (l_str l2) args) l3).
Proof.
  intros C. cbn [partsLoop]. rewrite C. destruct (next l) as [l1| |]; [|reflexivity|reflexivity]. cbn [bind]. destruct (teq (l_cur l1) Colon); reflexivity.
Qed.

Definition PPart (k : bool) (ts : list tk) (p : selpart) (k1 : bool) : Prop :=
  forall l rest, toks l (ts ++ rest) -> l_rws l = true -> hdk k1 rest ->
  exists l1, toks l1 rest /\ l_rws l1 = true /\
    forall le r, gives (fun n => goesOn n p l1) r -> gives (fun n => partsLoop n le l) r.
Definition PPseudo (ts : list tk) (name : bytes) (args : pargs selpart) (e : nat) : Prop :=
  forall l rest, toks l (ts ++ rest) -> l_rws l = true -> hdk true rest ->
  l_str l = name /\ exists l1, gives (fun n => pseudoTail n l) (args, e, l1) /\ toks l1 rest /\ l_rws l1 = true.
Definition endOfParts (le : option nat) (ps : list selpart) : option nat :=
  match ps with [] => le | p :: _ => Some (sp_end (partSpan (last ps p))) end.
Definition PParts (k : bool) (ts : list tk) (ps : list selpart) (k1 : bool) : Prop :=
  forall l rest le e, toks l (ts ++ rest) -> l_rws l = true -> hdk k1 rest -> selEnd rest -> endOfParts le ps = Some e ->
  exists l1, gives (fun n => partsLoop n le l) (ps, e, l1) /\ toks l1 rest /\ l_rws l1 = true.
Definition selsEnd (rest : list tk) : Prop := selEnd rest /\ match rest with y :: _ => k_tok y <> Comma | [] => True end.
Definition PSels (k : bool) (ts : list tk) (sels : list selector) (k1 : bool) : Prop :=
  forall l rest, toks l (ts ++ rest) -> l_rws l = k -> hdk k1 rest -> selsEnd rest ->
  exists l1, gives (fun n => selListLoop n l) (sels, l1) /\ toks l1 rest /\ l_rws l1 = k.

Scheme gPart_m := Minimality for gPart Sort Prop
with gPseudo_m := Minimality for gPseudo Sort Prop
with gParts_m := Minimality for gParts Sort Prop
with gSelectors_m := Minimality for gSelectors Sort Prop.
Combined Scheme selectors_m from gPart_m, gPseudo_m, gParts_m, gSelectors_m.

Lemma last_any {A} (l : list A) a b : l <> [] -> last l a = last l b.
Proof. induction l as [|x [|y r] IH]; [contradiction|reflexivity|]. intros _. apply IH. discriminate. Qed.
Lemma spanning_start a d sps x : hd x sps = x -> sps <> [] -> sp_start x = a -> mkSpan a (sp_end (last sps d)) = spanning sps.
Proof.
  intros H N <-. unfold spanning. destruct sps as [|s sps]; [contradiction|]. cbn [hd] in *. subst s. f_equal. f_equal. apply last_any. discriminate.
Qed.
Lemma list_found k ts sels k1 : gSelectors k ts sels k1 -> PSels k ts sels k1 ->
  forall l rest, toks l (ts ++ rest) -> l_rws l = k -> hdk k1 rest -> selsEnd rest ->
  exists l1, gives (fun n => parseSelectorList n l) ((spanning (map fst sels), sels), l1) /\ toks l1 rest /\ l_rws l1 = k.
Proof.
  intros G P l rest T R F E. destruct (P l rest T R F E) as (l1 & (n0 & E0) & T1 & R1). exists l1. split; [|auto].
  destruct (sels_first _ _ _ _ rest G) as (x & r & -> & _ & _ & (s & ss & -> & Ss) & _). exists (S n0). fuel n. cbn [parseSelectorList]. uses E0.
  cbn [app] in T. rewrite (toks_span _ _ _ T). do 3 f_equal. unfold lastEndOf. rewrite (spanning_start (sp_start (k_sp x)) _ _ (fst s)); [reflexivity|reflexivity|discriminate|exact Ss].
Qed.

Lemma last_span ps : forall p q d, sp_end (partSpan (last (p :: ps) q)) = sp_end (last (partSpan p :: map partSpan ps) d).
Proof. induction ps as [|p2 ps IH]; intros p q d; [reflexivity|]. exact (IH p2 q d). Qed.
Lemma selListLoop_eq n l : selListLoop (S n) l =
  (if teq (l_cur l) EOF then errorf l (B "unexpected EOF") else
   '(s, l1) <- parseSelector n l ;;
   if teq (l_cur l1) Comma then l2 <- next l1 ;; '(ss, l3) <- selListLoop n l2 ;; Ok (s :: ss, l3) else Ok ([s], l1)).
Proof. reflexivity. Qed.
Lemma selectors_found :
  (forall k ts p k1, gPart k ts p k1 -> PPart k ts p k1) /\
  (forall ts name args e, gPseudo ts name args e -> PPseudo ts name args e) /\
  (forall k ts ps k1, gParts k ts ps k1 -> PParts k ts ps k1) /\
  (forall k ts sels k1, gSelectors k ts sels k1 -> gSelectors k ts sels k1 /\ PSels k ts sels k1).
Proof.
  assert (ONE : forall k t x p, isK k t x -> partToken t = true ->
    (forall n le l l1 r, toks l (x :: r) -> next l = Ok l1 -> partsLoop (S n) le l = goesOn n p l1) -> PPart k [x] p true).
  { intros k t x p [X1 X2] V H l rest T R F. cbn [app] in T. destruct (stepk true _ _ _ T R F) as (l1 & N & T1 & R1). exists l1. split; [exact T1|]. split; [exact R1|].
    intros le r (n0 & E0). exists (S n0). fuel n. rewrite (H n le l l1 _ T N). apply E0. lia. }
  assert (ATT : forall k x r p, isK k LBracket x -> (forall l rest, toks l (x :: r ++ rest) -> l_rws l = true -> hdk false rest ->
      exists l1, gives (fun n => parseAttributeSelector n l) (p, l1) /\ toks l1 rest /\ l_rws l1 = true) -> PPart k (x :: r) p false).
  { intros k x r p [X1 X2] H l rest T R F. cbn [app] in T. destruct (H l rest T R F) as (l1 & (n0 & E0) & T1 & R1). exists l1. split; [exact T1|]. split; [exact R1|].
    intros le q (n1 & E1). exists (S (n0 + n1)). fuel n. cbn [partsLoop]. rewrite (toks_cur _ _ _ T), X1. rewrite E0 by lia. cbn [bind]. apply E1. lia. }
  apply selectors_m.
  - intros k x X. eapply ONE; [exact X|reflexivity|]. intros n le l l1 r T N. destruct X as [X _]. cbn [partsLoop]. rewrite (toks_cur _ _ _ T), (toks_span _ _ _ T), X, N. reflexivity.
  - intros k x X. eapply ONE; [exact X|reflexivity|]. intros n le l l1 r T N. destruct X as [X _]. cbn [partsLoop]. rewrite (toks_cur _ _ _ T), (toks_span _ _ _ T), (toks_str _ _ _ T), X, N. reflexivity.
  - intros k x X S. eapply ONE; [exact X|reflexivity|]. intros n le l l1 r T N. destruct X as [X _]. cbn [partsLoop]. rewrite (toks_cur _ _ _ T), (toks_span _ _ _ T), (toks_str _ _ _ T), X, N, S. reflexivity.
  - intros k x X. eapply ONE; [exact X|reflexivity|]. intros n le l l1 r T N. destruct X as [X _]. cbn [partsLoop]. rewrite (toks_cur _ _ _ T), (toks_span _ _ _ T), (toks_str _ _ _ T), X, N. reflexivity.
  - (* class *) intros k x y [X1 X2] Sx [Y1 Y2] l rest T R F. cbn [app] in T. destruct (stepk true _ _ _ T R Y2) as (l1 & N & T1 & R1).
    destruct (stepk true _ _ _ T1 R1 F) as (l2 & N2 & T2 & R2). exists l2. split; [exact T2|]. split; [exact R2|].
    intros le r (n0 & E0). exists (S n0). fuel n. cbn [partsLoop]. rewrite (toks_cur _ _ _ T), (toks_str _ _ _ T), X1, Sx, N. change (beq (B ".") (B ".")) with true. cbn [bind].
    rewrite (expect_next Ident l1 l2) by (auto; rewrite (toks_cur _ _ _ T1); auto). cbn [bind].
    rewrite (toks_span _ _ _ T), (toks_end _ _ _ T1), (toks_str _ _ _ T1). apply E0. lia.
  - intros k x X S. eapply ONE; [exact X|reflexivity|]. intros n le l l1 r T N. destruct X as [X _]. cbn [partsLoop]. rewrite (toks_cur _ _ _ T), (toks_span _ _ _ T), (toks_str _ _ _ T), X, N.
    replace (beq (k_str x) (B ".")) with false by (symmetry; apply beq_neq; intros Z; rewrite Z in S; cbn in S; intuition discriminate).
    rewrite bmem_true by exact S. reflexivity.
  - (* pseudo-class *) intros k x ts name args e [X1 X2] G IH l rest T R F. cbn [app] in T.
    assert (Hh : hdk true (ts ++ rest) /\ (forall l, toks l (ts ++ rest) -> teq (l_cur l) Colon = false)).
    { split; [inversion G as [? [? K]|? ? ? ? ? [? K]|? ? ? ? ? [? K]]; subst; exact K|].
      intros l' T'. inversion G as [? [K ?]|? ? ? ? ? [K ?]|? ? ? ? ? [K ?]]; subst; cbn [app] in T'; rewrite (toks_cur _ _ _ T'), K; reflexivity. }
    destruct Hh as [Hh Hc]. destruct (stepk true _ _ _ T R Hh) as (l1 & N & T1 & R1).
    destruct (IH l1 rest T1 R1 F) as (Hs & l2 & (n0 & E0) & T2 & R2). exists l2. split; [exact T2|]. split; [exact R2|].
    intros le r (n1 & E1). exists (S (n0 + n1)). fuel n. rewrite colon_eq by (rewrite (toks_cur _ _ _ T); auto). rewrite N. cbn [bind]. rewrite (Hc _ T1). cbn [bind].
    uses E0. rewrite Hs, (toks_span _ _ _ T). apply E1. lia.
  - intros k x y ts name args e [X1 X2] [Y1 Y2] G IH l rest T R F. cbn [app] in T.
    assert (Hh : hdk true (ts ++ rest)).
    { inversion G as [? [? K]|? ? ? ? ? [? K]|? ? ? ? ? [? K]]; subst; exact K. }
    destruct (stepk true _ _ _ T R Y2) as (l1 & N & T1 & R1). destruct (stepk true _ _ _ T1 R1 Hh) as (l2 & N2 & T2 & R2).
    destruct (IH l2 rest T2 R2 F) as (Hs & l3 & (n0 & E0) & T3 & R3). exists l3. split; [exact T3|]. split; [exact R3|].
    intros le r (n1 & E1). exists (S (n0 + n1)). fuel n. rewrite colon_eq by (rewrite (toks_cur _ _ _ T); auto). rewrite N. cbn [bind].
    rewrite (toks_cur _ _ _ T1), Y1. change (teq Colon Colon) with true. cbv iota. rewrite N2. cbn [bind].
    uses E0. rewrite Hs, (toks_span _ _ _ T), (toks_span _ _ _ T1). apply E1. lia.
  - intros k x y z X Y Z. apply ATT; auto. intros l rest T R F. cbn [app] in T. eapply attr0_found; eauto.
  - intros k x y op pre ts v z X Y Go Gv Z. apply ATT; auto. intros l rest T R F. cbn [app] in T. rewrite <- !app_assoc in T. cbn [app] in T.
    eapply (attr_found k x y op pre ts v [] z []); eauto.
  - intros k x y op pre ts v m z X Y Go Gv M Sm Z. apply ATT; auto. intros l rest T R F. cbn [app] in T. rewrite <- !app_assoc in T. cbn [app] in T.
    eapply (attr_found k x y op pre ts v (k_str m) z [m]); eauto. right. exists m. auto.
  - (* name *) intros x [X1 X2] l rest T R F. cbn [app] in T. split; [exact (toks_str _ _ _ T)|]. destruct (stepk true _ _ _ T R F) as (l1 & N & T1 & R1).
    exists l1. split; [|auto]. exists 0%nat. intros n _. unfold pseudoTail. rewrite (toks_cur _ _ _ T), (toks_end _ _ _ T), X1, N. reflexivity.
  - intros x ts args k y [X1 X2] Hn G Y l rest T R F. cbn [app] in T. rewrite <- app_assoc in T. cbn [app] in T. split; [exact (toks_str _ _ _ T)|].
    assert (Hh : hdk true (ts ++ y :: rest)) by (inversion G as [|? [? K]|? ? ? ? K|? ? ? ? ? ? ? ? K]; subst; [exact (proj2 Y)|exact K..]).
    destruct (stepk true _ _ _ T R Hh) as (l1 & N & T1 & R1). destruct (nth_found _ _ _ G l1 y rest T1 R1 Y) as (l2 & E & T2 & R2).
    destruct (stepk true _ _ _ T2 R2 F) as (l3 & N3 & T3 & R3). exists l3. split; [|auto]. exists 0%nat. intros n _. unfold pseudoTail.
    rewrite (toks_cur _ _ _ T), (toks_str _ _ _ T), X1, N. cbn [bind]. unfold isNthName. rewrite bmem_true by exact Hn. rewrite E. cbn [bind].
    rewrite (expect_next RParen l2 l3) by (auto; rewrite (toks_cur _ _ _ T2); apply Y). rewrite (toks_end _ _ _ T2). reflexivity.
  - intros x ts sels k y [X1 X2] Hn G [_ IH] Y l rest T R F. cbn [app] in T. rewrite <- app_assoc in T. cbn [app] in T. split; [exact (toks_str _ _ _ T)|].
    destruct (sels_first _ _ _ _ (y :: rest) G) as (x1 & r1 & _ & _ & _ & _ & Hh).
    destruct (stepk true _ _ _ T R Hh) as (l1 & N & T1 & R1).
    destruct (list_found _ _ _ _ G IH l1 (y :: rest) T1 R1) as (l2 & (n0 & E) & T2 & R2); [exact (proj2 Y)|unfold selsEnd, selEnd; destruct Y as [-> _]; repeat split; discriminate|].
    destruct (stepk true _ _ _ T2 R2 F) as (l3 & N3 & T3 & R3). exists l3. split; [|auto]. exists n0. intros n Hge. unfold pseudoTail.
    rewrite (toks_cur _ _ _ T), (toks_str _ _ _ T), X1, N. cbn [bind]. unfold isNthName. rewrite bmem_false by exact Hn. rewrite E by lia. cbn [bind].
    rewrite (expect_next RParen l2 l3) by (auto; rewrite (toks_cur _ _ _ T2); apply Y). rewrite (toks_end _ _ _ T2). reflexivity.
  - (* no more parts *) intros k l rest le e T R F E Le. cbn [app] in T. exists l. split; [|auto]. exists 1%nat. fuel n. destruct rest as [|y r]; [contradiction|].
    cbn [endOfParts] in Le. subst le. cbn [partsLoop]. rewrite (toks_cur _ _ _ T). destruct E as [E1 E2]. destruct (k_tok y); try discriminate E1; try contradiction; reflexivity.
  - intros k ts p k1 ts2 ps k2 G IH G2 IH2 l rest le e T R F E Le. rewrite <- app_assoc in T.
    destruct (IH l _ T R (parts_hdk _ _ _ _ _ G2 F)) as (l1 & T1 & R1 & H).
    destruct (IH2 l1 rest (Some (sp_end (partSpan p))) e T1 R1 F E) as (l2 & (n0 & E0) & T2 & R2).
    { rewrite <- Le. destruct ps as [|q ps]; [reflexivity|]. unfold endOfParts. change (last (p :: q :: ps) p) with (last (q :: ps) p). rewrite (last_any (q :: ps) q p) by discriminate. reflexivity. }
    exists l2. split; [|auto]. apply H. exists n0. intros n Hn. unfold goesOn. rewrite E0 by lia. reflexivity.
  - (* one selector *) intros k ts ps k1 G IH N. split; [apply gsOne; auto|]. intros l rest T R F [E E2].
    destruct (parts_first _ _ _ _ rest G N) as (x & r & -> & K & V & Sp & _). cbn [app] in T.
    destruct (IH (setRws l true) rest None (sp_end (partSpan (last ps (hd (SWhitespace (mkSpan 0 0)) ps))))) as (l1 & (n0 & E0) & T1 & R1); auto.
    { destruct ps; [contradiction|]. reflexivity. }
    exists (setRws l1 k). split; [|split; [apply toks_rws; exact T1|reflexivity]]. exists (S (S n0)). intros [|[|n]] L; try lia.
    cbn [selListLoop]. assert (C : teq (l_cur l) EOF = false) by (rewrite (toks_cur _ _ _ T); apply teq_no; intros Z; rewrite Z in V; discriminate). rewrite C.
    cbn [parseSelector]. cbv zeta. rewrite E0 by lia. cbn [bind]. destruct rest as [|y r']; [contradiction|].
    change (l_cur (setRws l1 (l_rws l))) with (l_cur l1). rewrite (toks_cur _ _ _ T1), (teq_no _ _ E2), R, (toks_span _ _ _ T).
    do 4 f_equal. unfold spanning. destruct ps as [|p ps]; [contradiction|]. cbn [map hd]. f_equal; [symmetry; exact (Sp p)|].
    apply last_span.
  - intros k ts ps k1 c ts2 sels k2 G IH N [C1 C2] G2 [_ IH2]. split; [apply (gsMore k ts ps k1 c ts2); auto; split; auto|]. intros l rest T R F E.
    rewrite <- app_assoc in T. cbn [app] in T.
    destruct (parts_first _ _ _ _ rest G N) as (x & r & -> & K & V & Sp & _). cbn [app] in T.
    destruct (IH (setRws l true) (c :: ts2 ++ rest) None (sp_end (partSpan (last ps (hd (SWhitespace (mkSpan 0 0)) ps))))) as (l1 & (n0 & E0) & T1 & R1); auto.
    { unfold selEnd. rewrite C1. split; [reflexivity|discriminate]. } { destruct ps; [contradiction|]. reflexivity. }
    assert (T1' : toks (setRws l1 k) (c :: ts2 ++ rest)) by (apply toks_rws; exact T1).
    destruct (sels_first _ _ _ _ rest G2) as (x2 & r2 & _ & _ & _ & _ & Hh).
    destruct (stepk k _ _ _ T1' eq_refl Hh) as (l2 & N2 & T2 & R2).
    destruct (IH2 l2 rest T2 R2 F E) as (l3 & (n1 & E3) & T3 & R3). exists l3. split; [|auto]. exists (S (S (n0 + n1))). fuel n.
    rewrite selListLoop_eq. assert (C : teq (l_cur l) EOF = false) by (rewrite (toks_cur _ _ _ T); apply teq_no; intros Z; rewrite Z in V; discriminate). rewrite C.
    assert (E1 : parseSelector n l = Ok ((mkSpan (sp_start (tokenSpan l)) (sp_end (partSpan (last ps (hd (SWhitespace (mkSpan 0 0)) ps)))), ps), setRws l1 (l_rws l))).
    { destruct n as [|n]; [lia|]. cbn [parseSelector]. cbv zeta. rewrite E0 by lia. reflexivity. }
    rewrite E1. cbn [bind]. rewrite R.
    change (l_cur (setRws l1 k)) with (l_cur l1). rewrite (toks_cur _ _ _ T1), C1. change (teq Comma Comma) with true. cbv iota. rewrite N2. cbn [bind].
    rewrite E3 by lia. cbn [bind]. rewrite (toks_span _ _ _ T).
    do 4 f_equal. unfold spanning. destruct ps as [|p ps]; [contradiction|]. cbn [map hd]. f_equal; [symmetry; exact (Sp p)|].
    apply last_span.
Qed.
Lemma sellist_found k ts sels k1 : gSelectors k ts sels k1 ->
  forall l rest, toks l (ts ++ rest) -> l_rws l = k -> hdk k1 rest -> selsEnd rest ->
  exists l1, gives (fun n => parseSelectorList n l) ((spanning (map fst sels), sels), l1) /\ toks l1 rest /\ l_rws l1 = k.
Proof. intros G. apply list_found; [exact G|]. apply selectors_found. exact G. Qed.
End WithUnicode.
