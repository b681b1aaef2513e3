(** Plain readings are found by the parser: tokens and values. *)
From Verif Require Import Bytes Utf8 Source Lexer BytesFacts LexSpec LexFacts LexNext LexProps LexSame Ast Parser ParserSpec ParseMono ParseInv ParseSound ReadSpec ReadProofs.

(** With enough fuel, [f] returns [a]. *)
Definition gives {A} (f : nat -> res A) (a : A) : Prop := exists n0, forall n, (n0 <= n)%nat -> f n = Ok a.

Section WithUnicode.
Context {U : UnicodeDigits}.
Local Instance noLiberties : Liberties := false.

(** * The tokens ahead of a lexer *)
(** [toks l ts]: [l] is at the first of [ts], and calls of Next with the flags
    of [ts] deliver the others; the last is the end of the file. *)
Fixpoint toks (l : lexer) (ts : list tk) : Prop :=
  match ts with
  | [] => False
  | x :: r => x = tkOf (k_kept x) l /\
    match r with
    | [] => l_cur l = EOF
    | y :: _ => forall ls, exists l1, next (setLines (setRws l (k_kept y)) ls) = Ok l1 /\ l_rws l1 = k_kept y /\ toks l1 r
    end
  end.
Lemma toks_same l l' ts : same l l' -> toks l ts -> toks l' ts.
Proof.
  intros [ls ->]. destruct ts as [|x [|y r]]; auto.
Qed.
Lemma toks_rws l ts b : toks (setRws l b) ts <-> toks l ts.
Proof. destruct ts as [|x [|y r]]; reflexivity. Qed.
Lemma setRws_id l : setRws l (l_rws l) = l. Proof. destruct l. reflexivity. Qed.
Lemma setLines_id l : setLines l (l_lines l) = l. Proof. destruct l. reflexivity. Qed.
Lemma toks_next l x y r : toks l (x :: y :: r) -> l_rws l = k_kept y -> exists l1, next l = Ok l1 /\ l_rws l1 = k_kept y /\ toks l1 (y :: r).
Proof. intros [_ H] E. rewrite <- E in H. destruct (H (l_lines l)) as (l1 & N & R & T). rewrite setRws_id, setLines_id in N. rewrite <- E. eauto. Qed.
Lemma toks_cur l x r : toks l (x :: r) -> l_cur l = k_tok x. Proof. intros [-> _]. reflexivity. Qed.
Lemma toks_str l x r : toks l (x :: r) -> l_str l = k_str x. Proof. intros [-> _]. reflexivity. Qed.
Lemma toks_num l x r : toks l (x :: r) -> l_num l = k_num x. Proof. intros [-> _]. reflexivity. Qed.
Lemma toks_span l x r : toks l (x :: r) -> tokenSpan l = k_sp x. Proof. intros [-> _]. reflexivity. Qed.
Lemma toks_end l x r : toks l (x :: r) -> tokenEnd l = upto x. Proof. intros [-> _]. reflexivity. Qed.

Lemma path_kept k l ts k1 l1 : path k l ts k1 l1 -> forall e, k_kept e = k1 -> exists y r, ts ++ [e] = y :: r /\ k_kept y = k.
Proof. intros H. induction H; intros e E; auto; [exists e, []; auto|]. eexists _, _. split; reflexivity. Qed.
Lemma path_toks content k l ts k1 l1 : path k l ts k1 l1 -> pstate content l -> l_cur l1 = EOF -> toks l (ts ++ [tkOf k1 l1]).
Proof.
  intros H. induction H as [k l|k l b ts k1 l1 H IH|k l ls ts k1 l1 H IH|k l l1 ts k1 l2 N H IH]; intros P E.
  - split; [reflexivity|exact E].
  - apply (toks_rws l _ b). apply IH; auto. exact (pFlags content l b (l_rcom l) P).
  - apply (toks_same (setLines l ls)); [exists (l_lines l); destruct l; reflexivity|]. apply IH; auto. apply pLines. auto.
  - pose proof (pstate_call _ _ P) as C. rewrite N in C. destruct C as (_ & _ & C & _).
    destruct (path_kept _ _ _ _ _ H (tkOf k1 l2) eq_refl) as (y & r & Y & K).
    assert (T : toks l1 (ts ++ [tkOf k1 l2])) by (apply IH; auto; eapply pNext; eauto).
    cbn [app]. rewrite Y in *. split; [reflexivity|]. intros ls. rewrite K, setRws_id.
    pose proof (next_same l (setLines l ls) (same_lines _ _)) as S. rewrite N in S.
    destruct (next (setLines l ls)) as [m| |] eqn:M; try contradiction. exists m. split; [reflexivity|].
    split; [rewrite (same_rws _ _ S); congruence|]. eapply toks_same; eauto.
Qed.

(** White space before what follows is skipped. *)
Definition fin (ts : list tk) : Prop := match ts with y :: _ => k_kept y = false | [] => False end.
(** What follows does not continue a product. *)
Definition quiet (ts : list tk) : Prop :=
  match ts with y :: _ => k_tok y <> Delim \/ ~ In (k_str y) [B "*"; B "/"] | [] => True end.
Definition silent (ts : list tk) : Prop := match ts with y :: _ => k_tok y <> Delim | [] => True end.

Lemma step1 l x rest : toks l (x :: rest) -> l_rws l = false -> fin rest -> exists l1, next l = Ok l1 /\ toks l1 rest /\ l_rws l1 = false.
Proof.
  intros T R F. destruct rest as [|y r]; [contradiction|]. cbn in F. destruct (toks_next _ _ _ _ T) as (l1 & N & R1 & T1); [congruence|].
  exists l1. repeat split; try congruence; apply T1.
Qed.
Lemma expect_next t l l1 : l_cur l = t -> next l = Ok l1 -> expect t l = Ok l1.
Proof. intros E N. unfold expect. rewrite E. destruct t; exact N. Qed.
Lemma is_kept t x : is t x -> k_kept x = false. Proof. intros [_ H]. exact H. Qed.
Lemma is_tok t x : is t x -> k_tok x = t. Proof. intros [H _]. exact H. Qed.
Lemma fin_cons x r : k_kept x = false -> fin (x :: r). Proof. auto. Qed.

(** * Values *)
Definition valueToken (t : token) : bool :=
  match t with
  | Dimension | LBracket | Percentage | Number | Ident | Hash | TString | URL | FunctionStart => true
  | _ => false
  end.
Definition opens (ok : token -> bool) (ts : list tk) : Prop :=
  exists x r, ts = x :: r /\ k_kept x = false /\ ok (k_tok x) = true.
Definition operandToken (t : token) : bool := valueToken t || teq t LParen.
Lemma value_first ts v : gValue ts v -> opens valueToken ts.
Proof.
  assert (X : forall t x r, is t x -> valueToken t = true -> opens valueToken (x :: r)).
  { intros t x r [H1 H2] V. exists x, r. rewrite H1. auto. }
  intros H. inversion H; subst; eapply X; eauto.
Qed.
Lemma operand_first ts v : gOperand ts v -> opens operandToken ts.
Proof.
  intros H. inversion H as [? ? G|x ? ? ? [H1 H2]|x ? [H1 H2]]; subst.
  - apply value_first in G as (x & r & -> & K & V). exists x, r. unfold operandToken. rewrite V. auto.
  - exists x. eexists. split; [reflexivity|]. rewrite H1. auto.
  - exists x. eexists. split; [reflexivity|]. rewrite H1. auto.
Qed.
Lemma opens_app ok a b : opens ok a -> opens ok (a ++ b).
Proof. intros (x & r & -> & H). exists x. eexists. split; [reflexivity|exact H]. Qed.
Lemma product_first ts v : gProduct ts v -> opens operandToken ts.
Proof. induction 1; [eapply operand_first; eauto|apply opens_app; auto]. Qed.
Lemma sum_first ts v : gSum ts v -> opens operandToken ts.
Proof. induction 1; [eapply product_first; eauto|apply opens_app; auto]. Qed.
Lemma opens_fin ok a b : opens ok a -> fin (a ++ b).
Proof. intros (x & r & -> & H & _). exact H. Qed.
Lemma opens_cur ok l a b : toks l (a ++ b) -> opens ok a -> ok (l_cur l) = true.
Proof. intros T (x & r & -> & _ & H). rewrite (toks_cur _ _ _ T). exact H. Qed.

Definition RD (f : nat -> lexer -> res (value * lexer)) (ts : list tk) (v : value) : Prop :=
  forall l rest, toks l (ts ++ rest) -> l_rws l = false -> fin rest ->
  exists l1, gives (fun n => f n l) (v, l1) /\ toks l1 rest /\ l_rws l1 = false.
(** Up to the loop that takes further operands. *)
Definition RDto (f : nat -> lexer -> res (value * lexer)) (loop : nat -> value -> lexer -> res (value * lexer))
    (q : list tk -> Prop) (ts : list tk) (v : value) : Prop :=
  forall l rest, toks l (ts ++ rest) -> l_rws l = false -> fin rest -> q rest ->
  exists l1, toks l1 rest /\ l_rws l1 = false /\ forall a, gives (fun n => loop n v l1) a -> gives (fun n => f n l) a.
Definition RDB (ts : list tk) (vs : list value) : Prop :=
  forall l y rest, toks l (ts ++ y :: rest) -> l_rws l = false -> is RBracket y -> fin rest ->
  exists l1, gives (fun n => bracketLoop n l) (vs, upto y, l1) /\ toks l1 rest /\ l_rws l1 = false.
Definition RDA (math : bool) (ts : list tk) (vs : list value) : Prop :=
  forall name l y rest, isMathName name = math -> toks l (ts ++ y :: rest) -> l_rws l = false -> is RParen y -> fin rest ->
  exists l1, gives (fun n => argsLoop n name l) (vs, Some (upto y), l1) /\ toks l1 rest /\ l_rws l1 = false.

Scheme gValue_m := Minimality for gValue Sort Prop
with gValues_m := Minimality for gValues Sort Prop
with gArgs_m := Minimality for gArgs Sort Prop
with gMathArgs_m := Minimality for gMathArgs Sort Prop
with gSum_m := Minimality for gSum Sort Prop
with gProduct_m := Minimality for gProduct Sort Prop
with gOperand_m := Minimality for gOperand Sort Prop.
Combined Scheme values_m from gValue_m, gValues_m, gArgs_m, gMathArgs_m, gSum_m, gProduct_m, gOperand_m.

Ltac fuel n := let L := fresh "L" in intros [|n] L; [lia|].
Ltac uses E := rewrite E by lia; cbn [bind].

Lemma RD_leaf x v : valueToken (k_tok x) = true -> k_tok x <> LBracket -> k_tok x <> FunctionStart -> is (k_tok x) x ->
  v = match k_tok x with
      | Dimension => VDim (k_sp x) (k_num x) (k_str x)
      | Percentage => VDim (k_sp x) (k_num x) (B "%")
      | Number => VDim (k_sp x) (k_num x) []
      | Ident => VIdent (k_sp x) (k_str x)
      | Hash => VHex (k_sp x) (k_str x)
      | TString => VString (k_sp x) (k_str x)
      | _ => VFunc (k_sp x) (B "url") [VIdent (mkSpan 0 0) (k_str x)]
      end -> RD parseValue [x] v.
Proof.
  intros V N1 N2 K -> l rest T R F. cbn [app] in T. destruct (step1 _ _ _ T R F) as (l1 & N & T1 & R1). exists l1. split; [|auto].
  exists 1%nat. fuel n. cbn [parseValue]. rewrite (toks_cur _ _ _ T), (toks_span _ _ _ T), (toks_str _ _ _ T), (toks_num _ _ _ T), N. cbn [bind].
  destruct (k_tok x); try discriminate; try congruence; reflexivity.
Qed.
Lemma teq_refl t : teq t t = true. Proof. destruct t; reflexivity. Qed.
Lemma teq_no a b : a <> b -> teq a b = false. Proof. intros H. destruct (teq a b) eqn:E; auto. apply teq_eq in E. contradiction. Qed.
Lemma quiet_stop l rest : toks l rest -> quiet rest -> curDelim l [B "*"; B "/"] = false.
Proof.
  destruct rest as [|y r]; [contradiction|]. intros T Q. unfold curDelim. rewrite (toks_cur _ _ _ T), (toks_str _ _ _ T). cbn in Q. destruct Q as [Q|Q].
  - rewrite teq_no; auto.
  - destruct (bmem (k_str y) [B "*"; B "/"]) eqn:E; [|apply Bool.andb_false_r]. apply bmem_In in E. contradiction.
Qed.
Lemma silent_stop l rest ops : toks l rest -> silent rest -> curDelim l ops = false.
Proof. destruct rest as [|y r]; [contradiction|]. intros T Q. unfold curDelim. rewrite (toks_cur _ _ _ T). rewrite teq_no; auto. Qed.
Lemma silent_quiet rest : silent rest -> quiet rest. Proof. destruct rest; cbn; auto. Qed.
Lemma opens_silent ok ts r : opens ok ts -> (ok Delim = false) -> silent (ts ++ r).
Proof. intros (x & q & -> & _ & H) N. cbn. congruence. Qed.
Lemma mathargs_first ts vs y r : gMathArgs ts vs -> is RParen y -> fin (ts ++ y :: r) /\ silent (ts ++ y :: r).
Proof.
  intros H [Y1 Y2]. inversion H as [|x ? ? [X1 X2] ?|? ? ? ? S ?]; subst.
  - cbn. split; [exact Y2|]. rewrite Y1. discriminate.
  - cbn. split; [exact X2|]. rewrite X1. discriminate.
  - apply sum_first in S. rewrite <- app_assoc. split; [eapply opens_fin; eauto|eapply opens_silent; eauto].
Qed.
Lemma args_first ts vs y r : gArgs ts vs -> is RParen y -> fin (ts ++ y :: r).
Proof.
  intros H [Y1 Y2]. inversion H as [|x ? ? [X1 X2] ?|? ? ? ? S ?]; subst.
  - exact Y2.
  - exact X2.
  - apply value_first in S. rewrite <- app_assoc. eapply opens_fin; eauto.
Qed.
Lemma values_first ts vs y r : gValues ts vs -> is RBracket y -> fin (ts ++ y :: r).
Proof.
  intros H [Y1 Y2]. inversion H as [|? ? ? ? S ?]; subst; [exact Y2|]. apply value_first in S. rewrite <- app_assoc. eapply opens_fin; eauto.
Qed.
Lemma gvalue_notnil ts v : gValue ts v -> isNil v = false.
Proof. intros H. inversion H; reflexivity. Qed.

Lemma mathProduct_eq n l : mathProduct (S n) l = ('(lhs, l1) <- mathParen n l ;; mathProductLoop n lhs l1).
Proof. reflexivity. Qed.
Lemma mathSum_eq n l : mathSum (S n) l = ('(lhs, l1) <- mathProduct n l ;; mathSumLoop n lhs l1).
Proof. reflexivity. Qed.
Lemma empty_sum l : l_cur l = RParen -> gives (fun n => mathSum n l) (VNil, l).
Proof.
  intros C. assert (V : gives (fun n => mathParen n l) (VNil, l)).
  { exists 2%nat. intros [|n] L; [lia|]. cbn [mathParen]. rewrite C. cbn [teq negb]. destruct n as [|n]; [lia|]. cbn [parseValue]. rewrite C. reflexivity. }
  assert (D : forall ops, curDelim l ops = false) by (intros ops; unfold curDelim; rewrite C; reflexivity).
  destruct V as (n0 & V). exists (S (S (S n0))). intros [|[|[|n]]] L; try lia. rewrite mathSum_eq, mathProduct_eq. rewrite V by lia. cbn [bind].
  change (mathProductLoop (S n) VNil l) with (if curDelim l [B "*"; B "/"] then
      l1 <- expect Delim l ;; '(rhs, l2) <- mathParen n l1 ;; sp <- joinSpan l2 VNil rhs ;; mathProductLoop n (VMath sp (l_str l) VNil rhs) l2
    else Ok (VNil, l)). rewrite D. cbn [bind].
  change (mathSumLoop (S (S n)) VNil l) with (if curDelim l [B "+"; B "-"] then
      l1 <- expect Delim l ;; '(rhs, l2) <- mathProduct (S n) l1 ;; sp <- joinSpan l2 VNil rhs ;; mathSumLoop (S n) (VMath sp (l_str l) VNil rhs) l2
    else Ok (VNil, l)). rewrite D. reflexivity.
Qed.
Lemma values_found :
  (forall ts v, gValue ts v -> RD parseValue ts v) /\
  (forall ts vs, gValues ts vs -> RDB ts vs) /\
  (forall ts vs, gArgs ts vs -> RDA false ts vs) /\
  (forall ts vs, gMathArgs ts vs -> RDA true ts vs) /\
  (forall ts v, gSum ts v -> RDto mathSum mathSumLoop quiet ts v) /\
  (forall ts v, gProduct ts v -> RDto mathProduct mathProductLoop (fun _ => True) ts v) /\
  (forall ts v, gOperand ts v -> RD mathParen ts v).
Proof.
  assert (FN : forall math x ts vs y, is FunctionStart x -> isMathName (k_str x) = math -> (forall r, fin (ts ++ y :: r)) -> RDA math ts vs -> is RParen y ->
    RD parseValue (x :: ts ++ [y]) (VFunc (across x y) (k_str x) vs)).
  { intros math x ts vs y [X1 X2] M F IH Y l rest T R Fr. cbn [app] in T. rewrite <- app_assoc in T. cbn [app] in T.
    destruct (step1 _ _ _ T R (F rest)) as (l1 & N & T1 & R1). destruct (IH (k_str x) l1 y rest M T1 R1 Y Fr) as (l2 & (n0 & E) & T2 & R2).
    exists l2. split; [|auto]. exists (S n0). fuel n. cbn [parseValue]. rewrite (toks_cur _ _ _ T), (toks_str _ _ _ T), (toks_span _ _ _ T), X1, N. cbn [bind].
    uses E. reflexivity. }
  apply values_m.
  1-7: intros x [X1 X2]; apply RD_leaf; rewrite ?X1; try discriminate; try reflexivity; split; auto.
  - (* brackets *) intros x ts vs y [X1 X2] G IH Y l rest T R Fr. cbn [app] in T. rewrite <- app_assoc in T. cbn [app] in T.
    destruct (step1 _ _ _ T R (values_first _ _ _ _ G Y)) as (l1 & N & T1 & R1). destruct (IH l1 y rest T1 R1 Y Fr) as (l2 & (n0 & E) & T2 & R2).
    exists l2. split; [|auto]. exists (S n0). fuel n. cbn [parseValue]. rewrite (toks_cur _ _ _ T), (toks_span _ _ _ T), X1, N. cbn [bind].
    uses E. reflexivity.
  - intros x ts vs y X M G IH Y. apply (FN true); auto; [apply mathFunction_iff; auto|]. intros r. eapply mathargs_first; eauto.
  - intros x ts vs y X M G IH Y. apply (FN false); auto; [|intros r; eapply args_first; eauto].
    destruct (isMathName (k_str x)) eqn:E; auto. apply mathFunction_iff in E. contradiction.
  - intros x ts vs L. discriminate L.
  - (* [] *) intros l y rest T R [Y1 Y2] Fr. cbn [app] in T. destruct (step1 _ _ _ T R Fr) as (l1 & N & T1 & R1). exists l1. split; [|auto].
    exists 1%nat. fuel n. cbn [bracketLoop]. rewrite (toks_cur _ _ _ T), Y1. cbn [teq]. rewrite N, (toks_end _ _ _ T). reflexivity.
  - intros ts v ts2 vs G IH G2 IH2 l y rest T R Y Fr. rewrite <- app_assoc in T.
    destruct (IH l _ T R (values_first _ _ _ _ G2 Y)) as (l1 & (n0 & E) & T1 & R1).
    destruct (IH2 l1 y rest T1 R1 Y Fr) as (l2 & (n1 & E2) & T2 & R2). exists l2. split; [|auto].
    exists (S (n0 + n1)). fuel n. cbn [bracketLoop].
    assert (C : teq (l_cur l) RBracket = false) by (apply teq_no; intros C; pose proof (opens_cur _ _ _ _ T (value_first _ _ G)) as O; rewrite C in O; discriminate).
    rewrite C. uses E. rewrite (gvalue_notnil _ _ G). uses E2. reflexivity.
  - intros name l y rest M T R [Y1 Y2] Fr. cbn [app] in T. destruct (step1 _ _ _ T R Fr) as (l1 & N & T1 & R1). exists l1. split; [|auto].
    exists 1%nat. fuel n. cbn [argsLoop]. rewrite (toks_cur _ _ _ T), Y1. cbn [teq]. rewrite N, (toks_end _ _ _ T). reflexivity.
  - intros x ts vs [X1 X2] G IH name l y rest M T R Y Fr. cbn [app] in T.
    destruct (step1 _ _ _ T R (args_first _ _ _ _ G Y)) as (l1 & N & T1 & R1). destruct (IH name l1 y rest M T1 R1 Y Fr) as (l2 & (n0 & E) & T2 & R2).
    exists l2. split; [|auto]. exists (S n0). fuel n. cbn [argsLoop]. rewrite (toks_cur _ _ _ T), (toks_span _ _ _ T), X1. cbn [teq]. rewrite N. cbn [bind].
    uses E. reflexivity.
  - intros ts v ts2 vs G IH G2 IH2 name l y rest M T R Y Fr. rewrite <- app_assoc in T.
    destruct (IH l _ T R (args_first _ _ _ _ G2 Y)) as (l1 & (n0 & E) & T1 & R1).
    destruct (IH2 name l1 y rest M T1 R1 Y Fr) as (l2 & (n1 & E2) & T2 & R2). exists l2. split; [|auto].
    exists (S (n0 + n1)). fuel n. cbn [argsLoop]. pose proof (opens_cur _ _ _ _ T (value_first _ _ G)) as O.
    rewrite !teq_no by (intros C; rewrite C in O; discriminate). rewrite M. uses E. rewrite (gvalue_notnil _ _ G). uses E2. reflexivity.
  - intros name l y rest M T R [Y1 Y2] Fr. cbn [app] in T. destruct (step1 _ _ _ T R Fr) as (l1 & N & T1 & R1). exists l1. split; [|auto].
    exists 1%nat. fuel n. cbn [argsLoop]. rewrite (toks_cur _ _ _ T), Y1. cbn [teq]. rewrite N, (toks_end _ _ _ T). reflexivity.
  - intros x ts vs [X1 X2] G IH name l y rest M T R Y Fr. cbn [app] in T.
    destruct (step1 _ _ _ T R (proj1 (mathargs_first _ _ _ _ G Y))) as (l1 & N & T1 & R1). destruct (IH name l1 y rest M T1 R1 Y Fr) as (l2 & (n0 & E) & T2 & R2).
    exists l2. split; [|auto]. exists (S n0). fuel n. cbn [argsLoop]. rewrite (toks_cur _ _ _ T), (toks_span _ _ _ T), X1. cbn [teq]. rewrite N. cbn [bind].
    uses E. reflexivity.
  - intros ts v ts2 vs G IH G2 IH2 name l y rest M T R Y Fr. rewrite <- app_assoc in T.
    destruct (mathargs_first _ _ _ rest G2 Y) as [F2 S2].
    destruct (IH l _ T R F2 (silent_quiet _ S2)) as (l1 & T1 & R1 & E).
    destruct (IH2 name l1 y rest M T1 R1 Y Fr) as (l2 & (n1 & E2) & T2 & R2). exists l2. split; [|auto].
    destruct (E (v, l1)) as (n0 & E0).
    { exists 1%nat. fuel n. cbn [mathSumLoop]. rewrite (silent_stop _ _ _ T1 S2). reflexivity. }
    exists (S (n0 + n1)). fuel n. cbn [argsLoop]. pose proof (opens_cur _ _ _ _ T (sum_first _ _ G)) as O.
    rewrite !teq_no by (intros C; rewrite C in O; discriminate). rewrite M. uses E0. uses E2. reflexivity.
  - (* sum of one product *) intros ts v G IH l rest T R Fr Q. destruct (IH l rest T R Fr I) as (l1 & T1 & R1 & E). exists l1. split; [auto|split; [auto|]].
    intros a (n1 & E1). destruct (E (v, l1)) as (n0 & E0).
    { exists 1%nat. fuel n. cbn [mathProductLoop]. rewrite (quiet_stop _ _ T1 Q). reflexivity. }
    exists (S (n0 + n1)). fuel n. cbn [mathSum]. uses E0. apply E1. lia.
  - intros ts a x ts2 b spa spb G IH [X1 X2] Op G2 IH2 Sa Sb l rest T R Fr Q. rewrite <- app_assoc in T. cbn [app] in T.
    destruct (IH l _ T R) as (l1 & T1 & R1 & E); [exact X2| |].
    { right. intros [H|[H|[]]]; destruct Op as [O|[O|[]]]; rewrite <- O in H; discriminate. }
    destruct (step1 _ _ _ T1 R1 (opens_fin _ _ rest (product_first _ _ G2))) as (l2 & N & T2 & R2).
    destruct (IH2 l2 rest T2 R2 Fr I) as (l3 & T3 & R3 & E3). exists l3. split; [auto|split; [auto|]]. intros r (n1 & E1). apply E.
    destruct (E3 (b, l3)) as (n0 & E0).
    { exists 1%nat. fuel n. cbn [mathProductLoop]. rewrite (quiet_stop _ _ T3 Q). reflexivity. }
    exists (S (n0 + n1)). fuel n. cbn [mathSumLoop]. unfold curDelim. rewrite (toks_cur _ _ _ T1), (toks_str _ _ _ T1), X1. cbn [teq andb].
    assert (Bm : bmem (k_str x) [B "+"; B "-"] = true) by (apply bmem_In; exact Op). rewrite Bm.
    rewrite (expect_next Delim l1 l2) by (auto; rewrite (toks_cur _ _ _ T1); auto). cbn [bind]. uses E0.
    unfold joinSpan. rewrite Sa, Sb. cbn [bind]. apply E1. lia.
  - (* product of one operand *) intros ts v G IH l rest T R Fr Q. destruct (IH l rest T R Fr) as (l1 & (n0 & E0) & T1 & R1). exists l1. split; [auto|split; [auto|]].
    intros a (n1 & E1). exists (S (n0 + n1)). fuel n. cbn [mathProduct]. uses E0. apply E1. lia.
  - intros ts a x ts2 b spa spb G IH [X1 X2] Op G2 IH2 Sa Sb l rest T R Fr Q. rewrite <- app_assoc in T. cbn [app] in T.
    destruct (IH l _ T R) as (l1 & T1 & R1 & E); [exact X2|exact I|].
    destruct (step1 _ _ _ T1 R1 (opens_fin _ _ rest (operand_first _ _ G2))) as (l2 & N & T2 & R2).
    destruct (IH2 l2 rest T2 R2 Fr) as (l3 & (n0 & E0) & T3 & R3). exists l3. split; [auto|split; [auto|]]. intros r (n1 & E1). apply E.
    exists (S (n0 + n1)). fuel n. cbn [mathProductLoop]. unfold curDelim. rewrite (toks_cur _ _ _ T1), (toks_str _ _ _ T1), X1. cbn [teq andb].
    assert (Bm : bmem (k_str x) [B "*"; B "/"] = true) by (apply bmem_In; exact Op). rewrite Bm.
    rewrite (expect_next Delim l1 l2) by (auto; rewrite (toks_cur _ _ _ T1); auto). cbn [bind]. uses E0.
    unfold joinSpan. rewrite Sa, Sb. cbn [bind]. apply E1. lia.
  - intros ts v G IH l rest T R Fr. destruct (IH l rest T R Fr) as (l1 & (n0 & E0) & T1 & R1). exists l1. split; [|auto].
    exists (S n0). fuel n. cbn [mathParen]. pose proof (opens_cur _ _ _ _ T (value_first _ _ G)) as O.
    rewrite teq_no by (intros C; rewrite C in O; discriminate). cbn [negb]. apply E0. lia.
  - intros x ts v y [X1 X2] G IH [Y1 Y2] l rest T R Fr. cbn [app] in T. rewrite <- app_assoc in T. cbn [app] in T.
    destruct (step1 _ _ _ T R (opens_fin _ _ _ (sum_first _ _ G))) as (l1 & N & T1 & R1).
    assert (S1 : silent (y :: rest)) by (cbn; rewrite Y1; discriminate).
    destruct (IH l1 (y :: rest) T1 R1 Y2 (silent_quiet _ S1)) as (l2 & T2 & R2 & E).
    destruct (E (v, l2)) as (n0 & E0).
    { exists 1%nat. fuel n. cbn [mathSumLoop]. rewrite (silent_stop _ _ _ T2 S1). reflexivity. }
    destruct (step1 _ _ _ T2 R2 Fr) as (l3 & N3 & T3 & R3). exists l3. split; [|auto]. exists (S n0). fuel n. cbn [mathParen].
    rewrite (toks_cur _ _ _ T), X1. cbn [teq negb]. cbv zeta.
    rewrite (expect_next LParen l l1) by (auto; rewrite (toks_cur _ _ _ T); auto). cbn [bind]. uses E0.
    rewrite (expect_next RParen l2 l3) by (auto; rewrite (toks_cur _ _ _ T2); auto). cbn [bind].
    rewrite (toks_span _ _ _ T), (toks_end _ _ _ T2). reflexivity.
  - intros x y [X1 X2] [Y1 Y2] l rest T R Fr. cbn [app] in T.
    destruct (step1 _ _ _ T R) as (l1 & N & T1 & R1); [exact Y2|]. destruct (step1 _ _ _ T1 R1 Fr) as (l2 & N2 & T2 & R2).
    exists l2. split; [|auto]. assert (C1 : l_cur l1 = RParen) by (rewrite (toks_cur _ _ _ T1); auto).
    destruct (empty_sum l1 C1) as (n0 & E0). exists (S n0). fuel n. cbn [mathParen]. rewrite (toks_cur _ _ _ T), X1. cbn [teq negb]. cbv zeta.
    rewrite (expect_next LParen l l1) by (auto; rewrite (toks_cur _ _ _ T); auto). cbn [bind]. uses E0.
    rewrite (expect_next RParen l1 l2) by (auto; rewrite (toks_cur _ _ _ T1); auto). cbn [bind].
    rewrite (toks_span _ _ _ T), (toks_end _ _ _ T1). reflexivity.
Qed.
Lemma value_found ts v : gValue ts v -> RD parseValue ts v.
Proof. apply values_found. Qed.
Lemma opt_found ts v : gOpt ts v -> forall l rest, toks l (ts ++ rest) -> l_rws l = false -> fin rest ->
  match rest with y :: _ => valueToken (k_tok y) = false | [] => True end ->
  exists l1, gives (fun n => parseValue n l) (v, l1) /\ toks l1 rest /\ l_rws l1 = false.
Proof.
  intros [[-> ->]|G] l rest T R F C; [|eapply value_found; eauto]. cbn [app] in T. exists l. split; [|auto]. exists 1%nat. fuel n. cbn [parseValue].
  destruct rest as [|y r]; [contradiction|]. rewrite (toks_cur _ _ _ T). destruct (k_tok y); try discriminate; reflexivity.
Qed.
End WithUnicode.
