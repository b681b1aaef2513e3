(** How the parser moves through a file: positions, fuel and crashes. *)
From Verif Require Import Bytes Utf8 Source Lexer BytesFacts LexSpec LexFacts LexNext LexProps Ast Parser ParserSpec.

Section WithUnicode.
Context {U : UnicodeDigits}.

(** * One call of Next *)
(** What holds of every state, whatever its line table. *)
Definition wfl (content : bytes) (l : lexer) : Prop :=
  l_content l = content /\ cwf l /\ (l_start l <= l_lastPos l <= length content)%nat /\
  tokenText (l_cur l) (l_str l) (l_num l) (sub content (l_start l) (l_lastPos l)) /\
  (l_start l = l_lastPos l ->
     (l_cur l = EOF /\ l_start l = length content) \/
     (l_cur l <> EOF /\ stuck (skipn (l_start l) content))).

Definition nextGo (content : bytes) (l : lexer) (r : res lexer) : Prop :=
  match r with
  | Ok l1 => wfl content l1 /\ (l_lastPos l <= l_start l1)%nat /\ l_rws l1 = l_rws l /\ l_rcom l1 = l_rcom l
  | Panic (PLex sp _) _ => (l_lastPos l <= sp_start sp <= sp_end sp)%nat /\ (sp_end sp <= length content)%nat
  | _ => False
  end.

Lemma call_go content l : l_content l = content -> cwf l -> nextGo content l (next l).
Proof.
  intros Hc Hw. pose proof (next_spec l Hw) as Hn. revert Hn.
  unfold nextOk, nextGo. destruct (next l) as [l'|[sp m|] ln|]; auto.
  - intros (g & lm & text & Hg & _ & Mg & S1 & R1 & R2 & (Mt & T1 & T2 & T3 & T4) & Hz).
    assert (Hc1 : l_content lm = content) by (destruct Mg as [-> _]; auto).
    assert (Hw1 : cwf lm) by (eapply moves_cwf; eauto).
    assert (Hst : l_start l' = l_lastPos lm) by congruence.
    pose proof (sub_moves _ _ _ _ Hc1 Mt) as G2.
    split; [|split; [|split; congruence]].
    + unfold wfl. rewrite Hst, G2.
      assert (Hc2 : l_content l' = content) by (destruct Mt as [-> _]; auto).
      assert (W2 : cwf l') by (apply (moves_cwf _ _ _ Mt)).
      split; [exact Hc2|]. split; [exact W2|]. split.
      { destruct W2 as [W2 _]. rewrite Hc2 in W2. destruct Mt as (_ & _ & M3 & _). lia. }
      split; [exact T4|].
      intros E. assert (text = []).
      { destruct Mt as (_ & _ & M3 & _). destruct text; auto. cbn in M3. lia. }
      specialize (Hz H). pose proof Hz as Hz0. unfold zeroTok in Hz.
      destruct (token_eq_dec (l_cur l') EOF) as [He|He].
      * left. split; auto. destruct Hz as [[Hz _]|[(_ & _ & _ & Hz)|[(_ & _ & _ & _ & Hz)|(_ & _ & Hz)]]]; try congruence.
        apply cwf_eof in Hz; auto. assert (L : length (rest lm) = 0%nat) by (rewrite Hz; reflexivity).
        rewrite rest_len in L by auto. destruct Hw1 as [Hw1 _]. rewrite <- Hc1. lia.
      * right. split; auto. rewrite <- Hc1. fold (rest lm).
        eapply zeroTok_stuck; eauto.
    + rewrite Hst. destruct Mg as (_ & _ & -> & _). lia.
  - intros (g & lm & l'' & t & Hg & Mg & S1 & [M F] & -> & _). unfold tokenSpan. cbn.
    destruct F as (F1 & _). pose proof (moves_cwf _ _ _ M) as [W _].
    destruct M as (M1 & _ & M3 & _), Mg as (G1 & _ & G3 & _). rewrite M1, G1, Hc in W. lia.
Qed.

Lemma pstate_wfl content l : pstate content l -> wfl content l.
Proof.
  intros H. induction H as [l E|l ws com H IH|l ls H IH|l l1 H IH E]; auto.
  - destruct (first_step content) as (F1 & F2 & _).
    pose proof (call_go content _ F1 F2) as G. unfold newLexer in E. rewrite E in G. apply G.
  - destruct IH as (I1 & I2 & _). pose proof (call_go content l I1 I2) as G. rewrite E in G. apply G.
Qed.
Lemma pstate_call content l : pstate content l -> nextGo content l (next l).
Proof. intros H. destruct (pstate_wfl _ _ H) as (I1 & I2 & _). apply call_go; auto. Qed.

Lemma sub_length (s : bytes) a b : (a <= b <= length s)%nat -> length (sub s a b) = (b - a)%nat.
Proof. intros H. unfold sub. rewrite firstn_length, skipn_length. lia. Qed.

Lemma wfl_eof content l : wfl content l -> l_cur l = EOF -> l_start l = length content /\ l_lastPos l = length content.
Proof.
  intros (W1 & W2 & W3 & W4 & W5) E. rewrite E in W4. cbn in W4.
  pose proof (sub_length content _ _ W3) as L. rewrite W4 in L. cbn in L.
  assert (Hs : l_start l = l_lastPos l) by lia. destruct (W5 Hs) as [[_ H]|[H _]]; [lia|congruence].
Qed.

Lemma wfl_end content l : wfl content l -> l_start l = length content -> l_cur l = EOF.
Proof.
  intros (W1 & W2 & W3 & W4 & W5) E. assert (Hs : l_start l = l_lastPos l) by lia.
  destruct (W5 Hs) as [[H _]|[_ H]]; auto. rewrite E, skipn_all in H. destruct (nil_notStuck H).
Qed.

(** * Calls *)
Lemma inCall_pos l0 d l : inCall l0 d l -> (0 < d)%nat.
Proof. destruct 1; lia. Qed.

Definition keeps (l l1 : lexer) : Prop :=
  forall l0 d, inCall l0 d l -> exists d', (d <= d')%nat /\ inCall l0 d' l1.
Definition drops (l l1 : lexer) : Prop :=
  forall l0 d, (0 < d)%nat -> inCall l0 (S d) l -> exists d', (d <= d')%nat /\ inCall l0 d' l1.
Lemma keeps_refl l : keeps l l.
Proof. intros l0 d H. eauto. Qed.
Lemma keeps_trans l l1 l2 : keeps l l1 -> keeps l1 l2 -> keeps l l2.
Proof.
  intros H1 H2 l0 d H. destruct (H1 _ _ H) as (d1 & D1 & C1). destruct (H2 _ _ C1) as (d2 & D2 & C2).
  exists d2. split; [lia|auto].
Qed.
Lemma keeps_drops l l1 l2 : keeps l l1 -> drops l1 l2 -> drops l l2.
Proof.
  intros H1 H2 l0 d Hd H. destruct (H1 _ _ H) as (d1 & D1 & C1). destruct d1 as [|d1]; [lia|].
  destruct (H2 l0 d1) as (d2 & D2 & C2); auto; [lia|]. exists d2. split; [lia|auto].
Qed.
Lemma drops_refl l : drops l l.
Proof. intros l0 d Hd H. exists (S d). split; [lia|auto]. Qed.
Lemma keeps_next l l1 : next l = Ok l1 -> l_cur l <> RParen -> keeps l l1.
Proof.
  intros H Hc l0 d Hd. pose proof (inCall_pos _ _ _ Hd).
  exists (depthAfter d (l_cur l)). split; [destruct (l_cur l); cbn; congruence || lia|].
  apply icNext; auto. destruct (l_cur l); cbn; congruence || lia.
Qed.
Lemma drops_close l l1 : next l = Ok l1 -> l_cur l = RParen -> drops l l1.
Proof.
  intros H Hc l0 d Hd Hi. exists d. split; auto. 
  pose proof (icNext l0 _ _ _ Hi H) as X. rewrite Hc in X. cbn in X. auto.
Qed.
Lemma drops_open l l1 l2 : next l = Ok l1 -> l_cur l = FunctionStart \/ l_cur l = LParen -> drops l1 l2 -> keeps l l2.
Proof.
  intros H Hc Hd l0 d Hi. pose proof (inCall_pos _ _ _ Hi). apply Hd; auto.
  pose proof (icNext l0 _ _ _ Hi H) as X. destruct Hc as [Hc|Hc]; rewrite Hc in X; cbn in X; apply X; lia.
Qed.
Lemma inMath_keeps content l l1 : keeps l l1 -> inMath content l -> inMath content l1.
Proof.
  intros H (l0 & d & H1 & H2 & H3 & H4). destruct (H _ _ H4) as (d' & _ & H5). exists l0, d'. auto.
Qed.

(** * Outcomes *)
Section Control.
Variable run : nat.
Variable content : bytes.
(** [T]: fuel is accounted for; [E]: crashes are possible. *)
Variables T E : Prop.
Hypothesis T_stuck : T -> forall i, ~ stuck (skipn i content).
Hypothesis T_math : T -> ~ badMath content.
Hypothesis T_lost : T -> forall l, visits run content InDecls l -> ~ lostDeclaration l.
Hypothesis E_math : badMath content -> E.
Hypothesis E_custom : badCustomMedia content -> E.

Definition Wt (l : lexer) : nat := if teq (l_cur l) EOF then 0 else S (length content - l_start l).
Lemma Wt_pos l : l_cur l <> EOF -> (1 <= Wt l)%nat.
Proof. unfold Wt, teq. destruct (token_eq_dec _ _); [congruence|lia]. Qed.

Definition go (b : bool) (l l1 : lexer) : Prop :=
  pstate content l1 /\ l_rws l1 = l_rws l /\ l_rcom l1 = l_rcom l /\
  (l_lastPos l <= l_lastPos l1)%nat /\
  (if b then l_lastPos l <= l_start l1 else l_start l <= l_start l1)%nat /\
  (T -> (Wt l1 <= if b then Wt l - 1 else Wt l)%nat).
Lemma go_refl l : pstate content l -> go false l l.
Proof. intros H. unfold go. repeat split; auto. Qed.
Lemma go_weak b l l1 : pstate content l -> go b l l1 -> go false l l1.
Proof.
  intros Hp (G1 & G2 & G3 & G4 & G5 & G6). unfold go. repeat split; auto.
  - destruct (pstate_wfl _ _ Hp) as (_ & _ & W & _). destruct b; lia.
  - intros HT. specialize (G6 HT). destruct b; lia.
Qed.
Lemma go_tt b l l1 l2 : go true l l1 -> go b l1 l2 -> go true l l2.
Proof.
  intros (G1 & G2 & G3 & G4 & G5 & G6) (H1 & H2 & H3 & H4 & H5 & H6). unfold go.
  destruct (pstate_wfl _ _ G1) as (_ & _ & W & _).
  repeat split; auto; try congruence; try lia.
  - destruct b; lia.
  - intros HT. specialize (G6 HT). specialize (H6 HT). destruct b; lia.
Qed.
Lemma go_ft b l l1 l2 : go false l l1 -> go b l1 l2 -> go b l l2.
Proof.
  intros (G1 & G2 & G3 & G4 & G5 & G6) (H1 & H2 & H3 & H4 & H5 & H6). unfold go.
  repeat split; auto; try congruence; try lia.
  - destruct b; lia.
  - intros HT. specialize (G6 HT). specialize (H6 HT). destruct b; lia.
Qed.
Lemma go_p b l l1 : go b l l1 -> pstate content l1.
Proof. intros H; apply H. Qed.
Lemma go_W b l l1 : go b l l1 -> T -> (Wt l1 <= if b then Wt l - 1 else Wt l)%nat.
Proof. intros H; apply H. Qed.

Definition Tr {A} (n need : nat) (r : res A) (Q : A -> Prop) : Prop :=
  match r with
  | Ok a => Q a
  | Panic PRuntime _ => E
  | Panic (PLex sp _) _ => (sp_start sp <= sp_end sp <= length content)%nat
  | Timeout => T -> (n < need)%nat
  end.
Lemma Tr_bind {A C} n need (m : res A) (k : A -> res C) Q R :
  Tr n need m Q -> (forall a, m = Ok a -> Q a -> Tr n need (k a) R) -> Tr n need (bind m k) R.
Proof. intros Hm Hk. destruct m as [a|[sp s|] ls|]; cbn [bind]; [apply Hk; auto|exact Hm..]. Qed.
Lemma Tr_weak {A} n need n' need' (r : res A) (Q Q' : A -> Prop) :
  Tr n need r Q -> (forall a, r = Ok a -> Q a -> Q' a) -> (T -> n < need -> n' < need')%nat -> Tr n' need' r Q'.
Proof. intros H HQ HT. unfold Tr in *. destruct r as [a|[sp s|] ls|]; auto. Qed.

Lemma Tr_next n need l : pstate content l ->
  Tr n need (next l) (fun l1 => go true l l1).
Proof.
  intros Hp. pose proof (pstate_call _ _ Hp) as G. pose proof (pstate_wfl _ _ Hp) as Hw.
  unfold nextGo in G. unfold Tr. destruct (next l) as [l1|[sp m|] ln|] eqn:En; try contradiction; [|lia].
  destruct G as (G1 & G2 & G3 & G4). unfold go.
  split; [eapply pNext; eauto|]. split; auto. split; auto.
  assert (P1 : (l_start l1 <= l_lastPos l1 <= length content)%nat) by apply G1.
  assert (P : (l_start l <= l_lastPos l <= length content)%nat) by apply Hw.
  split; [lia|]. split; auto.
  intros HT. unfold Wt, teq. destruct (token_eq_dec (l_cur l1) EOF); [lia|].
  assert (N1 : l_start l1 <> length content) by (intros X; apply (wfl_end content l1 G1) in X; congruence).
  destruct (token_eq_dec (l_cur l) EOF) as [e|e].
  - destruct (wfl_eof _ _ Hw e). lia.
  - assert (l_start l <> l_lastPos l).
    { intros X. destruct Hw as (_ & _ & _ & _ & W5). destruct (W5 X) as [[? _]|[_ X2]]; [congruence|].
      apply (T_stuck HT _ X2). }
    lia.
Qed.

Lemma Tr_errorf {A} n need l msg (Q : A -> Prop) : pstate content l -> Tr n need (errorf l msg) Q.
Proof. intros Hp. destruct (pstate_wfl _ _ Hp) as (_ & _ & W & _). exact W. Qed.
Lemma Tr_expect n need t l : pstate content l ->
  Tr n need (expect t l) (fun l1 => l_cur l = t /\ next l = Ok l1 /\ go true l l1).
Proof.
  intros Hp. unfold expect. destruct (teq (l_cur l) t) eqn:Et; cbn [negb]; [|apply Tr_errorf; auto].
  eapply Tr_weak; [apply (Tr_next n need); auto| |auto].
  intros l1 E1 G. unfold teq in Et. destruct (token_eq_dec (l_cur l) t); [auto|discriminate].
Qed.

Lemma teq_true a b : teq a b = true -> a = b.
Proof. unfold teq. destruct (token_eq_dec a b); congruence. Qed.
Lemma teq_false a b : teq a b = false -> a <> b.
Proof. unfold teq. destruct (token_eq_dec a b); congruence. Qed.

Lemma value_eq_nil v : v = VNil \/ v <> VNil.
Proof. destruct v; auto; right; congruence. Qed.

Definition startsValue (t : token) : bool :=
  match t with
  | Dimension | LBracket | Percentage | Number | Ident | Hash | TString | URL | FunctionStart => true
  | _ => false
  end.

(** What the value parsers return. *)
Definition valQ (starts : token -> bool) (l : lexer) (a : value * lexer) : Prop :=
  (fst a = VNil -> snd a = l /\ starts (l_cur l) = false) /\
  (fst a <> VNil -> go true l (snd a) /\ starts (l_cur l) = true) /\ keeps l (snd a).
Definition noOp (l : lexer) (ops : list bytes) : Prop := curDelim l ops = false.

Lemma valQ_go st l a : pstate content l -> valQ st l a -> go false l (snd a).
Proof.
  intros Hp (Q1 & Q2 & _). destruct (fst a) eqn:Ev;
    try (eapply go_weak; [auto|apply Q2; congruence]).
  destruct Q1 as [-> _]; auto. apply go_refl; auto.
Qed.
Lemma valQ_p st l a : pstate content l -> valQ st l a -> pstate content (snd a).
Proof. intros Hp Hq. eapply go_p, valQ_go; eauto. Qed.

Lemma curDelim_op l ops : (forall s, In s ops -> In s [B "+"; B "-"; B "*"; B "/"]) ->
  curDelim l ops = true -> isOperator l.
Proof.
  unfold curDelim. intros Hs H. apply Bool.andb_true_iff in H as [H1 H2]. split; [apply teq_true; auto|].
  apply Hs. apply bmem_In; auto.
Qed.
Lemma op_cases l : isOperator l -> curDelim l [B "+"; B "-"] = true \/ curDelim l [B "*"; B "/"] = true.
Proof.
  intros [H1 H2]. unfold curDelim. rewrite H1. change (teq Delim Delim) with true. cbn [andb].
  destruct H2 as [<-|[<-|[<-|[<-|[]]]]]; [left|left|right|right]; reflexivity.
Qed.
Lemma op_sum s : In s [B "+"; B "-"] -> In s [B "+"; B "-"; B "*"; B "/"].
Proof. intros [<-|[<-|[]]]; cbn; auto. Qed.
Lemma op_prod s : In s [B "*"; B "/"] -> In s [B "+"; B "-"; B "*"; B "/"].
Proof. intros [<-|[<-|[]]]; cbn; auto. Qed.

Lemma Tr_joinSpan n need l lhs rhs : (lhs = VNil -> E) -> (rhs = VNil -> E) ->
  Tr n need (joinSpan l lhs rhs) (fun _ => lhs <> VNil /\ rhs <> VNil).
Proof.
  intros H1 H2. unfold joinSpan. destruct lhs; cbn [valueSpan]; try solve [cbn; apply H1; auto];
    destruct rhs; cbn [valueSpan]; try solve [cbn; apply H2; auto]; cbn; split; congruence.
Qed.

Ltac wts := repeat match goal with
  | H : go _ _ _, HT : T |- _ => apply go_W in H; [|exact HT]
  end.
Ltac fuel := let HT := fresh "HT" in intros HT; intros; repeat match goal with
  | H : valQ _ ?l ?a, Hp : pstate content ?l |- _ => apply (valQ_go _ _ _ Hp) in H
  end; cbn [fst snd] in *; wts; cbn iota in *; lia.
Ltac nx l1 Hg := eapply Tr_bind; [apply Tr_next; eauto using go_p|]; intros l1 ? Hg; cbv beta in Hg.
Ltac ex l1 Hg := eapply Tr_bind; [apply Tr_expect; eauto using go_p|]; intros l1 ? (? & ? & Hg).

Definition PV n := forall l, pstate content l -> Tr n (10 * Wt l + 1) (parseValue n l) (valQ startsValue l).
Definition PB n := forall l, pstate content l -> Tr n (10 * Wt l + 2) (bracketLoop n l)
  (fun a => go true l (snd a) /\ keeps l (snd a)).
Definition PA n := forall name l, pstate content l ->
  (isMathName name = true -> inMath content l /\ (isOperator l -> badMath content)) ->
  Tr n (10 * Wt l + 5) (argsLoop n name l) (fun a => go false l (snd a) /\ drops l (snd a)).
Definition PMS n := forall l, pstate content l -> inMath content l -> (isOperator l -> badMath content) ->
  Tr n (10 * Wt l + 4) (mathSum n l)
    (fun a => valQ startsOperand l a /\ ~ isOperator (snd a)).
Definition PMSL n := forall lhs l, pstate content l -> inMath content l ->
  (isOperator l -> lhs = VNil -> badMath content) -> noOp l [B "*"; B "/"] ->
  Tr n (10 * Wt l + 2) (mathSumLoop n lhs l)
    (fun a => (lhs = VNil -> a = (lhs, l)) /\ (lhs <> VNil -> fst a <> VNil) /\
              go false l (snd a) /\ keeps l (snd a) /\ ~ isOperator (snd a)).
Definition PMP n := forall l, pstate content l -> inMath content l -> (isOperator l -> badMath content) ->
  Tr n (10 * Wt l + 3) (mathProduct n l)
    (fun a => valQ startsOperand l a /\ noOp (snd a) [B "*"; B "/"]).
Definition PMPL n := forall lhs l, pstate content l -> inMath content l ->
  (isOperator l -> lhs = VNil -> badMath content) ->
  Tr n (10 * Wt l + 2) (mathProductLoop n lhs l)
    (fun a => (lhs = VNil -> a = (lhs, l)) /\ (lhs <> VNil -> fst a <> VNil) /\
              go false l (snd a) /\ keeps l (snd a) /\ noOp (snd a) [B "*"; B "/"]).
Definition PMN n := forall l, pstate content l -> inMath content l -> (isOperator l -> badMath content) ->
  Tr n (10 * Wt l + 2) (mathParen n l) (valQ startsOperand l).

Lemma Tr_timeout {A} need (Q : A -> Prop) : (0 < need)%nat -> Tr 0 need Timeout Q.
Proof. intros H _. exact H. Qed.

Lemma PV_step n : PB n -> PA n -> PV (S n).
Proof.
  intros IB IA l Hp. cbn [parseValue].
  assert (Hnil : startsValue (l_cur l) = false -> Tr (S n) (10 * Wt l + 1) (Ok (VNil, l)) (valQ startsValue l)).
  { intros Hs. split; [cbn; auto|]. split; [cbn; congruence|]. apply keeps_refl. }
  assert (Hone : forall v, v <> VNil -> startsValue (l_cur l) = true ->
    Tr (S n) (10 * Wt l + 1) (l1 <- next l ;; Ok (v, l1)) (valQ startsValue l)).
  { intros v Hv Hs. nx l1 G1. split; [cbn; congruence|]. split; [cbn; auto|].
    cbn. apply keeps_next; auto. intros X; rewrite X in Hs; discriminate. }
  destruct (l_cur l) eqn:Ec; try (apply Hnil; reflexivity); try (apply Hone; [discriminate|reflexivity]).
  - (* bracket *)
    nx l1 G1. assert (Hl : (1 <= Wt l)%nat) by (apply Wt_pos; congruence).
    eapply Tr_bind.
    + eapply Tr_weak; [apply (IB l1)|intros a _ X; exact X|fuel]. eapply go_p; eauto.
    + intros [[vs e] l2] _ [G2 D2]. cbn [snd] in *. split; [cbn; congruence|]. cbn [fst snd]. split.
      * split; [eapply go_tt; eauto|]. rewrite Ec. reflexivity.
      * eapply keeps_trans; [eapply keeps_next; eauto; congruence|auto].
  - (* function *)
    nx l1 G1. assert (Hl : (1 <= Wt l)%nat) by (apply Wt_pos; congruence).
    eapply Tr_bind.
    + eapply Tr_weak; [apply (IA (l_str l) l1)|intros a _ X; exact X|fuel]; [eapply go_p; eauto|].
      intros Hm. split.
      * exists l, 1%nat. repeat split; auto. constructor; auto.
      * intros Ho. exists l. right. exists l1. split; auto. split; auto. split; auto. split; auto.
    + intros [[vs e] l2] _ [G2 D2]. cbn [snd] in *. split; [cbn; congruence|]. cbn [fst snd]. split.
      * split; [eapply go_tt; eauto|]. rewrite Ec. reflexivity.
      * eapply drops_open; eauto.
Qed.

Lemma isNil_true v : isNil v = true -> v = VNil.
Proof. destruct v; cbn; congruence. Qed.
Lemma isNil_false v : isNil v = false -> v <> VNil.
Proof. destruct v; cbn; congruence. Qed.

Lemma PB_step n : PV n -> PB n -> PB (S n).
Proof.
  intros IV IB l Hp. cbn [bracketLoop]. destruct (teq (l_cur l) RBracket) eqn:Er.
  - apply teq_true in Er. nx l1 G1. cbn. split; auto. apply keeps_next; auto. congruence.
  - eapply Tr_bind; [eapply Tr_weak; [apply (IV l Hp)|intros a _ X; exact X|fuel]|].
    intros [v l1] _ Hv. destruct (isNil v) eqn:En.
    + apply Tr_errorf. apply (valQ_p _ _ _ Hp Hv).
    + apply isNil_false in En. destruct Hv as (_ & Hv2 & Hk). cbn [fst snd] in *.
      destruct (Hv2 En) as [G1 Hs]. assert (Hl : (1 <= Wt l)%nat) by (apply Wt_pos; intros X; rewrite X in Hs; discriminate).
      eapply Tr_bind; [eapply Tr_weak; [apply (IB l1)|intros a _ X; exact X|fuel]; eapply go_p; eauto|].
      intros [[vs e] l2] _ [G2 K2]. cbn [fst snd] in *. split; [eapply go_tt; eauto|eapply keeps_trans; eauto].
Qed.

Lemma PA_step n : PV n -> PA n -> PMS n -> PA (S n).
Proof.
  intros IV IA IM name l Hp Hm. cbn [argsLoop]. destruct (teq (l_cur l) RParen) eqn:Er.
  { apply teq_true in Er. nx l1 G1. cbn. split; [eapply go_weak; eauto|]. apply drops_close; auto. }
  apply teq_false in Er.
  destruct (teq (l_cur l) Comma) eqn:Ec.
  { apply teq_true in Ec. assert (Hl : (1 <= Wt l)%nat) by (apply Wt_pos; congruence). nx l1 G1.
    assert (K : keeps l l1) by (apply keeps_next; auto).
    eapply Tr_bind; [eapply Tr_weak; [apply (IA name l1)|intros a _ X; exact X|fuel]|]; [eapply go_p; eauto| |].
    - intros Hmm. destruct (Hm Hmm) as [M1 M2]. split; [eapply inMath_keeps; eauto|].
      intros Ho. exists l. left. split; auto. right. exists l1. split; auto.
    - intros [[vs e] l2] _ [G2 K2]. cbn [fst snd] in *. split; [eapply go_weak, go_tt; eauto|].
      eapply keeps_drops; eauto. }
  apply teq_false in Ec.
  destruct (isMathName name) eqn:En.
  - destruct (Hm eq_refl) as [M1 M2].
    eapply Tr_bind; [eapply Tr_weak; [apply (IM l Hp M1 M2)|intros a _ X; exact X|fuel]|].
    intros [v l1] _ [Hv Ho]. cbn [snd] in Ho.
    assert (Hb : v = VNil -> badMath content).
    { intros ->. destruct Hv as ([E1 E2] & _); [reflexivity|]. cbn in E1. subst l1.
      exists l. left. split; auto. left. repeat split; auto. }
    assert (Hl : (T -> 1 <= Wt l /\ Wt l1 <= Wt l - 1)%nat).
    { intros HT. destruct v; try (destruct Hv as (_ & Hv & _); cbn [fst snd] in Hv; destruct Hv as [G1 Hs]; [congruence|];
        split; [apply Wt_pos; intros X; rewrite X in Hs; discriminate|apply (go_W _ _ _ G1 HT)]).
      destruct (T_math HT (Hb eq_refl)). }
    pose proof (valQ_go _ _ _ Hp Hv) as G1. destruct Hv as (_ & _ & K). cbn [fst snd] in *.
    eapply Tr_bind; [eapply Tr_weak; [apply (IA name l1)|intros a _ X; exact X|]|]; [eapply go_p; eauto| | |].
    + intros _. split; [eapply inMath_keeps; eauto|tauto].
    + intros HT X. specialize (Hl HT). lia.
    + intros [[vs e] l2] _ [G2 K2]. cbn [fst snd] in *. split; [eapply go_ft; eauto|eapply keeps_drops; eauto].
  - eapply Tr_bind; [eapply Tr_weak; [apply (IV l Hp)|intros a _ X; exact X|fuel]|].
    intros [v l1] _ Hv. destruct (isNil v) eqn:Ev.
    + pose proof (valQ_go _ _ _ Hp Hv) as G1. apply isNil_true in Ev. subst v.
      destruct Hv as ([E1 _] & _); [reflexivity|]. cbn [fst snd] in *. subst l1. split; auto. apply drops_refl.
    + apply isNil_false in Ev. destruct Hv as (_ & Hv2 & Hk). cbn [fst snd] in *.
      destruct (Hv2 Ev) as [G1 Hs]. assert (Hl : (1 <= Wt l)%nat) by (apply Wt_pos; intros X; rewrite X in Hs; discriminate).
      eapply Tr_bind; [eapply Tr_weak; [apply (IA name l1)|intros a _ X; exact X|fuel]|]; [eapply go_p; eauto|congruence|].
      intros [[vs e] l2] _ [G2 K2]. cbn [fst snd] in *. split; [eapply go_weak, go_tt; eauto|eapply keeps_drops; eauto].
Qed.

Lemma PMN_step n : PV n -> PMS n -> PMN (S n).
Proof.
  intros IV IM l Hp M1 M2. cbn [mathParen]. destruct (teq (l_cur l) LParen) eqn:Er; cbn [negb].
  - apply teq_true in Er. assert (Hl : (1 <= Wt l)%nat) by (apply Wt_pos; congruence). ex l1 G1.
    assert (K1 : keeps l l1) by (apply keeps_next; auto; congruence).
    eapply Tr_bind; [eapply Tr_weak; [apply (IM l1)|intros a _ X; exact X|fuel]|]; [eapply go_p; eauto|eapply inMath_keeps; eauto| |].
    + intros Ho. exists l. left. split; auto. right. exists l1. split; auto.
    + intros [v l2] _ [Hv _]. assert (Hp1 : pstate content l1) by (eapply go_p; eauto).
      pose proof (valQ_go _ _ _ Hp1 Hv) as G2. destruct Hv as (_ & _ & K2). cbn [fst snd] in *.
      assert (Hp2 : pstate content l2) by (eapply go_p; eauto). ex l3 G3.
      split; [cbn; congruence|]. split.
      * intros _. cbn [snd]. split; [eapply go_tt, go_ft; eauto|]. rewrite Er. reflexivity.
      * cbn [snd]. eapply drops_open; [eauto|auto|]. eapply keeps_drops; [exact K2|]. apply drops_close; auto.
  - apply teq_false in Er. eapply Tr_weak; [apply (IV l Hp)| |fuel].
    intros [v l1] _ (Q1 & Q2 & Q3). cbn [fst snd] in *. split; [|split]; cbn [fst snd]; auto.
    + intros Ev. destruct (Q1 Ev) as [X Y]. split; auto. destruct (l_cur l); cbn in *; congruence.
    + intros Ev. destruct (Q2 Ev) as [X Y]. split; auto. destruct (l_cur l); cbn in *; congruence.
Qed.

Lemma PMPL_step n : PMN n -> PMPL n -> PMPL (S n).
Proof.
  intros IP IL lhs l Hp M1 M2. cbn [mathProductLoop]. destruct (curDelim l _) eqn:Ec.
  - pose proof (curDelim_op _ _ op_prod Ec) as Ho. destruct (Ho) as [Hd _].
    assert (Hl : (1 <= Wt l)%nat) by (apply Wt_pos; congruence). ex l1 G1.
    assert (K1 : keeps l l1) by (apply keeps_next; auto; congruence).
    assert (Hp1 : pstate content l1) by (eapply go_p; eauto).
    assert (Hb : startsOperand (l_cur l1) = false -> badMath content).
    { intros Hs. exists l. left. split; auto. right. exists l1. split; auto. }
    eapply Tr_bind; [eapply Tr_weak; [apply (IP l1)|intros a _ X; exact X|fuel]|]; [auto|eapply inMath_keeps; eauto| |].
    + intros [Hx _]. apply Hb. rewrite Hx. reflexivity.
    + intros [rhs l2] _ Hv. pose proof (valQ_go _ _ _ Hp1 Hv) as G2. destruct Hv as (Q1 & Q2 & K2). cbn [fst snd] in *.
      eapply Tr_bind; [apply (Tr_joinSpan (S n) (10 * Wt l + 2)); intros; apply E_math; auto; apply Hb, Q1; auto|].
      intros sp _ [N1 N2].
      eapply Tr_weak; [apply (IL (VMath sp (l_str l) lhs rhs) l2)| |fuel]; [eapply go_p; eauto|exact (inMath_keeps _ _ _ (keeps_trans _ _ _ K1 K2) M1)|congruence|].
      intros [v l3] _ (X1 & X2 & X3 & X4 & X5). cbn [fst snd] in *. split; [intros; congruence|].
      split; [intros; apply X2; congruence|]. split; [exact (go_weak _ _ _ Hp (go_tt _ _ _ _ G1 (go_ft _ _ _ _ G2 X3)))|].
      split; [exact (keeps_trans _ _ _ K1 (keeps_trans _ _ _ K2 X4))|auto].
  - cbn. split; auto. split; auto. split; [apply go_refl; auto|]. split; [apply keeps_refl|]. exact Ec.
Qed.
Lemma PMP_step n : PMN n -> PMPL n -> PMP (S n).
Proof.
  intros IP IL l Hp M1 M2. cbn [mathProduct].
  eapply Tr_bind; [eapply Tr_weak; [apply (IP l Hp M1 M2)|intros a _ X; exact X|fuel]|].
  intros [lhs l1] _ Hv. pose proof (valQ_go _ _ _ Hp Hv) as G1. destruct Hv as (Q1 & Q2 & K1). cbn [fst snd] in *.
  eapply Tr_weak; [apply (IL lhs l1)| |fuel]; [eapply go_p; eauto|eapply inMath_keeps; eauto| |].
  - intros Ho Hn. destruct (Q1 Hn) as [-> _]. auto.
  - intros [v l2] _ (X1 & X2 & X3 & X4 & X5). cbn [fst snd] in *. split; auto. split; [|split]; cbn [fst snd].
    + intros Hv. destruct (value_eq_nil lhs) as [Hn|Hn].
      * specialize (X1 Hn). injection X1 as -> ->. auto.
      * elim (X2 Hn Hv).
    + intros Hv. destruct (value_eq_nil lhs) as [Hn|Hn].
      * specialize (X1 Hn). injection X1 as -> ->. congruence.
      * destruct (Q2 Hn). split; auto. eapply go_tt; eauto.
    + eapply keeps_trans; eauto.
Qed.

Lemma PMSL_step n : PMP n -> PMSL n -> PMSL (S n).
Proof.
  intros IP IL lhs l Hp M1 M2 M3. cbn [mathSumLoop]. destruct (curDelim l _) eqn:Ec.
  - pose proof (curDelim_op _ _ op_sum Ec) as Ho. destruct (Ho) as [Hd _].
    assert (Hl : (1 <= Wt l)%nat) by (apply Wt_pos; congruence). ex l1 G1.
    assert (K1 : keeps l l1) by (apply keeps_next; auto; congruence).
    assert (Hp1 : pstate content l1) by (eapply go_p; eauto).
    assert (Hb : startsOperand (l_cur l1) = false -> badMath content).
    { intros Hs. exists l. left. split; auto. right. exists l1. split; auto. }
    eapply Tr_bind; [eapply Tr_weak; [apply (IP l1)|intros a _ X; exact X|fuel]|]; [auto|eapply inMath_keeps; eauto| |].
    + intros [Hx _]. apply Hb. rewrite Hx. reflexivity.
    + intros [rhs l2] _ [Hv Hno]. pose proof (valQ_go _ _ _ Hp1 Hv) as G2. destruct Hv as (Q1 & Q2 & K2). cbn [fst snd] in *.
      eapply Tr_bind; [apply (Tr_joinSpan (S n) (10 * Wt l + 2)); intros; apply E_math; auto; apply Hb, Q1; auto|].
      intros sp _ [N1 N2].
      eapply Tr_weak; [apply (IL (VMath sp (l_str l) lhs rhs) l2)| |fuel]; [eapply go_p; eauto|exact (inMath_keeps _ _ _ (keeps_trans _ _ _ K1 K2) M1)|congruence|auto|].
      intros [v l3] _ (X1 & X2 & X3 & X4 & X5). cbn [fst snd] in *. split; [intros; congruence|].
      split; [intros; apply X2; congruence|]. split; [exact (go_weak _ _ _ Hp (go_tt _ _ _ _ G1 (go_ft _ _ _ _ G2 X3)))|].
      split; [exact (keeps_trans _ _ _ K1 (keeps_trans _ _ _ K2 X4))|auto].
  - cbn. split; auto. split; auto. split; [apply go_refl; auto|]. split; [apply keeps_refl|].
    intros Ho. destruct (op_cases _ Ho) as [X|X]; [congruence|]. unfold noOp in M3. congruence.
Qed.
Lemma PMS_step n : PMP n -> PMSL n -> PMS (S n).
Proof.
  intros IP IL l Hp M1 M2. cbn [mathSum].
  eapply Tr_bind; [eapply Tr_weak; [apply (IP l Hp M1 M2)|intros a _ X; exact X|intros HT X; lia]|].
  intros [lhs l1] _ [Hv Hno]. pose proof (valQ_go _ _ _ Hp Hv) as G1. destruct Hv as (Q1 & Q2 & K1). cbn [fst snd] in *.
  eapply Tr_weak; [apply (IL lhs l1)| |fuel]; [eapply go_p; eauto|eapply inMath_keeps; eauto| |auto|].
  - intros Ho Hn. destruct (Q1 Hn) as [-> _]. auto.
  - intros [v l2] _ (X1 & X2 & X3 & X4 & X5). cbn [fst snd] in *. split; auto. split; [|split]; cbn [fst snd].
    + intros Hv. destruct (value_eq_nil lhs) as [Hn|Hn].
      * specialize (X1 Hn). injection X1 as -> ->. auto.
      * elim (X2 Hn Hv).
    + intros Hv. destruct (value_eq_nil lhs) as [Hn|Hn].
      * specialize (X1 Hn). injection X1 as -> ->. congruence.
      * destruct (Q2 Hn). split; auto. eapply go_tt; eauto.
    + eapply keeps_trans; eauto.
Qed.

Lemma values_all n : PV n /\ PB n /\ PA n /\ PMS n /\ PMSL n /\ PMP n /\ PMPL n /\ PMN n.
Proof.
  induction n as [|n (I1 & I2 & I3 & I4 & I5 & I6 & I7 & I8)].
  - repeat split; red; intros; apply Tr_timeout; lia.
  - split; [apply PV_step|split; [apply PB_step|split; [apply PA_step|split; [apply PMS_step|split; [apply PMSL_step|split; [apply PMP_step|split; [apply PMPL_step|apply PMN_step]]]]]]]; auto.
Qed.
Lemma Tr_value n l : pstate content l -> Tr n (10 * Wt l + 1) (parseValue n l) (valQ startsValue l).
Proof. apply (values_all n). Qed.

Lemma Tr_ok {A} n need (a : A) (Q : A -> Prop) : Q a -> Tr n need (Ok a) Q.
Proof. exact (fun H => H). Qed.
Lemma go_setFlags b l l1 r : go b (setRws l r) l1 -> go b l (setRws l1 (l_rws l)).
Proof.
  intros (G1 & G2 & G3 & G4 & G5 & G6). split; [exact (pFlags _ _ _ _ G1)|].
  split; [reflexivity|]. split; [exact G3|]. split; [exact G4|]. split; [exact G5|]. exact G6.
Qed.
Lemma pstate_rws l r : pstate content l -> pstate content (setRws l r).
Proof. exact (pFlags content l r (l_rcom l)). Qed.

Lemma ident_value n l isp s l1 : parseValue n l = Ok (VIdent isp s, l1) -> l_cur l = Ident /\ next l = Ok l1.
Proof.
  destruct n as [|n]; cbn [parseValue]; [discriminate|]. destruct (l_cur l); try discriminate;
    destruct (next l) as [l2| |]; cbn [bind]; try discriminate;
    try (match goal with |- bind ?m _ = _ -> _ => destruct m as [[[? ?] ?]| |]; cbn [bind]; discriminate end).
  intros H. injection H as _ _ <-. auto.
Qed.
Ltac pos l := let Hl := fresh "Hl" in
  assert (Hl : (1 <= Wt l)%nat) by (apply Wt_pos; congruence).
Ltac call H := eapply Tr_bind; [eapply Tr_weak; [apply H; eauto using go_p|intros ? _ X; exact X|]|].
(** Closes goals of the form [go b l l3] from a chain of [go]s. *)
Ltac gos := cbv beta in *; cbn [snd]; repeat match goal with
  | H : go ?b ?l ?l' |- go ?b ?l ?l' => exact H
  | |- go false ?l ?l => apply go_refl; solve [eauto using go_p]
  | H : go true ?l ?l1 |- go true ?l ?l2 => apply (go_tt false l l1 l2 H)
  | H : go true ?l ?l1 |- go false ?l ?l2 =>
      apply (go_weak true l l2); [solve [eauto using go_p]|]; apply (go_tt false l l1 l2 H)
  | H : go false ?l ?l1 |- go ?b ?l ?l2 => apply (go_ft b l l1 l2 H)
  end.

Lemma Tr_declLoop n : forall le de imp l, pstate content l ->
  Tr n (10 * Wt l + 2) (declLoop n le de imp l) (fun a => go false l (snd a)).
Proof.
  induction n as [|n IH]; intros le de imp l Hp; [apply Tr_timeout; lia|]. cbn [declLoop].
  assert (Hval : l_cur l <> EOF -> Tr (S n) (10 * Wt l + 2)
    ('(v, l1) <- parseValue n l ;;
      match valueSpan v with
      | None =>
        match le with
        | None => errorf l1 (B "declaration must have a value")
        | Some e => Ok ([], (if (de <? e)%nat then e else de), imp, l1)
        end
      | Some sp =>
        '(vs, e, im, l2) <- declLoop n (Some (sp_end sp)) de imp l1 ;;
        Ok (v :: vs, e, im, l2)
      end) (fun a => go false l (snd a))).
  { intros He. pos l. call (Tr_value n l); [fuel|]. intros [v l1] _ Hv. pose proof (valQ_go _ _ _ Hp Hv) as G0.
    destruct (valueSpan v) eqn:Es.
    - assert (Nv : v <> VNil) by (intros ->; discriminate). destruct Hv as (_ & Hv & _). cbn [fst snd] in *.
      destruct (Hv Nv) as [G1 _]. clear G0. call (IH (Some (sp_end s)) de imp l1); [fuel|].
      intros [[[vs e] im] l2] _ G2. cbn [snd] in *. apply Tr_ok. cbn [snd]. gos.
    - cbn [snd] in G0. destruct le; [|apply Tr_errorf; eapply go_p; eauto]. apply Tr_ok. exact G0. }
  destruct (l_cur l) eqn:Ec; try (apply Hval; congruence).
  - apply Tr_errorf; auto.
  - pos l. nx l1 G1. call (IH (Some (sp_end (tokenSpan l))) de imp l1); [fuel|].
      intros [[[vs e] im] l2] _ G2. cbn [snd] in *. apply Tr_ok. cbn [snd]. gos.
  - pos l. destruct (beq (l_str l) (B "!")); cbn [negb].
    + nx l1 G1. destruct (isImportantString (l_str l1)); cbn [negb]; [|apply Tr_errorf; eauto using go_p].
      nx l2 G2. eapply Tr_weak; [apply IH; eauto using go_p| |fuel].
      intros [[[vs e] im] l3] _ G3. cbn [snd] in *. gos.
    + nx l1 G1. call (IH (Some (sp_end (tokenSpan l))) de imp l1); [fuel|].
      intros [[[vs e] im] l2] _ G2. cbn [snd] in *. apply Tr_ok. cbn [snd]. gos.
Qed.

Lemma Tr_declaration n l : pstate content l ->
  Tr n (10 * Wt l + 2) (parseDeclaration n l) (fun a => go true l (snd a)).
Proof.
  intros Hp. unfold parseDeclaration.
  apply Tr_bind with (Q := fun a => go false l (snd a)).
  { destruct (_ && _); [|apply Tr_ok, go_refl; auto]. nx l1 G1. apply Tr_ok. cbn [snd]. gos. }
  intros [pre l0] _ G0. cbn [snd] in G0. ex l1 G1. ex l2 G2.
  call (Tr_declLoop n None (sp_end (tokenSpan l0)) false l2); [fuel|].
  intros [[[vs e] imp] l3] _ G3. cbn [snd] in *. apply Tr_ok. cbn [snd].
  gos.
Qed.

Lemma Tr_raw n : forall l, pstate content l -> (T -> ~ noSemicolon l) ->
  Tr n (10 * Wt l + 1) (rawLoop n l) (fun l1 => go false l l1 /\ l_cur l1 = Semicolon).
Proof.
  induction n as [|n IH]; intros l Hp Hs; [apply Tr_timeout; lia|]. cbn [rawLoop].
  destruct (teq (l_cur l) Semicolon) eqn:Et.
  - apply Tr_ok. split; [apply go_refl; auto|apply teq_true; auto].
  - apply teq_false in Et. nx l1 G1.
    eapply Tr_weak; [apply (IH l1); eauto using go_p| |].
    + intros HT X. apply (Hs HT). eapply nsNext; eauto.
    + intros l2 _ [G2 G3]. split; auto. gos.
    + intros HT X. assert (Hl : (1 <= Wt l)%nat).
      { apply Wt_pos. intros Y. apply (Hs HT). apply nsEnd; auto. }
      apply go_W in G1; auto. lia.
Qed.

Lemma Tr_parseRaw n l : pstate content l -> (T -> ~ noSemicolon l) ->
  Tr n (10 * Wt l + 1) (parseRaw n l) (fun a => go true l (snd a)).
Proof.
  intros Hp Hs. unfold parseRaw. call (Tr_raw n l); [fuel|]. intros l1 _ [G1 Hc]. nx l2 G2.
  unfold contentSlice.
  assert (C2 : l_content l2 = content) by (eapply pstate_wfl; eapply go_p; eauto).
  assert (P1 : (l_start l1 <= l_lastPos l1 <= length content)%nat) by (eapply pstate_wfl; eapply go_p; eauto).
  assert (P2 : (l_start l <= l_start l1)%nat) by apply G1.
  rewrite C2. change (sp_start (tokenSpan l)) with (l_start l). unfold tokenEnd.
  rewrite slice_ok by lia. cbn [bind]. apply Tr_ok. cbn [snd].
  apply (go_ft _ _ _ _ G1). exact G2.
Qed.

Lemma Tr_fallback n l : pstate content l -> visits run content InDecls l -> l_cur l <> RCurly ->
  Tr n (10 * Wt l + 2) (parseDeclarationOrFallback n l) (fun a => go true l (snd a)).
Proof.
  intros Hp Hv Hr. unfold parseDeclarationOrFallback. pose proof (Tr_declaration n l Hp) as Hd.
  destruct (parseDeclaration n l) as [a|p lines|] eqn:Ed; auto.
  eapply Tr_weak; [apply (Tr_parseRaw n (setLines l lines))| |].
  - apply pLines; auto.
  - intros HT X. apply (T_lost HT l Hv). split; auto. exists n, p, lines. auto.
  - intros [d l1] _ G. exact G.
  - intros HT. change (Wt (setLines l lines)) with (Wt l). lia.
Qed.

Lemma decl_notEOF : T -> forall l, visits run content InDecls l -> l_cur l <> EOF.
Proof.
  intros HT l Hv He. apply (T_lost HT l Hv). split; [congruence|].
  exists 0%nat. unfold parseDeclaration. rewrite He. change (teq EOF Delim) with false. cbn [andb bind].
  unfold expect. rewrite He. change (teq EOF Ident) with false. cbn [negb bind errorf].
  eexists. eexists. split; [reflexivity|]. apply nsEnd. exact He.
Qed.

Lemma Tr_declBlock n : forall l, pstate content l -> visits run content InDecls l ->
  Tr n (10 * Wt l + 3) (declBlockLoop n l) (fun a => go true l (snd a)).
Proof.
  induction n as [|n IH]; intros l Hp Hv; [apply Tr_timeout; lia|]. cbn [declBlockLoop].
  destruct (teq (l_cur l) RCurly) eqn:Et.
  - nx l1 G1. apply Tr_ok. exact G1.
  - apply teq_false in Et. eapply Tr_bind; [eapply Tr_weak; [apply (Tr_fallback n l); auto|intros ? _ X; exact X|fuel]|].
    intros [d l1] Ed G1. cbn [snd] in G1.
    apply Tr_bind with (Q := fun l2 => go false l1 l2).
    { destruct (teq (l_cur l1) Semicolon).
      - eapply Tr_weak; [apply (Tr_next (S n) (10 * Wt l + 3)); eauto using go_p| |auto].
        intros l2 _ G2. gos.
      - apply Tr_ok. gos. }
    intros l2 E2 G2.
    call (IH l2); [eapply vDecl; eauto|  |].
    + intros HT X. apply go_W in G1; auto. apply go_W in G2; auto.
      pose proof (Wt_pos l (decl_notEOF HT l Hv)). lia.
    + intros [[ds e] l3] _ G3. apply Tr_ok. cbn [snd] in *. gos.
Qed.

Lemma Tr_block n l : pstate content l -> (forall l1, next l = Ok l1 -> visits run content InDecls l1) ->
  Tr n (10 * Wt l + 3) (parseDeclarationBlock n l) (fun a => go true l (snd a)).
Proof.
  intros Hp Hv. unfold parseDeclarationBlock. nx l1 G1. call (Tr_declBlock n l1); [fuel|].
  intros [[ds e] l2] _ G2. apply Tr_ok. cbn [snd] in *. gos.
Qed.

Lemma Tr_keyLoop n : forall l, pstate content l -> Tr n (10 * Wt l + 1) (keyLoop n l) (fun a => go true l (snd a)).
Proof.
  induction n as [|n IH]; intros l Hp; [apply Tr_timeout; lia|]. cbn [keyLoop].
  destruct (teq (l_cur l) EOF) eqn:Et; [apply Tr_errorf; auto|]. apply teq_false in Et. pos l.
  apply Tr_bind with (Q := fun _ => True).
  { destruct (l_cur l); try (apply Tr_errorf; auto); try (apply Tr_ok; exact I).
    destruct (_ && _); [apply Tr_errorf; auto|apply Tr_ok; exact I]. }
  intros k _ _. nx l1 G1. destruct (teq (l_cur l1) Comma).
  - nx l2 G2. call (IH l2); [fuel|]. intros [ks l3] _ G3. apply Tr_ok. cbn [snd] in *. gos.
  - apply Tr_ok. exact G1.
Qed.
Lemma Tr_key n l : pstate content l -> Tr n (10 * Wt l + 1) (parseKeyframeSelectorList n l) (fun a => go true l (snd a)).
Proof.
  intros Hp. unfold parseKeyframeSelectorList. call (Tr_keyLoop n l); [fuel|].
  intros [ks l1] _ G1. apply Tr_ok. exact G1.
Qed.

Lemma Tr_anb n need l : pstate content l -> Tr n need (parseANPlusB l) (fun a => go false l (snd a)).
Proof.
  intros Hp0. unfold parseANPlusB. cbv zeta. pose proof (pstate_rws l false Hp0) as Hp.
  set (l0 := setRws l false) in *.
  apply Tr_bind with (Q := fun a => go false l0 (snd a)).
  { repeat match goal with
    | |- Tr _ _ (if ?b then _ else _) _ => destruct b
    | |- Tr _ _ (errorf _ _) _ => apply Tr_errorf; auto
    | |- Tr _ _ (l1 <- next _ ;; _) _ => nx l1 G1; apply Tr_ok; cbn [snd]; gos
    | |- Tr _ _ (l1 <- expect _ _ ;; _) _ => ex l1 G1; apply Tr_ok; cbn [snd]; gos
    | |- Tr _ _ (Ok _) _ => apply Tr_ok; cbn [snd]; gos
    end.
    - apply Tr_bind with (Q := fun _ => True).
      + destruct (hasPrefix _ _); [apply Tr_ok; exact I|]. destruct (hasPrefix _ _); [apply Tr_ok; exact I|apply Tr_errorf; auto].
      + intros op _ _. destruct (isEmpty _); [apply Tr_errorf; auto|].
        nx l1 G1; apply Tr_ok; cbn [snd]; gos.
    - destruct (if hasPrefix _ _ then _ else _) as [op b]. ex l1 G1; apply Tr_ok; cbn [snd]; gos. }
  intros [[[[a op] b] e] l1] _ G1. cbn [snd] in G1.
  apply Tr_bind with (Q := fun a => go false l0 (snd a)).
  { destruct (teq (l_cur l1) Number).
    - apply Tr_bind with (Q := fun _ => True).
      + destruct (hasPrefix _ _); [apply Tr_ok; exact I|]. destruct (hasPrefix _ _); [apply Tr_ok; exact I|apply Tr_errorf; eauto using go_p].
      + intros op2 _ _. ex l2 G2. apply Tr_ok. cbn [snd]. gos.
    - destruct (curDelim _ _).
      + nx l2 G2. ex l3 G3. apply Tr_ok. cbn [snd]. gos.
      + apply Tr_ok. exact G1. }
  intros [[[op2 b2] e2] l2] _ G2. cbn [snd] in G2. apply Tr_ok. cbn [snd]. exact (go_setFlags _ _ _ _ G2).
Qed.

Lemma Tr_attr n l : pstate content l -> l_cur l <> EOF ->
  Tr n (10 * Wt l + 1) (parseAttributeSelector n l) (fun a => go true l (snd a)).
Proof.
  intros Hp0 He. unfold parseAttributeSelector. cbv zeta. pose proof (pstate_rws l false Hp0) as Hp.
  pos l. change (Wt l) with (Wt (setRws l false)) in *. set (l0 := setRws l false) in *.
  assert (Hgo : forall l1, go true l0 l1 -> go true l (setRws l1 (l_rws l))) by (intros l1 G; exact (go_setFlags _ _ _ _ G)).
  nx l1 G1. ex l2 G2. destruct (teq (l_cur l2) RBracket).
  { nx l3 G3. apply Tr_ok. cbn [snd]. apply Hgo. gos. }
  apply Tr_bind with (Q := fun a => go false l2 (snd a)).
  { destruct (bmem _ _).
    - nx l3 G3. destruct (negb _); [apply Tr_errorf; eauto using go_p|]. ex l4 G4. apply Tr_ok. cbn [snd]. gos.
    - ex l3 G3. apply Tr_ok. cbn [snd]. gos. }
  intros [pre l3] _ G3. cbn [snd] in G3. call (Tr_value n l3); [fuel|].
  intros [v l4] _ Hv. assert (Hp3 : pstate content l3) by eauto using go_p.
  apply (valQ_go _ _ _ Hp3) in Hv. cbn [snd] in Hv. destruct (isNil v); [apply Tr_errorf; eauto using go_p|].
  destruct (_ && _).
  - nx l5 G5. ex l6 G6. apply Tr_ok. cbn [snd]. apply Hgo. gos.
  - ex l5 G5. apply Tr_ok. cbn [snd]. apply Hgo. gos.
Qed.

Definition PSL n := forall l, pstate content l -> Tr n (10 * Wt l + 5) (parseSelectorList n l) (fun a => go true l (snd a)).
Definition PLL n := forall l, pstate content l -> Tr n (10 * Wt l + 4) (selListLoop n l) (fun a => go true l (snd a)).
Definition PS n := forall l, pstate content l -> Tr n (10 * Wt l + 3) (parseSelector n l) (fun a => go true l (snd a)).
Definition PP n := forall le l, pstate content l -> Tr n (10 * Wt l + 2) (partsLoop n le l)
  (fun a => go false l (snd a) /\ (le = None -> go true l (snd a))).

Lemma selectors_all n : PSL n /\ PLL n /\ PS n /\ PP n.
Proof.
  induction n as [|n (I1 & I2 & I3 & I4)]; [repeat split; red; intros; apply Tr_timeout; lia|].
  split; [|split; [|split]].
  - intros l Hp. cbn [parseSelectorList]. call (I2 l); [fuel|]. intros [s l1] _ G1. apply Tr_ok. exact G1.
  - intros l Hp. cbn [selListLoop]. destruct (teq (l_cur l) EOF) eqn:Et; [apply Tr_errorf; auto|].
    apply teq_false in Et. pos l. call (I3 l); [fuel|]. intros [s l1] _ G1. cbn [snd] in G1.
    destruct (teq (l_cur l1) Comma).
    + nx l2 G2. call (I2 l2); [fuel|]. intros [ss l3] _ G3. apply Tr_ok. cbn [snd] in *. gos.
    + apply Tr_ok. exact G1.
  - intros l Hp. cbn [parseSelector]. call (I4 None (setRws l true)); [apply pstate_rws; auto|change (Wt (setRws l true)) with (Wt l); fuel|].
    intros [[ps e] l1] _ [_ G1]. apply Tr_ok. cbn [snd] in *. exact (go_setFlags _ _ _ _ (G1 eq_refl)).
  - intros le l Hp. cbn [partsLoop]. cbv zeta.
    assert (Hcont : forall p l1, l_cur l <> EOF -> go true l l1 ->
      Tr (S n) (10 * Wt l + 2) ('(ps, e, l2) <- partsLoop n (Some (sp_end (partSpan p))) l1 ;; Ok (p :: ps, e, l2))
        (fun a => go false l (snd a) /\ (le = None -> go true l (snd a)))).
    { intros p l1 He G1. pos l. call (I4 (Some (sp_end (partSpan p))) l1); [fuel|].
      intros [[ps e] l2] _ [G2 _]. apply Tr_ok. cbn [snd] in *. split; intros; gos. }
    assert (Hdef : Tr (S n) (10 * Wt l + 2) match le with None => errorf l (B "expected selector") | Some e => Ok (@nil selpart, e, l) end
        (fun a => go false l (snd a) /\ (le = None -> go true l (snd a)))).
    { destruct le; [|apply Tr_errorf; auto]. apply Tr_ok. cbn [snd]. split; [gos|congruence]. }
    destruct (l_cur l) eqn:Ec; try exact Hdef; try (nx l1 G1; apply Hcont; [congruence|exact G1]).
    + apply Tr_errorf; auto.
    + (* pseudo *)
      pos l. nx l1 G1.
      apply Tr_bind with (Q := fun l2 => go false l1 l2).
      { destruct (teq (l_cur l1) Colon); [|apply Tr_ok; gos].
        eapply Tr_weak; [apply (Tr_next (S n) (10 * Wt l + 2)); eauto using go_p| |auto]. intros l2 _ G2. gos. }
      intros l2 _ G2.
      apply Tr_bind with (Q := fun a => go false l2 (snd a)).
      { destruct (l_cur l2) eqn:E2; try (apply Tr_errorf; eauto using go_p).
        - nx l3 G3.
          apply Tr_bind with (Q := fun a => go false l3 (snd a)).
          { assert (Hp3 : pstate content l3) by eauto using go_p.
            destruct (isNthName _).
            - destruct (l_cur l3) eqn:E3; try match goal with |- Tr _ _ (Ok _) _ => apply Tr_ok; cbn [snd]; gos end; try (apply Tr_anb; exact Hp3).
              destruct (_ || _); [apply Tr_anb; exact Hp3|]. destruct (_ && _); [apply Tr_errorf; auto|].
              nx l4 G4. apply Tr_ok. cbn [snd]. gos.
            - call (I1 l3); [fuel|]. intros [[slsp sels] l4] _ G4. cbn [snd] in *. apply Tr_ok. cbn [snd]. gos. }
          intros [args l4] _ G4. cbn [snd] in G4. ex l5 G5. apply Tr_ok. cbn [snd]. gos.
        - nx l3 G3. apply Tr_ok. cbn [snd]. gos. }
      intros [[args e] l3] _ G3. cbn [snd] in G3. apply Hcont; [congruence|gos].
    + (* attribute *)
      call (Tr_attr n l); [congruence|fuel|]. intros [p l1] _ G1. apply Hcont; [congruence|exact G1].
    + (* delim *)
      destruct (beq _ _).
      { nx l1 G1. ex l2 G2. apply Hcont; [congruence|gos]. }
      destruct (bmem _ _); [nx l1 G1; apply Hcont; [congruence|exact G1]|].
      destruct (beq _ _); [nx l1 G1; apply Hcont; [congruence|exact G1]|].
      apply Tr_errorf; auto.
Qed.
Lemma Tr_selectors n l : pstate content l -> Tr n (10 * Wt l + 5) (parseSelectorList n l) (fun a => go true l (snd a)).
Proof. apply (selectors_all n). Qed.

Lemma Tr_qrule n : forall k st pr l, pstate content l -> visits run content (InPrelude k) l ->
  Tr n (10 * Wt l + 6) (qruleLoop run n k st pr l) (fun a => go true l (snd a)).
Proof.
  induction n as [|n IH]; intros k st pr l Hp Hv; [apply Tr_timeout; lia|]. cbn [qruleLoop].
  assert (Hdef : l_cur l <> EOF -> l_cur l <> LCurly -> Tr (S n) (10 * Wt l + 6)
    (if k then '(pr1, l1) <- parseKeyframeSelectorList n l ;; qruleLoop run n k st pr1 l1
     else '(sl, l1) <- parseSelectorList n l ;; qruleLoop run n k st (PrSel sl) l1) (fun a => go true l (snd a))).
  { intros He Hc. pos l. destruct k.
    - call (Tr_key n l); [fuel|]. intros [pr1 l1] E1 G1. cbn [snd] in G1.
      eapply Tr_weak; [apply (IH true st pr1 l1); [eauto using go_p|eapply vKeySelectors; eauto]| |fuel].
      intros [r l2] _ G2. cbn [snd] in *. gos.
    - call (Tr_selectors n l); [fuel|]. intros [sl l1] E1 G1. cbn [snd] in G1.
      eapply Tr_weak; [apply (IH false st (PrSel sl) l1); [eauto using go_p|eapply vSelectors; eauto]| |fuel].
      intros [r l2] _ G2. cbn [snd] in *. gos. }
  destruct (l_cur l) eqn:Ec; try (apply Hdef; congruence).
  - apply Tr_errorf; auto.
  - call (Tr_block n l); [intros l1 E1; eapply vBlock; eauto|fuel|].
    intros [[bsp ds] l1] _ G1. apply Tr_ok. exact G1.
Qed.

Lemma Tr_rules n : forall k l, pstate content l -> visits run content (InRules k) l ->
  Tr n (10 * Wt l + 7) (rulesLoop run n k l) (fun a => go true l (snd a)).
Proof.
  induction n as [|n IH]; intros k l Hp Hv; [apply Tr_timeout; lia|]. cbn [rulesLoop].
  assert (Hdef : l_cur l <> EOF -> l_cur l <> RCurly -> Tr (S n) (10 * Wt l + 7)
    ('(r, l1) <- parseQualifiedRule run n k l ;;
      '(rs, e, l2) <- rulesLoop run n k l1 ;; Ok (r :: rs, e, l2)) (fun a => go true l (snd a))).
  { intros He Hc. pos l. unfold parseQualifiedRule.
    call (Tr_qrule n k (sp_start (tokenSpan l)) PrNil l); [apply vInnerPrelude; auto|fuel|].
    intros [r l1] E1 G1. cbn [snd] in G1. call (IH k l1); [eapply vInner; eauto|fuel|].
    intros [[rs e] l2] _ G2. apply Tr_ok. cbn [snd] in *. gos. }
  destruct (l_cur l) eqn:Ec; try (apply Hdef; congruence).
  - apply Tr_errorf; auto.
  - nx l1 G1. apply Tr_ok. exact G1.
Qed.

Lemma Tr_rangeOp n need l : pstate content l ->
  Tr n need (parseMediaRangeOperator l) (fun a => go true l (snd a)).
Proof.
  intros Hp. unfold parseMediaRangeOperator. nx l1 G1.
  destruct (teq (l_cur l1) Delim).
  - destruct (_ || _); [apply Tr_errorf; eauto using go_p|]. nx l2 G2.
    destruct (beq _ _); apply Tr_ok; cbn [snd]; gos.
  - destruct (beq _ _); [apply Tr_ok; exact G1|]. destruct (beq _ _); [apply Tr_ok; exact G1|].
    apply Tr_errorf; eauto using go_p.
Qed.

Lemma Tr_feature n l : pstate content l ->
  Tr n (10 * Wt l + 1) (parseMediaFeature n l) (fun a => go true l (snd a)).
Proof.
  intros Hp. unfold parseMediaFeature. cbv zeta. ex l1 G1. assert (Hp1 : pstate content l1) by eauto using go_p.
  pos l.
  call (Tr_value n l1); [fuel|]. intros [first l2] _ Hv. apply (valQ_go _ _ _ Hp1) in Hv. cbn [snd] in Hv.
  assert (Hp2 : pstate content l2) by eauto using go_p.
  destruct (l_cur l2) eqn:E2; try (apply Tr_errorf; auto).
  - (* colon *)
    nx l3 G3. assert (Hp3 : pstate content l3) by eauto using go_p.
    destruct first; try (apply Tr_errorf; auto).
    call (Tr_value n l3); [fuel|]. intros [second l4] _ Hv4. apply (valQ_go _ _ _ Hp3) in Hv4. cbn [snd] in Hv4.
    ex l5 G5. apply Tr_ok. cbn [snd]. gos.
  - (* rparen *)
    nx l3 G3. destruct first; try (apply Tr_errorf; eauto using go_p). apply Tr_ok. cbn [snd]. gos.
  - (* delim *)
    eapply Tr_bind; [apply Tr_rangeOp; auto|]. intros [op l3] _ G3. cbn [snd] in G3.
    assert (Hp3 : pstate content l3) by eauto using go_p.
    call (Tr_value n l3); [fuel|]. intros [second l4] _ Hv4. apply (valQ_go _ _ _ Hp3) in Hv4. cbn [snd] in Hv4.
    assert (Hp4 : pstate content l4) by eauto using go_p.
    assert (Hrest : Tr n (10 * Wt l + 1)
       match first with
      | VIdent isp prop =>
        l5 <- expect RParen l4 ;;
        Ok (MRange (mkSpan (sp_start (tokenSpan l)) (tokenEnd l4)) isp prop VNil op second, l5)
      | _ => errorf l4 (B "expected identifier")
      end (fun a => go true l (snd a))).
    { destruct first; try (apply Tr_errorf; auto). ex l5 G5. apply Tr_ok. cbn [snd]. gos. }
    destruct second; try exact Hrest.
    apply Tr_bind with (Q := fun a => go false l4 (snd a)).
    { destruct (teq (l_cur l4) Delim); [|apply Tr_ok; gos].
      eapply Tr_bind; [apply Tr_rangeOp; auto|]. intros [op2 l5] _ G5. cbn [snd] in G5.
      destruct (negb _); [apply Tr_errorf; eauto using go_p|].
      assert (Hp5 : pstate content l5) by eauto using go_p.
      eapply Tr_weak; [apply (Tr_value n l5); auto| |fuel]. intros [v6 l6] _ Hv6. apply (valQ_go _ _ _ Hp5) in Hv6.
      cbn [snd] in *. gos. }
    intros [rhs l6] _ G6. cbn [snd] in G6. ex l7 G7. apply Tr_ok. cbn [snd]. gos.
Qed.

Lemma Tr_mqParts n : forall l, pstate content l ->
  Tr n (10 * Wt l + 2) (mqPartsLoop n l) (fun a => go false l (snd a) /\
    (fst a = [] -> snd a = l /\ l_cur l <> EOF /\ l_cur l <> LParen /\ l_cur l <> Ident)).
Proof.
  induction n as [|n IH]; intros l Hp; [apply Tr_timeout; lia|]. cbn [mqPartsLoop].
  assert (Hdef : l_cur l <> EOF -> l_cur l <> LParen -> l_cur l <> Ident ->
    Tr (S n) (10 * Wt l + 2) (Ok ([], l)) (fun a : list mqpart * lexer => go false l (snd a) /\
    (fst a = [] -> snd a = l /\ l_cur l <> EOF /\ l_cur l <> LParen /\ l_cur l <> Ident))).
  { intros H1 H2 H3. apply Tr_ok. cbn [fst snd]. split; [gos|auto]. }
  destruct (l_cur l) eqn:Ec; try (apply Hdef; congruence).
  - apply Tr_errorf; auto.
  - pos l. call (Tr_feature n l); [fuel|]. intros [p l1] _ G1. cbn [snd] in G1. call (IH l1); [fuel|].
    intros [ps l2] _ [G2 _]. apply Tr_ok. cbn [fst snd] in *. split; [gos|discriminate].
  - pos l. nx l1 G1. call (IH l1); [fuel|].
    intros [ps l2] _ [G2 _]. apply Tr_ok. cbn [fst snd] in *. split; [gos|discriminate].
Qed.

Lemma Tr_mqList n : forall l, pstate content l ->
  Tr n (10 * Wt l + 3) (mqListLoop n l) (fun a => go false l (snd a) /\
    (fst a = [] -> l_cur l <> LParen /\ l_cur l <> Ident)).
Proof.
  induction n as [|n IH]; intros l Hp; [apply Tr_timeout; lia|]. cbn [mqListLoop].
  destruct (teq (l_cur l) EOF) eqn:Et; [apply Tr_errorf; auto|]. apply teq_false in Et. pos l.
  call (Tr_mqParts n l); [fuel|]. intros [parts l1] _ [G1 Hnil]. cbn [fst snd] in *.
  destruct (teq (l_cur l1) Comma) eqn:Ec.
  - apply teq_true in Ec. nx l2 G2. pos l1.
    call (IH l2); [fuel|]. intros [qs l3] _ [G3 _]. apply Tr_ok. cbn [fst snd] in *. split; [gos|].
    intros X. apply app_eq_nil in X as [X _]. destruct parts; [|discriminate]. destruct (Hnil eq_refl) as (_ & _ & ?); auto.
  - apply Tr_ok. cbn [fst snd]. split; [gos|]. destruct parts; [|discriminate].
    intros _. destruct (Hnil eq_refl) as (_ & _ & ?); auto.
Qed.

Lemma Tr_mql n l : pstate content l ->
  Tr n (10 * Wt l + 3) (parseMediaQueryList n l) (fun a => go false l (snd a) /\
    (fst a = None -> l_cur l <> LParen /\ l_cur l <> Ident)).
Proof.
  intros Hp. unfold parseMediaQueryList. call (Tr_mqList n l); [fuel|]. intros [qs l1] _ [G1 Hnil]. cbn [fst snd] in *.
  destruct qs; apply Tr_ok; cbn [fst snd]; split; auto. discriminate.
Qed.

Lemma Tr_atRule n l : pstate content l -> visits run content Top l -> l_cur l = At ->
  Tr n (10 * Wt l + 1) (parseAtRule run n l) (fun a => go true l (snd a)).
Proof.
  intros Hp Hv Ec. unfold parseAtRule. pos l.
  destruct (beq (l_str l) (B "import")) eqn:E1.
  { apply Tr_bind with (Q := fun a => go true l (snd a)).
    - unfold parseImportAtRule. cbv zeta. nx l1 G1. assert (Hp1 : pstate content l1) by eauto using go_p.
      apply Tr_bind with (Q := fun a => go true l1 (snd a)).
      { destruct (l_cur l1) eqn:Ec1; try (apply Tr_errorf; auto).
        - nx l2 G2. apply Tr_ok. cbn [snd]. gos.
        - destruct (negb _); [apply Tr_errorf; auto|]. nx l2 G2. ex l3 G3. ex l4 G4. apply Tr_ok. cbn [snd]. gos.
        - ex l2 G2. apply Tr_ok. cbn [snd]. gos. }
      intros [[psp target] l2] _ G2. cbn [snd] in G2. call (Tr_mql n l2); [fuel|].
      intros [mq l3] _ [G3 _]. cbn [fst snd] in G3. destruct mq as [q|]; apply Tr_ok; cbn [snd]; gos.
    - intros [[a i] l1] _ G1. apply Tr_ok. exact G1. }
  destruct (beq (l_str l) (B "media")) eqn:E2.
  { apply Tr_bind with (Q := fun a => go true l (snd a)).
    - unfold parseMediaAtRule. cbv zeta. nx l1 G1. call (Tr_mql n l1); [fuel|]. intros [mq l2] Em [G2 _]. cbn [fst snd] in G2.
      eapply Tr_bind; [apply Tr_expect; eauto using go_p|]. intros l3 E3 (_ & _ & G3).
      call (Tr_rules n false l3); [eapply vMedia; eauto; apply beq_eq; auto|fuel|].
      intros [[rs e] l4] _ G4. apply Tr_ok. cbn [snd] in *. gos.
    - intros [a l1] _ G1. apply Tr_ok. exact G1. }
  destruct (bmem (l_str l) _) eqn:E3.
  { apply Tr_bind with (Q := fun a => go true l (snd a)).
    - unfold parseKeyframes. cbv zeta. nx l1 G1. assert (Hp1 : pstate content l1) by eauto using go_p.
      apply Tr_bind with (Q := fun _ => l_cur l1 = TString \/ l_cur l1 = Ident).
      { destruct (l_cur l1); try (apply Tr_errorf; auto); apply Tr_ok; auto. }
      intros pre _ Hpre. nx l2 G2.
      eapply Tr_bind; [apply Tr_expect; eauto using go_p|]. intros l3 E4 (_ & _ & G3).
      call (Tr_rules n true l3); [eapply vKeyframes; eauto; apply bmem_In; auto|fuel|].
      intros [[rs e] l4] _ G4. apply Tr_ok. cbn [snd] in *. gos.
    - intros [a l1] _ G1. apply Tr_ok. exact G1. }
  destruct (beq (l_str l) (B "custom-media")) eqn:E4.
  { apply Tr_bind with (Q := fun a => go true l (snd a)).
    - unfold parseCustomMediaAtRule. cbv zeta. nx l1 G1. assert (Hp1 : pstate content l1) by eauto using go_p.
      call (Tr_value n l1); [fuel|]. intros [v l2] Ev Hq. pose proof (valQ_go _ _ _ Hp1 Hq) as G2. cbn [snd] in G2.
      assert (Hp2 : pstate content l2) by eauto using go_p.
      destruct v; try (apply Tr_errorf; auto).
      call (Tr_mql n l2); [fuel|]. intros [mq l3] _ [G3 Hnil]. cbn [fst snd] in *.
      destruct mq as [[qsp qs]|].
      + destruct qs as [|q [|q2 qs]]; try (apply Tr_errorf; eauto using go_p). apply Tr_ok. cbn [snd]. gos.
      + apply E_custom. destruct (Hnil eq_refl) as [N1 N2]. apply beq_eq in E4.
        destruct (ident_value n l1 _ _ _ Ev) as [I1 I2]. exists l, l1, l2. repeat split; auto.
    - intros [a l1] _ G1. apply Tr_ok. exact G1. }
  apply Tr_bind with (Q := fun a => go true l (snd a)).
  - unfold parseGenericAtRule. cbv zeta. nx l1 G1. call (Tr_block n l1).
    + intros l2 X2. eapply vGeneric; eauto. unfold knownAtRule. intros Hk. 
      assert (Hm : forall s, l_str l = s -> beq (l_str l) s = true) by (intros; apply beq_eq; auto).
      destruct Hk as [K|[K|[K|[K|[K|[K|[]]]]]]]; symmetry in K; try (apply Hm in K; congruence);
        rewrite K in E3; discriminate E3.
    + fuel.
    + intros [[bsp ds] l2] _ G2. apply Tr_ok. cbn [snd] in *. gos.
  - intros [a l1] _ G1. apply Tr_ok. exact G1.
Qed.

Lemma Tr_parseLoop n : forall l, pstate content l -> visits run content Top l ->
  Tr n (10 * Wt l + 8) (parseLoop run n l) (fun a => go false l (snd a) /\ l_cur (snd a) = EOF).
Proof.
  induction n as [|n IH]; intros l Hp Hv; [apply Tr_timeout; lia|]. cbn [parseLoop].
  assert (Hdef : plainTop (l_cur l) = true -> Tr (S n) (10 * Wt l + 8)
    ('(r, l1) <- parseQualifiedRule run n false l ;;
      '(nds, iss, l2) <- parseLoop run n l1 ;; Ok (NRule r :: nds, iss, l2)) (fun a => go false l (snd a) /\ l_cur (snd a) = EOF)).
  { intros Hc. assert (He : l_cur l <> EOF) by (intros X; rewrite X in Hc; discriminate). pos l. unfold parseQualifiedRule.
    call (Tr_qrule n false (sp_start (tokenSpan l)) PrNil l); [apply vTopPrelude; auto|fuel|].
    intros [r l1] E1 G1. cbn [snd] in G1. call (IH l1); [eapply vRule; eauto|fuel|].
    intros [[rs e] l2] _ [G2 X2]. apply Tr_ok. cbn [snd] in *. split; [gos|auto]. }
  assert (Hskip : In (l_cur l) [Semicolon; CDO; CDC] -> Tr (S n) (10 * Wt l + 8)
    (l1 <- next l ;; parseLoop run n l1) (fun a => go false l (snd a) /\ l_cur (snd a) = EOF)).
  { intros Hc. assert (He : l_cur l <> EOF) by (intros X; rewrite X in Hc; cbn in Hc; intuition discriminate). pos l.
    nx l1 G1. eapply Tr_weak; [apply (IH l1); [eauto using go_p|eapply vSkip; eauto]| |fuel].
    intros [[rs e] l2] _ [G2 X2]. cbn [snd] in *. split; [gos|auto]. }
  destruct (l_cur l) eqn:Ec; try (apply Hdef; reflexivity); try (apply Hskip; cbn; auto; fail).
  - apply Tr_ok. cbn [snd]. split; [gos|auto].
  - pos l. call (Tr_atRule n l); [fuel|]. intros [[nd is] l1] E1 G1. cbn [snd] in G1.
    call (IH l1); [eapply vAt; eauto|fuel|].
    intros [[rs e] l2] _ [G2 X2]. apply Tr_ok. cbn [snd] in *. split; [gos|auto].
Qed.
End Control.
End WithUnicode.
