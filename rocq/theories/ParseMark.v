(** The comment markers of HTML stop the parser. *)
From Verif Require Import Bytes Utf8 Source Lexer BytesFacts LexSpec LexFacts LexNext LexProps Ast Parser ParserSpec ParseMono ParseInv ParseSound ParserProofs.

Section WithUnicode.
Context {U : UnicodeDigits}.

Definition marked (l : lexer) : Prop :=
  (l_cur l = CDC -> l_ch l = 45 /\ peek l 0 = 45 /\ peek l 1 = 62) /\
  (l_cur l = CDO -> l_ch l = 60 /\ peek l 0 = 33 /\ peek l 1 = 45 /\ peek l 2 = 45).
Lemma next_marked l l1 : cwf l -> next l = Ok l1 -> marked l1.
Proof.
  intros Hw E. pose proof (next_spec l Hw) as Hn. rewrite E in Hn.
  destruct Hn as (g & lm & text & _ & _ & Mg & _ & _ & _ & (Mt & _ & _ & _ & T4) & Hz).
  assert (Hsame : text = [] -> l_ch l1 = l_ch lm /\ forall i, peek l1 i = peek lm i).
  { intros ->. assert (W : cwf lm) by (eapply moves_cwf; eauto). destruct Mt as (M1 & M2 & M3 & M4 & _). cbn in M2, M3.
    destruct W as (_ & W1 & W2), M4 as (_ & V1 & V2). rewrite <- M2 in V1, V2. rewrite W1, V1. split; auto.
    intros i. unfold peek. rewrite M1, V2, W2, M3, Nat.add_0_r. reflexivity. }
  split; intros Ec; rewrite Ec in *; cbn in T4.
  - destruct (Hsame T4) as [-> Hp]. rewrite !Hp. destruct (Hz T4) as [[_ X]|[X|[(_ & _ & _ & _ & X)|(_ & _ & X)]]]; try discriminate X.
    tauto.
  - destruct (Hsame T4) as [-> Hp]. rewrite !Hp. destruct (Hz T4) as [[_ X]|[(_ & _ & _ & X)|[X|(_ & _ & X)]]]; try discriminate X.
    tauto.
Qed.
Lemma pstate_marked content l : pstate content l -> marked l.
Proof.
  induction 1 as [l E|l ws com H IH|l ls H IH|l l1 H IH E]; auto.
  - destruct (first_step content) as (F1 & F2 & _). unfold newLexer in E. eapply next_marked; eauto.
  - destruct (pstate_wfl _ _ H) as (_ & W & _). eapply next_marked; eauto.
Qed.
Lemma marked_next content l : pstate content l -> In (l_cur l) [CDO; CDC] -> exists l1, next l = Ok l1 /\ l_cur l1 = l_cur l.
Proof.
  intros Hp Hc. destruct (pstate_marked _ _ Hp) as [M1 M2]. unfold next, lfuel. cbn [nextLoop]. cbv zeta.
  change (l_ch (setStart l (l_lastPos l))) with (l_ch l).
  change (peek (setStart l (l_lastPos l))) with (peek l).
  cbn [In] in Hc. destruct Hc as [Hc|[Hc|[]]]; rewrite <- Hc; symmetry in Hc.
  - destruct (M2 Hc) as (-> & -> & -> & ->). eexists; split; reflexivity.
  - destruct (M1 Hc) as (-> & -> & ->). eexists; split; reflexivity.
Qed.
Lemma C10_marker_lemma run content l : visits run content Top l -> In (l_cur l) [CDO; CDC] ->
  forall n, parse run n content = ParseTimeout.
Proof.
  intros Hv Hc. apply (visits_loops _ _ _ _ Hv). pose proof (visits_pstate _ _ _ _ Hv) as Hp. clear Hv. intros n. cbn [loopAt].
  revert l Hp Hc. induction n as [|n IH]; intros l Hp Hc; [reflexivity|].
  destruct (marked_next _ _ Hp Hc) as (l1 & E & E1).
  assert (X : parseLoop run (S n) l = (l2 <- next l ;; parseLoop run n l2)).
  { cbn [parseLoop]. cbn [In] in Hc. destruct Hc as [Hc|[Hc|[]]]; rewrite <- Hc; reflexivity. }
  rewrite X, E. cbn [bind]. apply IH; [eapply pNext; eauto|]. rewrite E1. exact Hc.
Qed.
End WithUnicode.
