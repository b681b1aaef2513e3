(** Two files with a common beginning: an error well inside of it is found in
    both. *)
From Verif Require Import Bytes Utf8 Source Lexer BytesFacts LexSpec LexFacts LexNext LexSame Ast Parser ParserSpec ParseMono LaterLex LaterParse LaterErr LaterRaw LaterSheet LaterStop.

Section Two.
Context {U : UnicodeDigits}.
Variables (k : nat) (c c' : bytes).
Hypothesis Hk : (k <= length c)%nat.
Hypothesis Hk' : (k <= length c')%nat.
Hypothesis Hc : firstn k c = firstn k c'.
Notation sw := (LaterLex.sw c').
Notation early := (LaterLex.early k).
Notation onw := (LaterLex.onw c).
Notation fwd := (LaterLex.fwd c).
Notation near := (LaterSheet.near_early k c c' Hk Hk').

(** ** Declarations before the error *)
Section Stop.
Variable sp : span.
(** The tokens that follow lead to the error at [sp]. *)
Inductive chp : lexer -> Prop :=
| cp_end l msg ln : onw l -> next l = Panic (PLex sp msg) ln -> chp l
| cp_next l l1 : onw l -> next l = Ok l1 -> chp l1 -> chp l.
Lemma chp_on l : chp l -> onw l /\ (l_lastPos l <= sp_end sp)%nat.
Proof.
  induction 1 as [l msg ln W E|l l1 W E H [W1 P]]; [split; [exact W|]; exact (proj1 (next_stop k c c' Hk Hk' Hc l (proj1 W) _ _ _ E))|].
  split; [exact W|]. destruct (next_fwd _ _ _ (proj1 W) E) as (_ & _ & F). destruct W1 as [_ W1]. lia.
Qed.
Lemma chp_lines l : chp l -> forall ls, chp (setLines l ls).
Proof.
  induction 1 as [l msg ln W E|l l1 W E H IH]; intros ls; pose proof (next_same l (setLines l ls) (same_lines _ _)) as S; rewrite E in S.
  - destruct (next (setLines l ls)) as [l2|p ?|] eqn:E2; try contradiction. cbn in S. subst p. eapply cp_end; [exact W|exact E2].
  - destruct (next (setLines l ls)) as [l2|? ?|] eqn:E2; try contradiction. destruct S as [ls2 ->]. eapply cp_next; [exact W|exact E2|apply IH].
Qed.
Lemma chp_back l lines : chp (setLines l lines) -> chp l.
Proof. intros H. apply chp_lines with (ls := l_lines l) in H. replace (setLines (setLines l lines) (l_lines l)) with l in H by (destruct l; reflexivity). exact H. Qed.
Lemma walk_chp l l1 : walk l l1 -> onw l -> chp l1 -> chp l.
Proof.
  induction 1 as [l l1 E N|l l1 l2 E H IH]; intros W C; [eapply cp_next; eassumption|].
  destruct (next_fwd _ _ _ (proj1 W) E) as (W1 & _). eapply cp_next; [exact W|exact E|exact (IH W1 C)].
Qed.
Lemma rawLoop_ok n : forall l ls, onw l -> rawLoop n l = Ok ls -> onw ls /\ (chp ls -> chp l).
Proof.
  induction n as [|n IH]; intros l ls W E; [discriminate|]. cbn [rawLoop] in E. destruct (teq _ _); [injection E as <-; auto|].
  apply bind_inv in E as (l1 & E1 & E). destruct (next_fwd _ _ _ (proj1 W) E1) as (W1 & _). destruct (IH _ _ W1 E) as [A D]. split; [exact A|]. intros H. eapply cp_next; [exact W|exact E1|auto].
Qed.
Lemma bind_panic {A D} (m : res A) (f : A -> res D) p ln : bind m f = Panic p ln -> m = Panic p ln \/ exists a, m = Ok a /\ f a = Panic p ln.
Proof. destruct m; cbn; intros E; [eauto|left; injection E as -> ->; reflexivity|discriminate]. Qed.
Lemma rawLoop_chp n : forall l msg ln, onw l -> rawLoop n l = Panic (PLex sp msg) ln -> chp l.
Proof.
  induction n as [|n IH]; intros l msg ln W E; [discriminate|]. cbn [rawLoop] in E. destruct (teq _ _); [discriminate E|].
  apply bind_panic in E as [E|(l1 & E1 & E)]; [eapply cp_end; eassumption|]. destruct (next_fwd _ _ _ (proj1 W) E1) as (W1 & _). eapply cp_next; [exact W|exact E1|exact (IH _ _ _ W1 E)].
Qed.
Lemma slice_panic l a b msg ln : contentSlice l a b = Panic (PLex sp msg) ln -> False.
Proof. unfold contentSlice. destruct (slice _ _ _); discriminate. Qed.
Lemma fallback_ok n l d l1 : onw l -> parseDeclarationOrFallback n l = Ok (d, l1) -> chp l1 -> chp l.
Proof.
  intros W E C. unfold parseDeclarationOrFallback in E. destruct (parseDeclaration n l) as [[d0 l2]|p lines|] eqn:P; [| |discriminate E].
  { injection E as <- <-. destruct (declaration_walk n l _ _ P) as [->|H]; [exact C|]. exact (walk_chp _ _ H W C). }
  unfold parseRaw in E. cbv zeta in E. apply bind_inv in E as (l2 & E2 & E). apply bind_inv in E as (l3 & E3 & E). apply bind_inv in E as (s & E4 & E). injection E as <- <-.
  destruct (rawLoop_ok n (setLines l lines) _ W E2) as [W2 K]. apply (chp_back l lines), K. eapply cp_next; eassumption.
Qed.
Lemma fallback_chp n l msg ln : onw l -> parseDeclarationOrFallback n l = Panic (PLex sp msg) ln -> chp l.
Proof.
  intros W E. unfold parseDeclarationOrFallback in E. destruct (parseDeclaration n l) as [[d0 l2]|p lines|] eqn:P; [discriminate E| |discriminate E].
  unfold parseRaw in E. cbv zeta in E. apply (chp_back l lines). apply bind_panic in E as [E|(l2 & E2 & E)]; [eapply rawLoop_chp; [exact W|exact E]|]. destruct (rawLoop_ok n (setLines l lines) _ W E2) as [W2 K].
  apply bind_panic in E as [E|(l3 & E3 & E)]; [apply K; eapply cp_end; eassumption|]. apply bind_panic in E as [E|(s & E4 & E)]; [destruct (slice_panic _ _ _ _ _ E)|discriminate E].
Qed.
Lemma fallback_on n l d l1 : onw l -> parseDeclarationOrFallback n l = Ok (d, l1) -> onw l1.
Proof. intros W E. exact (proj1 (proj1 (fallback_raw k c c' Hk Hk' Hc n l d l1 W E))). Qed.
Lemma block_chp n : forall l msg ln, onw l -> declBlockLoop n l = Panic (PLex sp msg) ln -> chp l.
Proof.
  induction n as [|n IH]; intros l msg ln W E; [discriminate|]. cbn [declBlockLoop] in E. destruct (teq _ _).
  { cbv zeta in E. apply bind_panic in E as [E|(l2 & E2 & E)]; [eapply cp_end; eassumption|discriminate E]. }
  apply bind_panic in E as [E|([d la] & E1 & E)]; [exact (fallback_chp _ _ _ _ W E)|]. apply (fallback_ok _ _ _ _ W E1). pose proof (fallback_on _ _ _ _ W E1) as Wa.
  apply bind_panic in E as [E|(l2 & E2 & E)]. { destruct (teq _ _); [eapply cp_end; eassumption|discriminate E]. }
  assert (G : onw l2 -> chp l2). { intros W2. apply bind_panic in E as [E|([[ds e] l3] & E3 & E)]; [exact (IH _ _ _ W2 E)|discriminate E]. }
  destruct (teq _ _); [|injection E2 as <-; auto]. destruct (next_fwd _ _ _ (proj1 Wa) E2) as (W2 & _). eapply cp_next; [exact Wa|exact E2|auto].
Qed.

Hypothesis Hsp : (sp_end sp + 16 <= k)%nat.
Notation Ch := chp.
Lemma chp_early l : chp l -> early l.
Proof. intros H. destruct (chp_on _ H) as [W P]. exact (near _ _ W P Hsp). Qed.
Definition QL (r r' : res lexer) : Prop := match r with Ok l1 => Ch l1 /\ r' = Ok (sw l1) | Panic p ln => r' = Panic p ln | Timeout => r' = Timeout end.
Definition QA {T} (r r' : res (T * lexer)) : Prop := match r with Ok (x, l1) => Ch l1 /\ r' = Ok (x, sw l1) | Panic p ln => r' = Panic p ln | Timeout => r' = Timeout end.
Definition Q0 {T} (r r' : res T) : Prop := match r with Ok x => r' = Ok x | Panic p ln => r' = Panic p ln | Timeout => r' = Timeout end.
Lemma QA_lex {T} (m m' : res lexer) (f f' : lexer -> res (T * lexer)) : QL m m' -> (forall l1, Ch l1 -> QA (f l1) (f' (sw l1))) -> QA (bind m f) (bind m' f').
Proof. intros H K. destruct m as [l1|p ln|]; cbn in H; [destruct H as [H ->]; exact (K _ H)|subst; reflexivity|subst; reflexivity]. Qed.
Lemma QA_pair {A T} (m m' : res (A * lexer)) (f f' : A * lexer -> res (T * lexer)) : QA m m' -> (forall x l1, Ch l1 -> QA (f (x, l1)) (f' (x, sw l1))) -> QA (bind m f) (bind m' f').
Proof. intros H K. destruct m as [[x l1]|p ln|]; cbn in H; [destruct H as [H ->]; exact (K _ _ H)|subst; reflexivity|subst; reflexivity]. Qed.
Lemma QA_any {A T} (m m' : res A) (f f' : A -> res (T * lexer)) : Q0 m m' -> (forall x, QA (f x) (f' x)) -> QA (bind m f) (bind m' f').
Proof. intros H K. destruct m as [x|p ln|]; cbn in H; subst; cbn; [apply K|reflexivity|reflexivity]. Qed.
Lemma QL_next l : Ch l -> QL (next l) (next (sw l)).
Proof.
  intros H. inversion H as [l0 msg ln W E|l0 l1 W E H1]; subst; rewrite E; unfold QL.
  - exact (proj2 (next_stop k c c' Hk Hk' Hc l (proj1 W) _ _ _ E) Hsp).
  - split; [exact H1|]. apply (next_sw _ _ _ Hk Hk' Hc _ _ (proj1 W) E). apply chp_early, H1.
Qed.
Lemma QL_expect t l : Ch l -> QL (expect t l) (expect t (sw l)).
Proof. intros H. unfold expect. change (l_cur (sw l)) with (l_cur l). destruct (negb _); [reflexivity|apply QL_next; exact H]. Qed.
Lemma QA_ok {T} (x : T) l : Ch l -> QA (Ok (x, l)) (Ok (x, sw l)). Proof. cbn. auto. Qed.
Lemma QA_err {T} l s : QA (@errorf (T * lexer) l s) (errorf (sw l) s). Proof. reflexivity. Qed.
Lemma QA_crash {T} l : QA (@crash (T * lexer) l) (crash (sw l)). Proof. reflexivity. Qed.
Lemma QA_timeout {T} : QA (@Timeout (T * lexer)) Timeout. Proof. reflexivity. Qed.
Lemma Q0_join l a b : Q0 (joinSpan l a b) (joinSpan (sw l) a b).
Proof. unfold joinSpan. destruct (valueSpan a), (valueSpan b); reflexivity. Qed.

Lemma QL_ok l : Ch l -> QL (Ok l) (Ok (sw l)). Proof. cbn. auto. Qed.
Lemma cur_sw l : l_cur (sw l) = l_cur l. Proof. reflexivity. Qed.
Lemma str_sw l : l_str (sw l) = l_str l. Proof. reflexivity. Qed.
Lemma num_sw l : l_num (sw l) = l_num l. Proof. reflexivity. Qed.
Lemma span_sw l : tokenSpan (sw l) = tokenSpan l. Proof. reflexivity. Qed.
Lemma end_sw l : tokenEnd (sw l) = tokenEnd l. Proof. reflexivity. Qed.
Lemma delim_sw l x : curDelim (sw l) x = curDelim l x. Proof. reflexivity. Qed.
Ltac sws := rewrite ?cur_sw, ?str_sw, ?num_sw, ?span_sw, ?end_sw, ?delim_sw.
Ltac ands := repeat match goal with |- _ /\ _ => split end.
Ltac ch := solve [assumption].
Ltac sim :=
  repeat (cbv zeta; cbn beta iota; sws; first
    [ solve [apply QA_err | apply QA_crash | apply QA_timeout | apply Q0_join | apply QA_ok; ch | apply QL_next; ch | apply QL_expect; ch | apply QL_ok; ch]
    | match goal with
      | |- QA (bind _ _) _ => first [ apply QA_lex; [|intros] | apply QA_pair; [|intros] | apply QA_any; [|intros] ]
      | H : forall _, _ |- QA _ _ => apply H; solve [ch]
      | p : (_ * _)%type |- _ => destruct p
      | |- QA (match ?x with _ => _ end) _ => destruct x eqn:?
      | |- QL (match ?x with _ => _ end) _ => destruct x eqn:?
      end ]).
Lemma value_stop n :
  (forall l, Ch l -> QA (parseValue n l) (parseValue n (sw l))) /\
  (forall l, Ch l -> QA (bracketLoop n l) (bracketLoop n (sw l))) /\
  (forall f l, Ch l -> QA (argsLoop n f l) (argsLoop n f (sw l))) /\
  (forall l, Ch l -> QA (mathSum n l) (mathSum n (sw l))) /\
  (forall v l, Ch l -> QA (mathSumLoop n v l) (mathSumLoop n v (sw l))) /\
  (forall l, Ch l -> QA (mathProduct n l) (mathProduct n (sw l))) /\
  (forall v l, Ch l -> QA (mathProductLoop n v l) (mathProductLoop n v (sw l))) /\
  (forall l, Ch l -> QA (mathParen n l) (mathParen n (sw l))).
Proof.
  induction n as [|n (I1 & I2 & I3 & I4 & I5 & I6 & I7 & I8)]; [ands; intros; apply QA_timeout|].
  ands; intros; cbn [parseValue bracketLoop argsLoop mathSum mathSumLoop mathProduct mathProductLoop mathParen]; sim.
Qed.
Lemma declLoop_stop n : forall le de imp l, Ch l -> QA (declLoop n le de imp l) (declLoop n le de imp (sw l)).
Proof. induction n as [|n IH]; intros; [apply QA_timeout|]. destruct (value_stop n) as (V & _). cbn [declLoop]. sim. Qed.
Lemma declaration_stop n l : Ch l -> QA (parseDeclaration n l) (parseDeclaration n (sw l)).
Proof.
  intros H. unfold parseDeclaration. pose proof (declLoop_stop n) as D. sws. destruct (teq (l_cur l) Delim && beq (l_str l) (B "*")) eqn:E; cbn [bind]; sim.
Qed.

Lemma rawLoop_stop n : forall l, Ch l -> QL (rawLoop n l) (rawLoop n (sw l)).
Proof.
  induction n as [|n IH]; intros l H; [reflexivity|]. cbn [rawLoop]. sws. destruct (teq _ _); [apply QL_ok; exact H|].
  pose proof (QL_next l H) as Q. unfold QL at 1 in Q. destruct (next l) as [l1|p ln|]; [destruct Q as [H1 ->]; cbn [bind]; apply IH; exact H1|rewrite Q; reflexivity|rewrite Q; reflexivity].
Qed.
Lemma fallback_stop n l : Ch l -> QA (parseDeclarationOrFallback n l) (parseDeclarationOrFallback n (sw l)).
Proof.
  intros H. unfold parseDeclarationOrFallback. pose proof (declaration_stop n l H) as Q. unfold QA at 1 in Q. destruct (parseDeclaration n l) as [[d l1]|p lines|]; [destruct Q as [H1 ->]; apply QA_ok; exact H1| |rewrite Q; reflexivity].
  rewrite Q. unfold parseRaw. cbv zeta. change (setLines (sw l) lines) with (sw (setLines l lines)). pose proof (chp_lines _ H lines) as H0.
  pose proof (rawLoop_stop n _ H0) as Q1. unfold QL in Q1. destruct (rawLoop n (setLines l lines)) as [l1|p1 ln1|]; [destruct Q1 as [H1 ->]; cbn [bind]|rewrite Q1; reflexivity|rewrite Q1; reflexivity].
  pose proof (QL_next l1 H1) as Q2. unfold QL in Q2. destruct (next l1) as [l2|p2 ln2|] eqn:E2; [destruct Q2 as [H2 ->]; cbn [bind]|rewrite Q2; reflexivity|rewrite Q2; reflexivity].
  change (tokenSpan (sw (setLines l lines))) with (tokenSpan (setLines l lines)). change (tokenEnd (sw l1)) with (tokenEnd l1).
  destruct (chp_on _ H2) as [W2 _]. destruct (chp_on _ H1) as [W1 _]. destruct (next_fwd _ _ _ (proj1 W1) E2) as (_ & _ & F2).
  assert (Hb : (tokenEnd l1 <= l_pos l2)%nat). { unfold tokenEnd. destruct W2 as [[_ W3] Ws]. assert (l_lastPos l2 <= l_pos l2)%nat by (destruct W3 as (_ & _ & ->); lia). lia. }
  destruct (contentSlice l2 _ _) as [s|p3 ln3|] eqn:E4; cbn [bind].
  - rewrite (slice_sw k c c' Hk Hk' Hc l2 _ _ s (proj1 W2) (chp_early _ H2) Hb E4). apply QA_ok; exact H2.
  - pose proof (chp_early _ H2) as L2. unfold LaterLex.early in L2. unfold contentSlice, slice in *. rewrite (proj1 (proj1 W2)) in E4. change (l_content (sw l2)) with c'.
    replace (tokenEnd l1 <=? length c)%nat with true in E4 by (symmetry; apply Nat.leb_le; lia). replace (tokenEnd l1 <=? length c')%nat with true by (symmetry; apply Nat.leb_le; lia).
    destruct (_ && _); [discriminate E4|]. injection E4 as <- <-. reflexivity.
  - unfold contentSlice in E4. destruct (slice _ _ _); discriminate E4.
Qed.
Lemma block_stop n : forall l, Ch l -> QA (declBlockLoop n l) (declBlockLoop n (sw l)).
Proof. induction n as [|n IH]; intros; [apply QA_timeout|]. pose proof (fallback_stop n). cbn [declBlockLoop]. sim. Qed.
End Stop.

(** ** The parser before the error *)
Notation RA := (LaterParse.RA k c c').
Notation RL := (LaterParse.RL k c c').
Definition SE {T} (l : lexer) (r r' : res T) : Prop := forall sp msg ln, r = Panic (PLex sp msg) ln ->
  (l_lastPos l <= sp_end sp)%nat /\ ((sp_end sp + 16 <= k)%nat -> r' = Panic (PLex sp msg) ln).
Definition X0 {T} (l : lexer) (r r' : res T) : Prop := R0 r r' /\ SE l r r'.
Definition XL (l : lexer) (r r' : res lexer) : Prop := RL l r r' /\ SE l r r'.
Definition XA {T} (l : lexer) (r r' : res (T * lexer)) : Prop := RA l r r' /\ SE l r r'.
Lemma XA_pair {A D} l (m m' : res (A * lexer)) (f f' : A * lexer -> res (D * lexer)) :
  XA l m m' -> (forall x l1, onw l1 -> XA l1 (f (x, l1)) (f' (x, sw l1))) -> XA l (bind m f) (bind m' f').
Proof.
  intros [H S] K. split; [apply RA_pair; [exact H|apply K]|]. intros sp msg ln E. apply bind_panic in E as [E|([x l1] & E1 & E)].
  - destruct (S _ _ _ E) as [P Q]. split; [exact P|]. intros N. rewrite (Q N). reflexivity.
  - destruct (H _ _ E1) as [F1 S1]. destruct (proj2 (K x l1 (proj1 F1)) _ _ _ E) as [P Q]. pose proof (fwd_last _ _ _ (proj1 F1) F1). split; [lia|]. intros N. rewrite (S1 (near _ _ (proj1 F1) P N)). cbn [bind]. auto.
Qed.
Lemma XA_lex {D} l (m m' : res lexer) (f f' : lexer -> res (D * lexer)) :
  XL l m m' -> (forall l1, onw l1 -> XA l1 (f l1) (f' (sw l1))) -> XA l (bind m f) (bind m' f').
Proof.
  intros [H S] K. split; [apply RA_lex; [exact H|apply K]|]. intros sp msg ln E. apply bind_panic in E as [E|(l1 & E1 & E)].
  - destruct (S _ _ _ E) as [P Q]. split; [exact P|]. intros N. rewrite (Q N). reflexivity.
  - destruct (H _ E1) as [F1 S1]. destruct (proj2 (K l1 (proj1 F1)) _ _ _ E) as [P Q]. pose proof (fwd_last _ _ _ (proj1 F1) F1). split; [lia|]. intros N. rewrite (S1 (near _ _ (proj1 F1) P N)). cbn [bind]. auto.
Qed.
Lemma XL_lex l (m m' : res lexer) (f f' : lexer -> res lexer) :
  XL l m m' -> (forall l1, onw l1 -> XL l1 (f l1) (f' (sw l1))) -> XL l (bind m f) (bind m' f').
Proof.
  intros [H S] K. split; [apply RL_lex; [exact H|apply K]|]. intros sp msg ln E. apply bind_panic in E as [E|(l1 & E1 & E)].
  - destruct (S _ _ _ E) as [P Q]. split; [exact P|]. intros N. rewrite (Q N). reflexivity.
  - destruct (H _ E1) as [F1 S1]. destruct (proj2 (K l1 (proj1 F1)) _ _ _ E) as [P Q]. pose proof (fwd_last _ _ _ (proj1 F1) F1). split; [lia|]. intros N. rewrite (S1 (near _ _ (proj1 F1) P N)). cbn [bind]. auto.
Qed.
Lemma XA_any {A D} l (m m' : res A) (f f' : A -> res (D * lexer)) : X0 l m m' -> (forall x, XA l (f x) (f' x)) -> XA l (bind m f) (bind m' f').
Proof.
  intros [H S] K. split; [apply RA_any; [exact H|apply K]|]. intros sp msg ln E. apply bind_panic in E as [E|(x & E1 & E)].
  - destruct (S _ _ _ E) as [P Q]. split; [exact P|]. intros N. rewrite (Q N). reflexivity.
  - rewrite (H _ E1). cbn [bind]. exact (proj2 (K x) _ _ _ E).
Qed.
Lemma XA_from {T} l l0 (r r' : res (T * lexer)) : onw l0 -> fwd l l0 -> XA l0 r r' -> XA l r r'.
Proof. intros W F [H S]. split; [eapply RA_from; eassumption|]. intros sp msg ln E. destruct (S _ _ _ E) as [P Q]. pose proof (fwd_last _ _ _ W F). split; [lia|exact Q]. Qed.
Lemma SE_ok {T} l (x : T) r' : SE l (Ok x) r'. Proof. intros ? ? ? E; discriminate E. Qed.
Lemma SE_err {T} l l0 s : fwd l l0 -> SE l (@errorf T l0 s) (errorf (sw l0) s).
Proof. intros F sp msg ln E. pose proof (fwd_last _ _ _ (proj1 F) F). split; [unfold errorf in E; injection E as <- _ _; exact H|]. intros _. exact E. Qed.
Lemma XA_ok {T} (x : T) l l1 : fwd l l1 -> XA l (Ok (x, l1)) (Ok (x, sw l1)). Proof. intros F. split; [apply RA_ok; exact F|apply SE_ok]. Qed.
Lemma XL_ok l l1 : fwd l l1 -> XL l (Ok l1) (Ok (sw l1)). Proof. intros F. split; [apply RL_ok; exact F|apply SE_ok]. Qed.
Lemma XA_err {T} l l0 s : fwd l l0 -> XA l (@errorf (T * lexer) l0 s) (errorf (sw l0) s). Proof. intros F. split; [apply RA_err|apply SE_err; exact F]. Qed.
Lemma XA_crash {T} l l0 (r' : res (T * lexer)) : XA l (crash l0) r'. Proof. split; [apply RA_crash|intros ? ? ? E; discriminate E]. Qed.
Lemma XA_timeout {T} l (r' : res (T * lexer)) : XA l Timeout r'. Proof. split; [apply RA_timeout|intros ? ? ? E; discriminate E]. Qed.
Lemma X0_ok {T} l (x : T) : X0 l (Ok x) (Ok x). Proof. split; [apply R0_ok|apply SE_ok]. Qed.
Lemma X0_err {T} l l0 s : fwd l l0 -> X0 l (@errorf T l0 s) (errorf (sw l0) s). Proof. intros F. split; [apply R0_err|apply SE_err; exact F]. Qed.
Lemma X0_join l0 l a b : X0 l0 (joinSpan l a b) (joinSpan (sw l) a b).
Proof. split; [apply R0_join|]. unfold joinSpan. destruct (valueSpan a), (valueSpan b); intros ? ? ? E; discriminate E. Qed.
Lemma XL_next l0 l : fwd l0 l -> XL l0 (next l) (next (sw l)).
Proof.
  intros F. split; [apply (RL_next _ _ _ Hk Hk' Hc); exact F|]. intros sp msg ln E. destruct (next_stop k c c' Hk Hk' Hc l (proj1 (proj1 F)) _ _ _ E) as [P Q]. pose proof (fwd_last _ _ _ (proj1 F) F). split; [lia|exact Q].
Qed.
Lemma XL_expect t l0 l : fwd l0 l -> XL l0 (expect t l) (expect t (sw l)).
Proof. intros F. unfold expect. change (l_cur (sw l)) with (l_cur l). destruct (negb _); [split; [intros ? E; discriminate E|apply SE_err; exact F]|apply XL_next; exact F]. Qed.
Lemma block_same n l : onw l -> XA l (declBlockLoop n l) (declBlockLoop n (sw l)).
Proof.
  intros W. split.
  - intros x l1 E. destruct (RB_RC _ _ _ _ _ _ _ _ _ (block_later k c c' Hk Hk' Hc n l W) _ _ E) as [F S]. auto.
  - intros sp msg ln E. pose proof (block_chp sp n l _ _ W E) as H. split; [apply (chp_on sp), H|]. intros N. pose proof (block_stop sp N n l H) as Q. rewrite E in Q. exact Q.
Qed.
Lemma onw_rws l b : onw l -> onw (setRws l b). Proof. exact (fun H => H). Qed.
Lemma fwd_rws a l b : fwd a l -> fwd a (setRws l b). Proof. exact (fun H => H). Qed.

Lemma rws_sw l : l_rws (sw l) = l_rws l. Proof. reflexivity. Qed.
Lemma setRws_sw l x : setRws (sw l) x = LaterLex.sw c' (setRws l x). Proof. reflexivity. Qed.
Ltac ands := repeat match goal with |- _ /\ _ => split end.
Ltac sws := rewrite ?setRws_sw, ?cur_sw, ?str_sw, ?num_sw, ?rws_sw, ?span_sw, ?end_sw, ?delim_sw.
Ltac fw := repeat first [assumption | apply onw_rws | apply fwd_rws | apply fwd_refl].
Ltac sim :=
  repeat (cbv zeta; cbn beta iota; sws; first
    [ solve [apply XA_err; fw | apply XA_crash | apply XA_timeout | apply X0_ok | apply X0_err; fw | apply X0_join
            | apply XA_ok; fw | apply XL_ok; fw | apply XL_next; fw | apply XL_expect; fw]
    | match goal with
      | |- XA _ (bind _ _) _ => first [ apply XA_lex; [|intros] | apply XA_pair; [|intros] | apply XA_any; [|intros] ]
      | H : forall _, _ |- XA _ _ _ => eapply XA_from; [| |apply H; solve [fw]]; solve [fw]
      | |- XA _ (bind _ _) _ => first [ apply XA_lex; [|intros] | apply XA_pair; [|intros] | apply XA_any; [|intros] ]
      | |- XL _ (bind _ _) _ => apply XL_lex; [|intros]
      | p : (_ * _)%type |- _ => destruct p
      | |- XA _ (match ?x with _ => _ end) _ => destruct x
      | |- XL _ (match ?x with _ => _ end) _ => destruct x
      | |- X0 _ (match ?x with _ => _ end) _ => destruct x
      end ]).

Lemma value_same n :
  (forall l, onw l -> XA l (parseValue n l) (parseValue n (sw l))) /\
  (forall l, onw l -> XA l (bracketLoop n l) (bracketLoop n (sw l))) /\
  (forall f l, onw l -> XA l (argsLoop n f l) (argsLoop n f (sw l))) /\
  (forall l, onw l -> XA l (mathSum n l) (mathSum n (sw l))) /\
  (forall v l, onw l -> XA l (mathSumLoop n v l) (mathSumLoop n v (sw l))) /\
  (forall l, onw l -> XA l (mathProduct n l) (mathProduct n (sw l))) /\
  (forall v l, onw l -> XA l (mathProductLoop n v l) (mathProductLoop n v (sw l))) /\
  (forall l, onw l -> XA l (mathParen n l) (mathParen n (sw l))).
Proof.
  induction n as [|n (I1 & I2 & I3 & I4 & I5 & I6 & I7 & I8)]; [ands; intros; apply XA_timeout|].
  ands; intros;
    cbn [parseValue bracketLoop argsLoop mathSum mathSumLoop mathProduct mathProductLoop mathParen]; sim.
Qed.
Lemma parseValue_same n l : onw l -> XA l (parseValue n l) (parseValue n (sw l)). Proof. apply (value_same n). Qed.
Lemma declLoop_same n : forall le de imp l, onw l -> XA l (declLoop n le de imp l) (declLoop n le de imp (sw l)).
Proof. induction n as [|n IH]; intros; [apply XA_timeout|]. pose proof (parseValue_same n). cbn [declLoop]. sim. Qed.
Lemma parseDeclaration_same n l : onw l -> XA l (parseDeclaration n l) (parseDeclaration n (sw l)).
Proof. intros. pose proof (declLoop_same n). unfold parseDeclaration. sim. Qed.
Lemma keyLoop_same n : forall l, onw l -> XA l (keyLoop n l) (keyLoop n (sw l)).
Proof. induction n as [|n IH]; intros; [apply XA_timeout|]. cbn [keyLoop]. sim. Qed.
Lemma parseKey_same n l : onw l -> XA l (parseKeyframeSelectorList n l) (parseKeyframeSelectorList n (sw l)).
Proof. intros. pose proof (keyLoop_same n). unfold parseKeyframeSelectorList. sim. Qed.
Lemma parseAttr_same n l : onw l -> XA l (parseAttributeSelector n l) (parseAttributeSelector n (sw l)).
Proof. intros. pose proof (parseValue_same n). unfold parseAttributeSelector. sim. Qed.
Lemma anb_same l : onw l -> XA l (parseANPlusB l) (parseANPlusB (sw l)).
Proof. intros. unfold parseANPlusB. sim. Qed.
Lemma sel_same n :
  (forall l, onw l -> XA l (parseSelectorList n l) (parseSelectorList n (sw l))) /\
  (forall l, onw l -> XA l (selListLoop n l) (selListLoop n (sw l))) /\
  (forall l, onw l -> XA l (parseSelector n l) (parseSelector n (sw l))) /\
  (forall e l, onw l -> XA l (partsLoop n e l) (partsLoop n e (sw l))).
Proof.
  induction n as [|n (I1 & I2 & I3 & I4)]; [ands; intros; apply XA_timeout|]. pose proof (parseAttr_same n). pose proof anb_same.
  ands; intros; cbn [parseSelectorList selListLoop parseSelector partsLoop]; sim.
Qed.
Lemma selectors_same n l : onw l -> XA l (parseSelectorList n l) (parseSelectorList n (sw l)). Proof. apply (sel_same n). Qed.
Lemma range_same l : onw l -> XA l (parseMediaRangeOperator l) (parseMediaRangeOperator (sw l)).
Proof. intros. unfold parseMediaRangeOperator. sim. Qed.
Lemma feature_same n l : onw l -> XA l (parseMediaFeature n l) (parseMediaFeature n (sw l)).
Proof. intros. pose proof (parseValue_same n). pose proof range_same. unfold parseMediaFeature. sim. Qed.
Lemma mqParts_same n : forall l, onw l -> XA l (mqPartsLoop n l) (mqPartsLoop n (sw l)).
Proof. induction n as [|n IH]; intros; [apply XA_timeout|]. pose proof (feature_same n). cbn [mqPartsLoop]. sim. Qed.
Lemma mqLoop_same n : forall l, onw l -> XA l (mqListLoop n l) (mqListLoop n (sw l)).
Proof. induction n as [|n IH]; intros; [apply XA_timeout|]. pose proof (mqParts_same n). cbn [mqListLoop]. sim. Qed.
Lemma mq_same n l : onw l -> XA l (parseMediaQueryList n l) (parseMediaQueryList n (sw l)).
Proof. intros. pose proof (mqLoop_same n). unfold parseMediaQueryList. sim. Qed.
Lemma import_same run n l : onw l -> XA l (parseImportAtRule run n l) (parseImportAtRule run n (sw l)).
Proof. intros. pose proof (mq_same n). unfold parseImportAtRule. sim. Qed.
Lemma custom_same run n l : onw l -> XA l (parseCustomMediaAtRule run n l) (parseCustomMediaAtRule run n (sw l)).
Proof. intros. pose proof (mq_same n). pose proof (parseValue_same n). unfold parseCustomMediaAtRule. sim. Qed.
Section Run.
Variable run : nat.
Lemma body_same n l : onw l -> XA l (parseDeclarationBlock n l) (parseDeclarationBlock n (sw l)).
Proof. intros. pose proof (block_same n). unfold parseDeclarationBlock. sim. Qed.
Lemma qrule_same n : forall b st pr l, onw l -> XA l (qruleLoop run n b st pr l) (qruleLoop run n b st pr (sw l)).
Proof. induction n as [|n IH]; intros; [apply XA_timeout|]. pose proof (body_same n). pose proof (parseKey_same n). pose proof (selectors_same n). cbn [qruleLoop]. sim. Qed.
Lemma rules_same n b : forall l, onw l -> XA l (rulesLoop run n b l) (rulesLoop run n b (sw l)).
Proof. induction n as [|n IH]; intros; [apply XA_timeout|]. pose proof (qrule_same n b). cbn [rulesLoop]. unfold parseQualifiedRule. sim. Qed.
Lemma at_same n l : onw l -> XA l (parseAtRule run n l) (parseAtRule run n (sw l)).
Proof.
  intros. pose proof (import_same run n). pose proof (custom_same run n). pose proof (mq_same n). pose proof (rules_same n). pose proof (body_same n).
  unfold parseAtRule, parseMediaAtRule, parseKeyframes, parseGenericAtRule. sim.
Qed.
Lemma loop_same n : forall l, onw l -> XA l (parseLoop run n l) (parseLoop run n (sw l)).
Proof. induction n as [|n IH]; intros; [apply XA_timeout|]. pose proof (at_same n). pose proof (qrule_same n). cbn [parseLoop]. unfold parseQualifiedRule. sim. Qed.
End Run.
End Two.
