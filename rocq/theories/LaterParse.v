(** Two files with a common beginning: what the parser has read well inside of
    it, it reads in both. *)
From Verif Require Import Bytes Utf8 Source Lexer BytesFacts LexSpec LexFacts LexNext Ast Parser ParserSpec ParseMono LaterLex.

Section Two.
Context {U : UnicodeDigits}.
Variables (k : nat) (c c' : bytes).
Hypothesis Hk : (k <= length c)%nat.
Hypothesis Hk' : (k <= length c')%nat.
Hypothesis Hc : firstn k c = firstn k c'.
Notation sw := (LaterLex.sw c').
Notation early := (LaterLex.early k).
Notation onw := (LaterLex.onw c).
Notation fwd := (LaterLex.fwd c).

Definition R0 {T} (r r' : res T) : Prop := forall x, r = Ok x -> r' = Ok x.
Definition RL (l : lexer) (r r' : res lexer) : Prop := forall l1, r = Ok l1 -> fwd l l1 /\ (early l1 -> r' = Ok (sw l1)).
Definition RA {T} (l : lexer) (r r' : res (T * lexer)) : Prop := forall x l1, r = Ok (x, l1) -> fwd l l1 /\ (early l1 -> r' = Ok (x, sw l1)).

Lemma bind_inv {A D} (m : res A) (f : A -> res D) x : bind m f = Ok x -> exists a, m = Ok a /\ f a = Ok x.
Proof. destruct m; cbn; try discriminate. eauto. Qed.
Lemma RA_pair {A D} l (m m' : res (A * lexer)) (f f' : A * lexer -> res (D * lexer)) :
  RA l m m' -> (forall x l1, onw l1 -> RA l1 (f (x, l1)) (f' (x, sw l1))) -> RA l (bind m f) (bind m' f').
Proof.
  intros H K y l2 E. apply bind_inv in E as ([x l1] & E1 & E). destruct (H _ _ E1) as [F1 S1]. destruct (K x l1 (proj1 F1) _ _ E) as [F2 S2].
  split; [eapply fwd_trans; [apply F1|exact F1|exact F2]|]. intros L. rewrite (S1 (fwd_early _ _ _ _ F2 L)). cbn [bind]. auto.
Qed.
Lemma RA_lex {D} l (m m' : res lexer) (f f' : lexer -> res (D * lexer)) :
  RL l m m' -> (forall l1, onw l1 -> RA l1 (f l1) (f' (sw l1))) -> RA l (bind m f) (bind m' f').
Proof.
  intros H K y l2 E. apply bind_inv in E as (l1 & E1 & E). destruct (H _ E1) as [F1 S1]. destruct (K l1 (proj1 F1) _ _ E) as [F2 S2].
  split; [eapply fwd_trans; [apply F1|exact F1|exact F2]|]. intros L. rewrite (S1 (fwd_early _ _ _ _ F2 L)). cbn [bind]. auto.
Qed.
Lemma RA_any {A D} l (m m' : res A) (f f' : A -> res (D * lexer)) : R0 m m' -> (forall x, RA l (f x) (f' x)) -> RA l (bind m f) (bind m' f').
Proof. intros H K y l2 E. apply bind_inv in E as (x & E1 & E). rewrite (H _ E1). cbn [bind]. exact (K x _ _ E). Qed.
Lemma RL_lex l (m m' : res lexer) (f f' : lexer -> res lexer) :
  RL l m m' -> (forall l1, onw l1 -> RL l1 (f l1) (f' (sw l1))) -> RL l (bind m f) (bind m' f').
Proof.
  intros H K l2 E. apply bind_inv in E as (l1 & E1 & E). destruct (H _ E1) as [F1 S1]. destruct (K l1 (proj1 F1) _ E) as [F2 S2].
  split; [eapply fwd_trans; [apply F1|exact F1|exact F2]|]. intros L. rewrite (S1 (fwd_early _ _ _ _ F2 L)). cbn [bind]. auto.
Qed.
Lemma RA_from {T} l l0 (r r' : res (T * lexer)) : onw l0 -> fwd l l0 -> RA l0 r r' -> RA l r r'.
Proof. intros W F H x l1 E. destruct (H _ _ E) as [F1 S1]. split; [eapply fwd_trans; eauto|exact S1]. Qed.
Lemma RA_ok {T} (x : T) l l1 : fwd l l1 -> RA l (Ok (x, l1)) (Ok (x, sw l1)).
Proof. intros F y l2 E. injection E as <- <-. auto. Qed.
Lemma RL_ok l l1 : fwd l l1 -> RL l (Ok l1) (Ok (sw l1)).
Proof. intros F l2 E. injection E as <-. auto. Qed.
Lemma RA_err {T} l l0 s (r' : res (T * lexer)) : RA l (errorf l0 s) r'. Proof. intros ? ? E; discriminate E. Qed.
Lemma RA_crash {T} l l0 (r' : res (T * lexer)) : RA l (crash l0) r'. Proof. intros ? ? E; discriminate E. Qed.
Lemma RA_timeout {T} l (r' : res (T * lexer)) : RA l Timeout r'. Proof. intros ? ? E; discriminate E. Qed.
Lemma R0_ok {T} (x : T) : R0 (Ok x) (Ok x). Proof. intros ? E; exact E. Qed.
Lemma R0_err {T} l s (r' : res T) : R0 (errorf l s) r'. Proof. intros ? E; discriminate E. Qed.
Lemma R0_join l a b : R0 (joinSpan l a b) (joinSpan (sw l) a b).
Proof. unfold joinSpan. destruct (valueSpan a), (valueSpan b); intros x E; try discriminate E; exact E. Qed.
Lemma RL_next l0 l : fwd l0 l -> RL l0 (next l) (next (sw l)).
Proof.
  intros F l1 E. pose proof (proj1 F) as W. enough (G : fwd l l1 /\ (early l1 -> next (sw l) = Ok (sw l1))) by (split; [eapply fwd_trans; [exact W|exact F|apply G]|apply G]). clear F. destruct (next_fwd _ _ _ (proj1 W) E) as (A & D & F). split; [split; [exact A|]; split; [exact D|right; exact F]|].
  apply (next_sw _ _ _ Hk Hk' Hc _ _ (proj1 W) E).
Qed.
Lemma RL_expect t l0 l : fwd l0 l -> RL l0 (expect t l) (expect t (sw l)).
Proof. intros W. unfold expect. change (l_cur (sw l)) with (l_cur l). destruct (negb _); [intros ? E; discriminate E|apply RL_next; exact W]. Qed.
Lemma onw_rws l b : onw l -> onw (setRws l b). Proof. exact (fun H => H). Qed.
Lemma fwd_rws a l b : fwd a l -> fwd a (setRws l b). Proof. exact (fun H => H). Qed.

Lemma cur_sw l : l_cur (sw l) = l_cur l. Proof. reflexivity. Qed.
Lemma str_sw l : l_str (sw l) = l_str l. Proof. reflexivity. Qed.
Lemma num_sw l : l_num (sw l) = l_num l. Proof. reflexivity. Qed.
Lemma rws_sw l : l_rws (sw l) = l_rws l. Proof. reflexivity. Qed.
Lemma span_sw l : tokenSpan (sw l) = tokenSpan l. Proof. reflexivity. Qed.
Lemma end_sw l : tokenEnd (sw l) = tokenEnd l. Proof. reflexivity. Qed.
Lemma delim_sw l x : curDelim (sw l) x = curDelim l x. Proof. reflexivity. Qed.
Lemma setRws_sw l x : setRws (sw l) x = LaterLex.sw c' (setRws l x). Proof. reflexivity. Qed.

Ltac ands := repeat match goal with |- _ /\ _ => split end.
Ltac sws := rewrite ?setRws_sw, ?cur_sw, ?str_sw, ?num_sw, ?rws_sw, ?span_sw, ?end_sw, ?delim_sw.
Ltac fw := repeat first [assumption | apply onw_rws | apply fwd_rws | apply fwd_refl].
Ltac sim :=
  repeat (cbv zeta; cbn beta iota; sws; first
    [ solve [apply RA_err | apply RA_crash | apply RA_timeout | apply R0_ok | apply R0_err | apply R0_join
            | apply RA_ok; fw | apply RL_ok; fw | apply RL_next; fw | apply RL_expect; fw]
    | match goal with
      | |- RA _ (bind _ _) _ => first [ apply RA_lex; [|intros] | apply RA_pair; [|intros] | apply RA_any; [|intros] ]
      | H : forall _, _ |- RA _ _ _ => eapply RA_from; [| |apply H; solve [fw]]; solve [fw]
      | |- RA _ (bind _ _) _ => first [ apply RA_lex; [|intros] | apply RA_pair; [|intros] | apply RA_any; [|intros] ]
      | |- RL _ (bind _ _) _ => apply RL_lex; [|intros]
      | p : (_ * _)%type |- _ => destruct p
      | |- RA _ (match ?x with _ => _ end) _ => destruct x
      | |- RL _ (match ?x with _ => _ end) _ => destruct x
      | |- R0 (match ?x with _ => _ end) _ => destruct x
      end ]).

Lemma value_later n :
  (forall l, onw l -> RA l (parseValue n l) (parseValue n (sw l))) /\
  (forall l, onw l -> RA l (bracketLoop n l) (bracketLoop n (sw l))) /\
  (forall f l, onw l -> RA l (argsLoop n f l) (argsLoop n f (sw l))) /\
  (forall l, onw l -> RA l (mathSum n l) (mathSum n (sw l))) /\
  (forall v l, onw l -> RA l (mathSumLoop n v l) (mathSumLoop n v (sw l))) /\
  (forall l, onw l -> RA l (mathProduct n l) (mathProduct n (sw l))) /\
  (forall v l, onw l -> RA l (mathProductLoop n v l) (mathProductLoop n v (sw l))) /\
  (forall l, onw l -> RA l (mathParen n l) (mathParen n (sw l))).
Proof.
  induction n as [|n (I1 & I2 & I3 & I4 & I5 & I6 & I7 & I8)]; [ands; intros; apply RA_timeout|].
  ands; intros;
    cbn [parseValue bracketLoop argsLoop mathSum mathSumLoop mathProduct mathProductLoop mathParen]; sim.
Qed.
Lemma parseValue_later n l : onw l -> RA l (parseValue n l) (parseValue n (sw l)). Proof. apply (value_later n). Qed.
Lemma declLoop_later n : forall le de imp l, onw l -> RA l (declLoop n le de imp l) (declLoop n le de imp (sw l)).
Proof. induction n as [|n IH]; intros; [apply RA_timeout|]. pose proof (parseValue_later n). cbn [declLoop]. sim. Qed.
Lemma parseDeclaration_later n l : onw l -> RA l (parseDeclaration n l) (parseDeclaration n (sw l)).
Proof. intros. pose proof (declLoop_later n). unfold parseDeclaration. sim. Qed.
Lemma keyLoop_later n : forall l, onw l -> RA l (keyLoop n l) (keyLoop n (sw l)).
Proof. induction n as [|n IH]; intros; [apply RA_timeout|]. cbn [keyLoop]. sim. Qed.
Lemma parseKey_later n l : onw l -> RA l (parseKeyframeSelectorList n l) (parseKeyframeSelectorList n (sw l)).
Proof. intros. pose proof (keyLoop_later n). unfold parseKeyframeSelectorList. sim. Qed.
Lemma parseAttr_later n l : onw l -> RA l (parseAttributeSelector n l) (parseAttributeSelector n (sw l)).
Proof. intros. pose proof (parseValue_later n). unfold parseAttributeSelector. sim. Qed.
Lemma anb_later l : onw l -> RA l (parseANPlusB l) (parseANPlusB (sw l)).
Proof. intros. unfold parseANPlusB. sim. Qed.
Lemma sel_later n :
  (forall l, onw l -> RA l (parseSelectorList n l) (parseSelectorList n (sw l))) /\
  (forall l, onw l -> RA l (selListLoop n l) (selListLoop n (sw l))) /\
  (forall l, onw l -> RA l (parseSelector n l) (parseSelector n (sw l))) /\
  (forall e l, onw l -> RA l (partsLoop n e l) (partsLoop n e (sw l))).
Proof.
  induction n as [|n (I1 & I2 & I3 & I4)]; [ands; intros; apply RA_timeout|]. pose proof (parseAttr_later n). pose proof anb_later.
  ands; intros; cbn [parseSelectorList selListLoop parseSelector partsLoop]; sim.
Qed.
Lemma selectors_later n l : onw l -> RA l (parseSelectorList n l) (parseSelectorList n (sw l)). Proof. apply (sel_later n). Qed.
Lemma range_later l : onw l -> RA l (parseMediaRangeOperator l) (parseMediaRangeOperator (sw l)).
Proof. intros. unfold parseMediaRangeOperator. sim. Qed.
Lemma feature_later n l : onw l -> RA l (parseMediaFeature n l) (parseMediaFeature n (sw l)).
Proof. intros. pose proof (parseValue_later n). pose proof range_later. unfold parseMediaFeature. sim. Qed.
Lemma mqParts_later n : forall l, onw l -> RA l (mqPartsLoop n l) (mqPartsLoop n (sw l)).
Proof. induction n as [|n IH]; intros; [apply RA_timeout|]. pose proof (feature_later n). cbn [mqPartsLoop]. sim. Qed.
Lemma mqLoop_later n : forall l, onw l -> RA l (mqListLoop n l) (mqListLoop n (sw l)).
Proof. induction n as [|n IH]; intros; [apply RA_timeout|]. pose proof (mqParts_later n). cbn [mqListLoop]. sim. Qed.
Lemma mq_later n l : onw l -> RA l (parseMediaQueryList n l) (parseMediaQueryList n (sw l)).
Proof. intros. pose proof (mqLoop_later n). unfold parseMediaQueryList. sim. Qed.
Lemma import_later run n l : onw l -> RA l (parseImportAtRule run n l) (parseImportAtRule run n (sw l)).
Proof. intros. pose proof (mq_later n). unfold parseImportAtRule. sim. Qed.
Lemma custom_later run n l : onw l -> RA l (parseCustomMediaAtRule run n l) (parseCustomMediaAtRule run n (sw l)).
Proof. intros. pose proof (mq_later n). pose proof (parseValue_later n). unfold parseCustomMediaAtRule. sim. Qed.
End Two.
