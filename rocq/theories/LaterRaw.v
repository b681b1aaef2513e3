(** Declarations that are kept as raw text, in two files with a common
    beginning: the first attempt to read one does not go beyond the bracket that
    closes the declarations. *)
From Verif Require Import Bytes Utf8 Source Lexer BytesFacts LexSpec LexFacts LexNext LexSame Ast Parser ParserSpec ParseMono LaterLex LaterParse LaterErr.

Section Two.
Context {U : UnicodeDigits}.
Variables (k : nat) (c c' : bytes).
Hypothesis Hk : (k <= length c)%nat.
Hypothesis Hk' : (k <= length c')%nat.
Hypothesis Hc : firstn k c = firstn k c'.
Notation sw := (LaterLex.sw c').
Notation early := (LaterLex.early k).
Notation onw := (LaterLex.onw c).
Notation fwd := (LaterLex.fwd c).

Definition nb (l : lexer) : Prop := ~ (l_cur l = Delim /\ l_str l = B "!").
(** The closing bracket follows, well before the files part, and not directly
    after an exclamation mark ([true]: it comes now). *)
Inductive chain : bool -> lexer -> Prop :=
| ch_end l : onw l -> l_cur l = RCurly -> early l -> chain true l
| ch_next b l l1 : onw l -> next l = Ok l1 -> (b = true -> nb l) -> chain b l1 -> chain false l.
Definition Ch (l : lexer) : Prop := exists b, chain b l.
Lemma chain_on b l : chain b l -> onw l /\ early l.
Proof.
  induction 1 as [l W E L|b l l1 W E N H [W1 L1]]; [auto|]. split; [exact W|]. destruct (next_fwd _ _ _ (proj1 W) E) as (_ & P & _). unfold LaterLex.early in *. lia.
Qed.
Definition QL (r r' : res lexer) : Prop := match r with Ok l1 => Ch l1 /\ r' = Ok (sw l1) | Panic p ln => r' = Panic p ln | Timeout => r' = Timeout end.
Definition QA {T} (r r' : res (T * lexer)) : Prop := match r with Ok (x, l1) => Ch l1 /\ r' = Ok (x, sw l1) | Panic p ln => r' = Panic p ln | Timeout => r' = Timeout end.
Definition Q0 {T} (r r' : res T) : Prop := match r with Ok x => r' = Ok x | Panic p ln => r' = Panic p ln | Timeout => r' = Timeout end.
Lemma QA_lex {T} (m m' : res lexer) (f f' : lexer -> res (T * lexer)) : QL m m' -> (forall l1, Ch l1 -> QA (f l1) (f' (sw l1))) -> QA (bind m f) (bind m' f').
Proof. intros H K. destruct m as [l1|p ln|]; cbn in H; [destruct H as [H ->]; exact (K _ H)|subst; reflexivity|subst; reflexivity]. Qed.
Lemma QA_pair {A T} (m m' : res (A * lexer)) (f f' : A * lexer -> res (T * lexer)) : QA m m' -> (forall x l1, Ch l1 -> QA (f (x, l1)) (f' (x, sw l1))) -> QA (bind m f) (bind m' f').
Proof. intros H K. destruct m as [[x l1]|p ln|]; cbn in H; [destruct H as [H ->]; exact (K _ _ H)|subst; reflexivity|subst; reflexivity]. Qed.
Lemma QA_any {A T} (m m' : res A) (f f' : A -> res (T * lexer)) : Q0 m m' -> (forall x, QA (f x) (f' x)) -> QA (bind m f) (bind m' f').
Proof. intros H K. destruct m as [x|p ln|]; cbn in H; subst; cbn; [apply K|reflexivity|reflexivity]. Qed.
Lemma QL_false l : chain false l -> QL (next l) (next (sw l)).
Proof.
  intros H. inversion H as [|b l0 l1 W E N H1]; subst. rewrite E. unfold QL. split; [exists b; exact H1|]. apply (next_sw _ _ _ Hk Hk' Hc _ _ (proj1 W) E). exact (proj2 (chain_on _ _ H1)).
Qed.
Lemma QL_next l : Ch l -> l_cur l <> RCurly -> QL (next l) (next (sw l)).
Proof. intros [[] H] N; [|apply QL_false; exact H]. inversion H; subst. congruence. Qed.
Lemma QL_expect t l : Ch l -> t <> RCurly -> QL (expect t l) (expect t (sw l)).
Proof.
  intros H N. unfold expect. change (l_cur (sw l)) with (l_cur l). destruct (teq (l_cur l) t) eqn:E; cbn [negb]; [|reflexivity]. apply QL_next; [exact H|]. intros X. rewrite X in E. destruct t; try discriminate E. congruence.
Qed.
Lemma QA_bang {T} l (f f' : lexer -> res (T * lexer)) : Ch l -> l_cur l = Delim -> negb (beq (l_str l) (B "!")) = false ->
  (forall l1, chain false l1 -> QA (f l1) (f' (sw l1))) -> QA (bind (next l) f) (bind (next (sw l)) f').
Proof.
  intros H D E K. assert (Nb : ~ nb l). { intros X. apply X. split; [exact D|]. apply negb_false_iff in E. apply beq_eq. exact E. }
  destruct H as [b H]. inversion H as [l0 W C L|b0 l0 l1 W En N H1]; subst; [congruence|]. destruct b0; [destruct (Nb (N eq_refl))|].
  rewrite En. rewrite (next_sw _ _ _ Hk Hk' Hc _ _ (proj1 W) En (proj2 (chain_on _ _ H1))). cbn [bind]. exact (K _ H1).
Qed.
Lemma QA_ok {T} (x : T) l : Ch l -> QA (Ok (x, l)) (Ok (x, sw l)). Proof. cbn. auto. Qed.
Lemma QA_err {T} l s : QA (@errorf (T * lexer) l s) (errorf (sw l) s). Proof. reflexivity. Qed.
Lemma QA_crash {T} l : QA (@crash (T * lexer) l) (crash (sw l)). Proof. reflexivity. Qed.
Lemma QA_timeout {T} : QA (@Timeout (T * lexer)) Timeout. Proof. reflexivity. Qed.
Lemma Q0_join l a b : Q0 (joinSpan l a b) (joinSpan (sw l) a b).
Proof. unfold joinSpan. destruct (valueSpan a), (valueSpan b); reflexivity. Qed.

Lemma cur_sw l : l_cur (sw l) = l_cur l. Proof. reflexivity. Qed.
Lemma str_sw l : l_str (sw l) = l_str l. Proof. reflexivity. Qed.
Lemma num_sw l : l_num (sw l) = l_num l. Proof. reflexivity. Qed.
Lemma span_sw l : tokenSpan (sw l) = tokenSpan l. Proof. reflexivity. Qed.
Lemma end_sw l : tokenEnd (sw l) = tokenEnd l. Proof. reflexivity. Qed.
Lemma delim_sw l x : curDelim (sw l) x = curDelim l x. Proof. reflexivity. Qed.
Ltac sws := rewrite ?cur_sw, ?str_sw, ?num_sw, ?span_sw, ?end_sw, ?delim_sw.
Ltac ands := repeat match goal with |- _ /\ _ => split end.
Ltac ch := solve [assumption].
Lemma teq_ns l t : teq (l_cur l) t = true -> t <> RCurly -> l_cur l <> RCurly.
Proof. intros E N X. rewrite X in E. destruct t; try discriminate E. congruence. Qed.
Lemma delim_ns l x : curDelim l x = true -> l_cur l <> RCurly.
Proof. intros E X. unfold curDelim in E. rewrite X in E. discriminate E. Qed.
Lemma star_ns l x : teq (l_cur l) Delim && x = true -> l_cur l <> RCurly.
Proof. intros E X. rewrite X in E. discriminate E. Qed.
Ltac ns := match goal with
  | E : l_cur ?l = _ |- l_cur ?l <> _ => let X := fresh in intro X; rewrite E in X; discriminate X
  | E : teq (l_cur ?l) _ = true |- l_cur ?l <> _ => apply (teq_ns _ _ E); let X := fresh in intro X; discriminate X
  | E : curDelim ?l _ = true |- l_cur ?l <> _ => exact (delim_ns _ _ E)
  | E : teq (l_cur ?l) Delim && _ = true |- l_cur ?l <> _ => exact (star_ns _ _ E)
  | |- _ <> RCurly => let X := fresh in intro X; discriminate X
  end.
Ltac sim :=
  repeat (cbv zeta; cbn beta iota; sws; first
    [ solve [apply QA_err | apply QA_crash | apply QA_timeout | apply Q0_join | apply QA_ok; ch | apply QL_next; [ch|ns] | apply QL_expect; [ch|ns] | apply QL_false; assumption]
    | match goal with
      | D : l_cur ?l = Delim, E : negb (beq (l_str ?l) (B "!")) = false |- QA (bind (next ?l) _) _ => apply QA_bang; [ch|exact D|exact E|intros]
      | |- QA (bind _ _) _ => first [ apply QA_lex; [|intros] | apply QA_pair; [|intros] | apply QA_any; [|intros] ]
      | H : forall _, _ |- QA _ _ => apply H; solve [ch]
      | p : (_ * _)%type |- _ => destruct p
      | |- QA (match ?x with _ => _ end) _ => destruct x eqn:?
      end ]).
Lemma value_raw n :
  (forall l, Ch l -> QA (parseValue n l) (parseValue n (sw l))) /\
  (forall l, Ch l -> QA (bracketLoop n l) (bracketLoop n (sw l))) /\
  (forall f l, Ch l -> QA (argsLoop n f l) (argsLoop n f (sw l))) /\
  (forall l, Ch l -> QA (mathSum n l) (mathSum n (sw l))) /\
  (forall v l, Ch l -> QA (mathSumLoop n v l) (mathSumLoop n v (sw l))) /\
  (forall l, Ch l -> QA (mathProduct n l) (mathProduct n (sw l))) /\
  (forall v l, Ch l -> QA (mathProductLoop n v l) (mathProductLoop n v (sw l))) /\
  (forall l, Ch l -> QA (mathParen n l) (mathParen n (sw l))).
Proof.
  induction n as [|n (I1 & I2 & I3 & I4 & I5 & I6 & I7 & I8)]; [ands; intros; apply QA_timeout|].
  ands; intros; cbn [parseValue bracketLoop argsLoop mathSum mathSumLoop mathProduct mathProductLoop mathParen]; sim.
Qed.
Lemma declLoop_raw n : forall le de imp l, Ch l -> QA (declLoop n le de imp l) (declLoop n le de imp (sw l)).
Proof. induction n as [|n IH]; intros; [apply QA_timeout|]. destruct (value_raw n) as (V & _). cbn [declLoop]. sim. Qed.
Lemma declaration_raw n l : Ch l -> QA (parseDeclaration n l) (parseDeclaration n (sw l)).
Proof.
  intros H. unfold parseDeclaration. pose proof (declLoop_raw n) as D. sws. destruct (teq (l_cur l) Delim && beq (l_str l) (B "*")) eqn:E; cbn [bind]; sim.
Qed.

(** ** The tokens of declarations that are read *)
(** From one state to a later one, the last step not over an exclamation mark. *)
Inductive walk : lexer -> lexer -> Prop :=
| w_one l l1 : next l = Ok l1 -> nb l -> walk l l1
| w_more l l1 l2 : next l = Ok l1 -> walk l1 l2 -> walk l l2.
Definition wk (l l1 : lexer) : Prop := l1 = l \/ walk l l1.
Lemma walk_trans a b d : walk a b -> walk b d -> walk a d.
Proof. induction 1; intros; [eapply w_more; eassumption|]. eapply w_more; [eassumption|auto]. Qed.
Lemma wk_walk a b d : wk a b -> walk b d -> wk a d.
Proof. intros [->|H] K; right; [exact K|]. eapply walk_trans; eassumption. Qed.
Definition WA {T} (a : lexer) (r : res (T * lexer)) : Prop := forall x l1, r = Ok (x, l1) -> wk a l1.
Definition WL (a : lexer) (r : res lexer) : Prop := forall l1, r = Ok l1 -> wk a l1.
Lemma WA_lex {T} a m (f : lexer -> res (T * lexer)) : WL a m -> (forall l1, wk a l1 -> WA a (f l1)) -> WA a (bind m f).
Proof. intros H K x l1 E. apply bind_inv in E as (l2 & E1 & E). exact (K _ (H _ E1) _ _ E). Qed.
Lemma WA_pair {A T} a (m : res (A * lexer)) (f : A * lexer -> res (T * lexer)) : WA a m -> (forall x l1, wk a l1 -> WA a (f (x, l1))) -> WA a (bind m f).
Proof. intros H K x l1 E. apply bind_inv in E as ([y l2] & E1 & E). exact (K _ _ (H _ _ E1) _ _ E). Qed.
Lemma WA_any {A T} a (m : res A) (f : A -> res (T * lexer)) : (forall x, WA a (f x)) -> WA a (bind m f).
Proof. intros K x l1 E. apply bind_inv in E as (y & E1 & E). exact (K _ _ _ E). Qed.
Lemma WA_bang {T} a l (f : lexer -> res (T * lexer)) : (forall l1, next l = Ok l1 -> WA a (f l1)) -> WA a (bind (next l) f).
Proof. intros K x l1 E. apply bind_inv in E as (l2 & E1 & E). exact (K _ E1 _ _ E). Qed.
Lemma WL_next a l : wk a l -> nb l -> WL a (next l).
Proof. intros H N l1 E. eapply wk_walk; [exact H|]. apply w_one; assumption. Qed.
Lemma WL_two a l l1 : wk a l -> next l = Ok l1 -> nb l1 -> WL a (next l1).
Proof. intros H E N l2 E2. eapply wk_walk; [exact H|]. eapply w_more; [exact E|]. apply w_one; assumption. Qed.
Lemma WL_expect a t l : wk a l -> (teq (l_cur l) t = true -> nb l) -> WL a (expect t l).
Proof. intros H N l1 E. unfold expect in E. destruct (teq (l_cur l) t); cbn [negb] in E; [|discriminate E]. exact (WL_next a l H (N eq_refl) _ E). Qed.
Lemma WA_ok {T} a (x : T) l : wk a l -> WA a (Ok (x, l)). Proof. intros H y l1 E. injection E as _ <-. exact H. Qed.
Lemma WA_err {T} a l s : WA a (@errorf (T * lexer) l s). Proof. intros y l1 E. discriminate E. Qed.
Lemma WA_timeout {T} a : WA a (@Timeout (T * lexer)). Proof. intros y l1 E. discriminate E. Qed.
Lemma nb_cur l t : l_cur l = t -> t <> Delim -> nb l. Proof. intros E N [X _]. congruence. Qed.
Lemma nb_teq l t : teq (l_cur l) t = true -> t <> Delim -> nb l. Proof. intros E N [X _]. rewrite X in E. destruct t; try discriminate E. congruence. Qed.
Lemma nb_ops l x : curDelim l x = true -> bmem (B "!") x = false -> nb l.
Proof. intros E N [_ X]. unfold curDelim in E. rewrite X, N, andb_false_r in E. discriminate E. Qed.
Lemma nb_other l : negb (beq (l_str l) (B "!")) = true -> nb l.
Proof. intros E [_ X]. rewrite X in E. discriminate E. Qed.
Lemma nb_star l : teq (l_cur l) Delim && beq (l_str l) (B "*") = true -> nb l.
Proof. intros E [_ X]. rewrite X, andb_false_r in E. discriminate E. Qed.
Lemma nb_imp l : negb (isImportantString (l_str l)) = false -> nb l.
Proof. intros E [_ X]. rewrite X in E. discriminate E. Qed.
Ltac nbt := match goal with
  | E : negb (isImportantString (l_str ?l)) = false |- nb ?l => exact (nb_imp l E)
  | E : negb (beq (l_str ?l) (B "!")) = true |- nb ?l => exact (nb_other l E)
  | E : curDelim ?l _ = true |- nb ?l => apply (nb_ops l _ E); reflexivity
  | E : teq (l_cur ?l) Delim && _ = true |- nb ?l => exact (nb_star l E)
  | E : l_cur ?l = _ |- nb ?l => apply (nb_cur l _ E); let X := fresh in intro X; discriminate X
  | E : teq (l_cur ?l) _ = true |- nb ?l => apply (nb_teq l _ E); let X := fresh in intro X; discriminate X
  end.
Ltac wsim :=
  repeat (cbv zeta; cbn beta iota; first
    [ solve [apply WA_err | apply WA_timeout | apply WA_ok; assumption | apply WL_next; [assumption|nbt] | apply WL_expect; [assumption|intros; nbt] | eapply WL_two; [eassumption|eassumption|nbt] ]
    | match goal with
      | D : l_cur ?l = Delim, E : negb (beq (l_str ?l) (B "!")) = false |- WA _ (bind (next ?l) _) => apply WA_bang; intros
      | |- WA _ (bind (joinSpan _ _ _) _) => apply WA_any; intros
      | |- WA _ (bind _ _) => first [ apply WA_lex; [|intros] | apply WA_pair; [|intros] ]
      | H : forall _, _ |- WA _ _ => apply H; solve [assumption]
      | p : (_ * _)%type |- _ => destruct p
      | |- WA _ (match ?x with _ => _ end) => destruct x eqn:?
      end ]).
Lemma value_walk n :
  (forall a l, wk a l -> WA a (parseValue n l)) /\
  (forall a l, wk a l -> WA a (bracketLoop n l)) /\
  (forall a f l, wk a l -> WA a (argsLoop n f l)) /\
  (forall a l, wk a l -> WA a (mathSum n l)) /\
  (forall a v l, wk a l -> WA a (mathSumLoop n v l)) /\
  (forall a l, wk a l -> WA a (mathProduct n l)) /\
  (forall a v l, wk a l -> WA a (mathProductLoop n v l)) /\
  (forall a l, wk a l -> WA a (mathParen n l)).
Proof.
  induction n as [|n (I1 & I2 & I3 & I4 & I5 & I6 & I7 & I8)]; [ands; intros; apply WA_timeout|].
  ands; intros; cbn [parseValue bracketLoop argsLoop mathSum mathSumLoop mathProduct mathProductLoop mathParen]; wsim.
Qed.
Lemma declLoop_walk n : forall a le de imp l, wk a l -> WA a (declLoop n le de imp l).
Proof. induction n as [|n IH]; intros; [apply WA_timeout|]. destruct (value_walk n) as (V & _). cbn [declLoop]. wsim. Qed.
Lemma declaration_walk n l : WA l (parseDeclaration n l).
Proof.
  unfold parseDeclaration. pose proof (declLoop_walk n) as D. assert (H0 : wk l l) by (left; reflexivity). destruct (teq (l_cur l) Delim && beq (l_str l) (B "*")) eqn:E; wsim.
Qed.

(** ** The closing bracket of declarations that are read *)
Lemma walk_chain b l l1 : walk l l1 -> onw l -> chain b l1 -> chain false l.
Proof.
  induction 1 as [l l1 E N|l l1 l2 E H IH]; intros W C; [eapply ch_next; [exact W|exact E|intros _; exact N|exact C]|].
  destruct (next_fwd _ _ _ (proj1 W) E) as (W1 & _). eapply (ch_next false); [exact W|exact E|discriminate|exact (IH W1 C)].
Qed.
Lemma chain_lines b l : chain b l -> forall ls, chain b (setLines l ls).
Proof.
  induction 1 as [l W E L|b l l1 W E N H IH]; intros ls; [apply ch_end; assumption|]. pose proof (next_same l (setLines l ls) (same_lines _ _)) as S. rewrite E in S.
  destruct (next (setLines l ls)) as [l2|? ?|] eqn:E2; try contradiction. destruct S as [ls2 ->]. eapply ch_next; [exact W|exact E2|exact N|apply IH].
Qed.
Lemma rawLoop_chain n : forall l ls, onw l -> rawLoop n l = Ok ls -> (l_cur ls = Semicolon -> chain false ls) -> chain false l.
Proof.
  induction n as [|n IH]; intros l ls W E C; [discriminate|]. cbn [rawLoop] in E. destruct (teq (l_cur l) Semicolon) eqn:T.
  { injection E as <-. apply C. destruct (l_cur l); try discriminate T; reflexivity. }
  apply bind_inv in E as (l1 & E1 & E). destruct (next_fwd _ _ _ (proj1 W) E1) as (W1 & _). eapply (ch_next false); [exact W|exact E1|discriminate|exact (IH _ _ W1 E C)].
Qed.
Lemma rawLoop_sw n : forall l ls, onw l -> rawLoop n l = Ok ls -> fwd l ls /\ (early ls -> rawLoop n (sw l) = Ok (sw ls)).
Proof.
  induction n as [|n IH]; intros l ls W E; [discriminate|]. cbn [rawLoop] in *. change (l_cur (sw l)) with (l_cur l). destruct (teq _ _); [injection E as <-; split; [apply fwd_refl; exact W|reflexivity]|].
  apply bind_inv in E as (l1 & E1 & E). destruct (RL_next _ _ _ Hk Hk' Hc l l (fwd_refl _ _ W) _ E1) as [F1 S1]. destruct (IH _ _ (proj1 F1) E) as [F2 S2]. split; [eapply fwd_trans; [apply F1|exact F1|exact F2]|].
  intros L. rewrite (S1 (fwd_early _ _ _ _ F2 L)). cbn [bind]. auto.
Qed.
Lemma fallback_chain n l d l1 b : onw l -> parseDeclarationOrFallback n l = Ok (d, l1) -> chain b l1 -> Ch l.
Proof.
  intros W E C. unfold parseDeclarationOrFallback in E. destruct (parseDeclaration n l) as [[d0 l2]|p lines|] eqn:P; [| |discriminate E].
  { injection E as <- <-. destruct (declaration_walk n l _ _ P) as [->|H]; [exists b; exact C|]. exists false. exact (walk_chain _ _ _ H W C). }
  unfold parseRaw in E. cbv zeta in E. apply bind_inv in E as (l2 & E2 & E). apply bind_inv in E as (l3 & E3 & E). apply bind_inv in E as (s & E4 & E). injection E as <- <-.
  assert (W0 : onw (setLines l lines)) by exact W. destruct (rawLoop_sw _ _ _ W0 E2) as [F2 _]. exists false.
  assert (Cn : chain false (setLines l lines)). { apply (rawLoop_chain n _ _ W0 E2). intros Sm. eapply ch_next; [exact (proj1 F2)|exact E3|intros _; apply (nb_cur _ _ Sm); discriminate|exact C]. }
  apply (chain_lines _ _) with (ls := l_lines l) in Cn. replace (setLines (setLines l lines) (l_lines l)) with l in Cn by (destruct l; reflexivity). exact Cn.
Qed.
Lemma fallback_raw n l d l1 : onw l -> parseDeclarationOrFallback n l = Ok (d, l1) -> fwd l l1 /\ (Ch l -> early l1 -> parseDeclarationOrFallback n (sw l) = Ok (d, sw l1)).
Proof.
  intros W E. unfold parseDeclarationOrFallback in *. destruct (parseDeclaration n l) as [[d0 l2]|p lines|] eqn:P; [| |discriminate E].
  { injection E as <- <-. destruct (parseDeclaration_later _ _ _ Hk Hk' Hc n l W _ _ P) as [F S]. split; [exact F|]. intros _ L. rewrite (S L). reflexivity. }
  unfold parseRaw in E. cbv zeta in E. apply bind_inv in E as (l2 & E2 & E). apply bind_inv in E as (l3 & E3 & E). apply bind_inv in E as (s & E4 & E). injection E as <- <-.
  assert (W0 : onw (setLines l lines)) by exact W. destruct (rawLoop_sw _ _ _ W0 E2) as [F2 S2]. change (fwd l l2) in F2.
  destruct (RL_next _ _ _ Hk Hk' Hc l2 l2 (fwd_refl _ _ (proj1 F2)) _ E3) as [F3 S3]. split; [eapply fwd_trans; [apply F2|exact F2|exact F3]|].
  intros Cn L. pose proof (fwd_early _ _ _ _ F3 L) as L2.
  pose proof (declaration_raw n l Cn) as Q. rewrite P in Q. unfold QA in Q. rewrite Q. unfold parseRaw. cbv zeta. change (setLines (sw l) lines) with (sw (setLines l lines)).
  rewrite (S2 L2). cbn [bind]. rewrite (S3 L). cbn [bind]. change (tokenSpan (sw (setLines l lines))) with (tokenSpan (setLines l lines)). change (tokenEnd (sw l2)) with (tokenEnd l2).
  rewrite (slice_sw k c c' Hk Hk' Hc l3 _ _ s (proj1 (proj1 F3)) L); [reflexivity| |exact E4].
  unfold tokenEnd. pose proof (fwd_last _ _ _ (proj1 F3) F3). destruct (proj1 F3) as [[_ W3] _]. assert (l_lastPos l3 <= l_pos l3)%nat by (destruct W3 as (_ & _ & ->); lia). lia.
Qed.
Lemma block_chain n : forall l ds e l1, onw l -> declBlockLoop n l = Ok (ds, e, l1) -> (forall cl, onw cl -> l_lastPos cl = e -> next cl = Ok l1 -> early cl) -> Ch l.
Proof.
  induction n as [|n IH]; intros l ds e l1 W E L; [discriminate|]. cbn [declBlockLoop] in E. destruct (teq (l_cur l) RCurly) eqn:T.
  { cbv zeta in E. apply bind_inv in E as (l2 & E2 & E). injection E as <- <- <-. exists true. apply ch_end; [exact W|destruct (l_cur l); try discriminate T; reflexivity|]. apply L; [exact W|reflexivity|exact E2]. }
  apply bind_inv in E as ([d la] & E1 & E). apply bind_inv in E as (l2 & E2 & E). apply bind_inv in E as ([[ds2 e2] l3] & E3 & E). injection E as <- <- <-.
  destruct (fallback_raw n l d la W E1) as [Fa _]. pose proof (proj1 Fa) as Wa.
  assert (K : exists b, chain b la).
  { destruct (teq (l_cur la) Semicolon) eqn:Sm.
    - destruct (next_fwd _ _ _ (proj1 Wa) E2) as (W2 & _). destruct (IH _ _ _ _ W2 E3 L) as [b C]. exists false. eapply ch_next; [exact Wa|exact E2|intros _; apply (nb_teq _ _ Sm); discriminate|exact C].
    - injection E2 as <-. exact (IH _ _ _ _ Wa E3 L). }
  destruct K as [b C]. exact (fallback_chain n l d la b W E1 C).
Qed.
End Two.
