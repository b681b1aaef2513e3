(** More fuel never changes an outcome that was reached (C12). *)
From Verif Require Import Bytes Utf8 Source Lexer Ast Parser.

Section WithUnicode.
Context {U : UnicodeDigits}.

(** [r1] ran out of fuel, or is the outcome [r2]. *)
Definition lef {A} (r1 r2 : res A) : Prop := r1 = Timeout \/ r1 = r2.

Lemma lef_bind {A C} (m1 m2 : res A) (k1 k2 : A -> res C) :
  lef m1 m2 -> (forall a, lef (k1 a) (k2 a)) -> lef (bind m1 k1) (bind m2 k2).
Proof.
  intros [-> | ->] Hk; [left; reflexivity|].
  destruct m2; cbn [bind]; [apply Hk|right; reflexivity|left; reflexivity].
Qed.
Lemma lef_refl {A} (r : res A) : lef r r.
Proof. right; reflexivity. Qed.
Lemma lef_timeout {A} (r : res A) : lef Timeout r.
Proof. left; reflexivity. Qed.

Ltac mono :=
  repeat (cbv zeta; first
    [ apply lef_refl
    | apply lef_timeout
    | assumption
    | match goal with
      | H : forall _, _ |- lef _ _ => apply H; solve [auto | lia]
      | |- lef (bind _ _) (bind _ _) => apply lef_bind; [|intros]
      | p : (_ * _)%type |- _ => destruct p
      | |- lef (match ?x with _ => _ end) (match ?x with _ => _ end) => destruct x
      end ]).

Lemma value_mono n : forall m, (n <= m)%nat ->
  (forall l, lef (parseValue n l) (parseValue m l)) /\
  (forall l, lef (bracketLoop n l) (bracketLoop m l)) /\
  (forall f l, lef (argsLoop n f l) (argsLoop m f l)) /\
  (forall l, lef (mathSum n l) (mathSum m l)) /\
  (forall v l, lef (mathSumLoop n v l) (mathSumLoop m v l)) /\
  (forall l, lef (mathProduct n l) (mathProduct m l)) /\
  (forall v l, lef (mathProductLoop n v l) (mathProductLoop m v l)) /\
  (forall l, lef (mathParen n l) (mathParen m l)).
Proof.
  induction n as [|n IH]; intros m Hm; [repeat split; intros; apply lef_timeout|].
  destruct m as [|m]; [lia|]. assert (Hn : (n <= m)%nat) by lia.
  destruct (IH m Hn) as (I1 & I2 & I3 & I4 & I5 & I6 & I7 & I8). clear IH.
  repeat split; intros;
    cbn [parseValue bracketLoop argsLoop mathSum mathSumLoop mathProduct mathProductLoop mathParen]; mono.
Qed.

Lemma parseValue_mono n m l : (n <= m)%nat -> lef (parseValue n l) (parseValue m l).
Proof. intros H. apply (value_mono n m H). Qed.

Lemma declLoop_mono n : forall m, (n <= m)%nat -> forall le de imp l, lef (declLoop n le de imp l) (declLoop m le de imp l).
Proof.
  induction n as [|n IH]; intros m Hm le de imp l; [apply lef_timeout|].
  destruct m as [|m]; [lia|]. assert (Hn : (n <= m)%nat) by lia. pose proof (IH m Hn) as I.
  pose proof (fun l => parseValue_mono n m l Hn) as V. clear IH. cbn [declLoop]. mono.
Qed.
Lemma parseDeclaration_mono n m l : (n <= m)%nat -> lef (parseDeclaration n l) (parseDeclaration m l).
Proof. intros H. pose proof (declLoop_mono n m H). unfold parseDeclaration. mono. Qed.
Lemma rawLoop_mono n : forall m, (n <= m)%nat -> forall l, lef (rawLoop n l) (rawLoop m l).
Proof.
  induction n as [|n IH]; intros m Hm l; [apply lef_timeout|].
  destruct m as [|m]; [lia|]. assert (Hn : (n <= m)%nat) by lia. pose proof (IH m Hn) as I. clear IH.
  cbn [rawLoop]. mono.
Qed.
Lemma parseRaw_mono n m l : (n <= m)%nat -> lef (parseRaw n l) (parseRaw m l).
Proof. intros H. pose proof (rawLoop_mono n m H). unfold parseRaw. mono. Qed.
Lemma fallback_mono n m l : (n <= m)%nat ->
  lef (parseDeclarationOrFallback n l) (parseDeclarationOrFallback m l).
Proof.
  intros H. unfold parseDeclarationOrFallback. destruct (parseDeclaration_mono n m l H) as [-> | ->]; [left; reflexivity|].
  destruct (parseDeclaration m l); try apply lef_refl. apply parseRaw_mono; auto.
Qed.
Lemma declBlockLoop_mono n : forall m, (n <= m)%nat -> forall l, lef (declBlockLoop n l) (declBlockLoop m l).
Proof.
  induction n as [|n IH]; intros m Hm l; [apply lef_timeout|].
  destruct m as [|m]; [lia|]. assert (Hn : (n <= m)%nat) by lia. pose proof (IH m Hn) as I. clear IH.
  pose proof (fun l => fallback_mono n m l Hn) as V. cbn [declBlockLoop]. mono.
Qed.
Lemma parseDeclarationBlock_mono n m l : (n <= m)%nat -> lef (parseDeclarationBlock n l) (parseDeclarationBlock m l).
Proof. intros H. pose proof (declBlockLoop_mono n m H). unfold parseDeclarationBlock. mono. Qed.
Lemma keyLoop_mono n : forall m, (n <= m)%nat -> forall l, lef (keyLoop n l) (keyLoop m l).
Proof.
  induction n as [|n IH]; intros m Hm l; [apply lef_timeout|].
  destruct m as [|m]; [lia|]. assert (Hn : (n <= m)%nat) by lia. pose proof (IH m Hn) as I. clear IH.
  cbn [keyLoop]. mono.
Qed.
Lemma parseKey_mono n m l : (n <= m)%nat -> lef (parseKeyframeSelectorList n l) (parseKeyframeSelectorList m l).
Proof. intros H. pose proof (keyLoop_mono n m H). unfold parseKeyframeSelectorList. mono. Qed.
Lemma parseAttr_mono n m l : (n <= m)%nat -> lef (parseAttributeSelector n l) (parseAttributeSelector m l).
Proof.
  intros H. pose proof (fun l => parseValue_mono n m l H). unfold parseAttributeSelector. mono.
Qed.

Lemma sel_mono n : forall m, (n <= m)%nat ->
  (forall l, lef (parseSelectorList n l) (parseSelectorList m l)) /\
  (forall l, lef (selListLoop n l) (selListLoop m l)) /\
  (forall l, lef (parseSelector n l) (parseSelector m l)) /\
  (forall e l, lef (partsLoop n e l) (partsLoop m e l)).
Proof.
  induction n as [|n IH]; intros m Hm; [repeat split; intros; apply lef_timeout|].
  destruct m as [|m]; [lia|]. assert (Hn : (n <= m)%nat) by lia.
  destruct (IH m Hn) as (I1 & I2 & I3 & I4). clear IH.
  pose proof (fun l => parseAttr_mono n m l Hn) as V.
  repeat split; intros; cbn [parseSelectorList selListLoop parseSelector partsLoop]; mono.
Qed.
Lemma parseSelectorList_mono n m l : (n <= m)%nat -> lef (parseSelectorList n l) (parseSelectorList m l).
Proof. intros H. apply (sel_mono n m H). Qed.

Section Run.
Variable run : nat.
Lemma qruleLoop_mono n : forall m, (n <= m)%nat -> forall k s pr l, lef (qruleLoop run n k s pr l) (qruleLoop run m k s pr l).
Proof.
  induction n as [|n IH]; intros m Hm k s pr l; [apply lef_timeout|].
  destruct m as [|m]; [lia|]. assert (Hn : (n <= m)%nat) by lia. pose proof (IH m Hn) as I. clear IH.
  pose proof (fun l => parseSelectorList_mono n m l Hn). pose proof (fun l => parseKey_mono n m l Hn).
  pose proof (fun l => parseDeclarationBlock_mono n m l Hn). cbn [qruleLoop]. mono.
Qed.
Lemma rulesLoop_mono n : forall m, (n <= m)%nat -> forall k l, lef (rulesLoop run n k l) (rulesLoop run m k l).
Proof.
  induction n as [|n IH]; intros m Hm k l; [apply lef_timeout|].
  destruct m as [|m]; [lia|]. assert (Hn : (n <= m)%nat) by lia. pose proof (IH m Hn) as I. clear IH.
  pose proof (qruleLoop_mono n m Hn). cbn [rulesLoop]. unfold parseQualifiedRule. mono.
Qed.
Lemma parseMediaFeature_mono n m l : (n <= m)%nat -> lef (parseMediaFeature n l) (parseMediaFeature m l).
Proof.
  intros H. pose proof (fun l => parseValue_mono n m l H). unfold parseMediaFeature. mono.
Qed.
Lemma mqPartsLoop_mono n : forall m, (n <= m)%nat -> forall l, lef (mqPartsLoop n l) (mqPartsLoop m l).
Proof.
  induction n as [|n IH]; intros m Hm l; [apply lef_timeout|].
  destruct m as [|m]; [lia|]. assert (Hn : (n <= m)%nat) by lia. pose proof (IH m Hn) as I. clear IH.
  pose proof (fun l => parseMediaFeature_mono n m l Hn). cbn [mqPartsLoop]. mono.
Qed.
Lemma mqListLoop_mono n : forall m, (n <= m)%nat -> forall l, lef (mqListLoop n l) (mqListLoop m l).
Proof.
  induction n as [|n IH]; intros m Hm l; [apply lef_timeout|].
  destruct m as [|m]; [lia|]. assert (Hn : (n <= m)%nat) by lia. pose proof (IH m Hn) as I. clear IH.
  pose proof (mqPartsLoop_mono n m Hn). cbn [mqListLoop]. mono.
Qed.
Lemma parseMql_mono n m l : (n <= m)%nat -> lef (parseMediaQueryList n l) (parseMediaQueryList m l).
Proof. intros H. pose proof (mqListLoop_mono n m H). unfold parseMediaQueryList. mono. Qed.

Lemma parseAtRule_mono n m l : (n <= m)%nat -> lef (parseAtRule run n l) (parseAtRule run m l).
Proof.
  intros H. pose proof (fun l => parseMql_mono n m l H). pose proof (rulesLoop_mono n m H).
  pose proof (fun l => parseValue_mono n m l H). pose proof (fun l => parseDeclarationBlock_mono n m l H).
  unfold parseAtRule, parseImportAtRule, parseMediaAtRule, parseKeyframes, parseCustomMediaAtRule, parseGenericAtRule.
  mono.
Qed.
Lemma parseLoop_mono n : forall m, (n <= m)%nat -> forall l, lef (parseLoop run n l) (parseLoop run m l).
Proof.
  induction n as [|n IH]; intros m Hm l; [apply lef_timeout|].
  destruct m as [|m]; [lia|]. assert (Hn : (n <= m)%nat) by lia. pose proof (IH m Hn) as I. clear IH.
  pose proof (qruleLoop_mono n m Hn). pose proof (fun l => parseAtRule_mono n m l Hn).
  cbn [parseLoop]. unfold parseQualifiedRule. mono.
Qed.

Lemma parse_mono n m content : (n <= m)%nat ->
  parse run n content = ParseTimeout \/ parse run n content = parse run m content.
Proof.
  intros H. unfold parse. destruct (newLexer content []) as [l| |]; auto.
  destruct (parseLoop_mono n m H l) as [-> | ->]; auto.
Qed.
Lemma parse_stable n m content : (n <= m)%nat -> parse run n content <> ParseTimeout ->
  parse run m content = parse run n content.
Proof. intros H Hn. destruct (parse_mono n m content H) as [E|E]; congruence. Qed.
Lemma parse_agree n m content : parse run n content <> ParseTimeout -> parse run m content <> ParseTimeout ->
  parse run n content = parse run m content.
Proof.
  intros Hn Hm. destruct (Nat.le_ge_cases n m) as [H|H].
  - symmetry; apply parse_stable; auto.
  - apply parse_stable; auto.
Qed.
End Run.
End WithUnicode.
