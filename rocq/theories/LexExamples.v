(** Concrete files for the theorems about the lexical grammar. *)
From Verif Require Import Bytes Utf8 Source Lexer BytesFacts LexSpec LexFacts LexNext LexProps LexGrammar LexCut LexFun LexReads Samples.
From Verif Require Import ReadSpec FullExamples LexStreamSpec LexStream.

Section Pay.
Context {U : UnicodeDigits}.
Ltac singleOut := match goal with H : opens _ (FSingle _) |- _ => inversion H; subst end;
  match goal with H : In _ singles |- _ => cbn in H; repeat destruct H as [H|H]; try contradiction; inversion H; subst end.
Lemma both_payload t r p str num s n o : lexed t r Dimension p -> str = strAfter p (heard o s) -> num = numAfter p n ->
  p = PlBoth num str.
Proof.
  intros H. remember Dimension as k eqn:E. destruct H; try discriminate E; intros -> ->; auto. singleOut; discriminate.
Qed.
Lemma str_payload t r k p str s o : lexed t r k p -> str = strAfter p (heard o s) ->
  In k [Comment; TString; At; Hash; Ident; FunctionStart; URL; Delim] -> p = PlStr str.
Proof.
  intros H C E. destruct H; cbn in C; try (rewrite C; reflexivity); exfalso; cbn in E;
    try singleOut; repeat destruct E as [E|E]; try discriminate E; try contradiction.
Qed.
Lemma none_payload t r k p : lexed t r k p -> In k [EOF; Whitespace; Semicolon; CDC; CDO] -> p = PlNone.
Proof.
  intros H E. destruct H; auto; exfalso; cbn in E; repeat destruct E as [E|E]; try discriminate E; contradiction.
Qed.
End Pay.

Definition view (r : res lexer) : option (token * bytes * bytes * nat * nat) :=
  match r with Ok l => Some (l_cur l, l_str l, l_num l, l_start l, l_lastPos l) | _ => None end.
Lemma view_ok r k s n a b : view r = Some (k, s, n, a, b) ->
  exists l, r = Ok l /\ l_cur l = k /\ l_str l = s /\ l_num l = n /\ l_start l = a /\ l_lastPos l = b.
Proof. destruct r as [l| |]; intros H; try discriminate H. injection H as <- <- <- <- <-. exists l. auto 10. Qed.
Definition after (ws com : bool) (r : res lexer) : res lexer :=
  match r with Ok l => @next asciiOnly (withFlags l ws com) | Panic e ln => Panic e ln | Timeout => Timeout end.

(** A comment, a number with a sign, a fraction, an exponent and a unit with an
    escape; then an unquoted url. *)
Definition lexFile : bytes := B "/* */ -1.5e+3p\78 x url( a\29 b )".
Lemma lexFile_first : exists l, @newLexer asciiOnly lexFile [] = Ok l /\ l_cur l = Dimension /\ l_str l = B "p\78 x" /\
  l_num l = B "-1.5e+3" /\ l_start l = 6%nat /\ l_lastPos l = 19%nat.
Proof. apply view_ok. vm_compute. reflexivity. Qed.
Lemma C50_dimension_lemma : let U := asciiOnly in
  exists o, tokenAt lexFile false false 0 Dimension (PlBoth (B "-1.5e+3") (B "p\78 x")) 6 19 o.
Proof.
  cbv zeta. pose proof (@C50_first_lemma asciiOnly lexFile) as H.
  destruct lexFile_first as (l & E & E1 & E2 & E3 & E4 & E5). rewrite E in H. destruct H as (p & o & H & C1 & C2).
  rewrite E1, E4, E5 in H. rewrite E2 in C1. rewrite E3 in C2. exists o.
  assert (p = PlBoth (B "-1.5e+3") (B "p\78 x")) as <-; [|exact H].
  destruct H as (g & t & r & _ & _ & HL & _). eapply both_payload; eauto.
Qed.
Lemma lexFile_url : exists l, after false false (@newLexer asciiOnly lexFile []) = Ok l /\ l_cur l = URL /\ l_str l = B "a\29 b " /\
  l_num l = B "-1.5e+3" /\ l_start l = 20%nat /\ l_lastPos l = 33%nat.
Proof. apply view_ok. vm_compute. reflexivity. Qed.
Lemma lexFile_ws : exists l, after true false (@newLexer asciiOnly lexFile []) = Ok l /\ l_cur l = Whitespace /\ l_str l = B "p\78 x" /\
  l_num l = B "-1.5e+3" /\ l_start l = 19%nat /\ l_lastPos l = 20%nat.
Proof. apply view_ok. vm_compute. reflexivity. Qed.
Lemma C50_session_lemma : let U := asciiOnly in
  exists l o o', session lexFile l /\ l_lastPos l = 19%nat /\
    tokenAt lexFile false false (l_lastPos l) URL (PlStr (B "a\29 b ")) 20 33 o /\
    tokenAt lexFile true false (l_lastPos l) Whitespace PlNone 19 20 o'.
Proof.
  cbv zeta. destruct lexFile_first as (l & E & _ & _ & _ & _ & E0).
  destruct lexFile_url as (l' & E' & A1 & A2 & _ & A3 & A4).
  destruct lexFile_ws as (l'' & E'' & B1 & _ & _ & B2 & B3).
  rewrite E in E', E''. cbn [after] in E', E''.
  pose proof (sNew (U := asciiOnly) lexFile l E) as S1.
  pose proof (@C50_next_lemma asciiOnly lexFile l false false S1) as H. rewrite E' in H. destruct H as (p & o & H & C & _).
  rewrite A1, A3, A4 in H. rewrite A2 in C.
  pose proof (@C50_next_lemma asciiOnly lexFile l true false S1) as H'. rewrite E'' in H'. destruct H' as (p' & o' & H' & _ & _).
  rewrite B1, B2, B3 in H'.
  exists l, o, o'. split; auto. split; auto. split.
  - assert (p = PlStr (B "a\29 b ")) as <-; [|exact H].
    destruct H as (g & t & r & _ & _ & HL & _). eapply str_payload; eauto. cbn. tauto.
  - assert (p' = PlNone) as <-; [|exact H'].
    destruct H' as (g & t & r & _ & _ & HL & _). eapply none_payload; eauto. cbn. tauto.
Qed.
(** A url broken off by a parenthesis. *)
Lemma C50_broken_lemma : let U := asciiOnly in
  errorAt (B " url(a(b)") false false 0 (B "unexpected token: (") 1 6.
Proof.
  cbv zeta. pose proof (@C50_first_lemma asciiOnly (B " url(a(b)")) as H.
  assert (E : match @newLexer asciiOnly (B " url(a(b)") [] with Panic (PLex sp m) _ => Some (sp, m) | _ => None end =
    Some (mkSpan 1 6, B "unexpected token: (")) by (vm_compute; reflexivity).
  destruct (@newLexer asciiOnly (B " url(a(b)") []) as [|[sp m|] ln|]; try discriminate E. injection E as -> ->.
  destruct H as (m & b & e & X & H). inversion X; subst. exact H.
Qed.
(** The file of C49, from its bytes. *)
Lemma C50_sample_lemma : @readsBytesPlainly asciiOnly 0 text49 tree49.
Proof.
  destruct C49_sample_lemma as (ts & T & G). exists ts. split; auto. apply C50_tokens_lemma. exact T.
Qed.
