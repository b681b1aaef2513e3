(** What comes later does not change the rules before it. *)
From Verif Require Import Bytes Utf8 Source Lexer BytesFacts LexFacts LexProps Ast Parser ParserSpec ParseMono LaterLex LaterParse LaterSheet LaterSame LaterSpec.

Section WithUnicode.
Context {U : UnicodeDigits}.

Lemma alike_firstn k c c' : alike k c c' -> (k <= length c)%nat /\ (k <= length c')%nat /\ firstn k c = firstn k c'.
Proof.
  intros (a & r & r' & <- & -> & ->). rewrite !app_length. split; [lia|]. split; [lia|]. rewrite !firstn_app, !Nat.sub_diag, !firstn_all. reflexivity.
Qed.
Lemma newLexer_later k c c' l : (k <= length c)%nat -> (k <= length c')%nat -> firstn k c = firstn k c' -> (8 <= k)%nat ->
  newLexer c [] = Ok l -> onw c l /\ (early k l -> newLexer c' [] = Ok (sw c' l)).
Proof.
  intros Hk Hk' Hc H8 E. unfold newLexer in *. pose proof (first_step c) as (C1 & W1 & _).
  assert (O1 : on c (step (zeroLexer c []))) by (split; assumption).
  destruct (next_fwd _ _ _ O1 E) as (A & _). split; [exact A|]. intros L.
  rewrite <- (next_sw k c c' Hk Hk' Hc _ _ O1 E L). f_equal. symmetry. change (zeroLexer c' []) with (sw c' (zeroLexer c [])).
  rewrite <- (step_sw0 k c c' Hk Hk' Hc (zeroLexer c [])); [reflexivity|reflexivity|]. unfold early. cbn. lia.
Qed.
Lemma later_lemma run n n' k c c' ss lines ss' lines' pre nd post : alike k c c' ->
  parse run n c = ParseOk ss lines -> parse run n' c' = ParseOk ss' lines' ->
  ss_nodes ss = pre ++ nd :: post -> wellBefore k nd ->
  exists post', ss_nodes ss' = pre ++ post' /\ (closed nd -> exists post2, post' = nd :: post2).
Proof.
  intros Ha E E' Hn Wb. apply alike_firstn in Ha as (Hk & Hk' & Hc). assert (H8 : (8 <= k)%nat) by (unfold wellBefore in Wb; lia).
  assert (Em : parse run (n + n') c = ParseOk ss lines) by (rewrite (parse_stable run n (n + n')); [exact E|lia|congruence]).
  assert (Em' : parse run (n + n') c' = ParseOk ss' lines') by (rewrite (parse_stable run n' (n + n')); [exact E'|lia|congruence]). clear E E'.
  unfold parse in Em, Em'. destruct (newLexer c []) as [l|? ?|] eqn:L; [|discriminate|discriminate].
  destruct (newLexer_later k c c' l Hk Hk' Hc H8 L) as [W S].
  destruct (parseLoop run (n + n') l) as [[[nds imps] l1]|[? ?|] ?|] eqn:P; try discriminate. injection Em as <- <-. cbn [ss_nodes] in Hn.
  pose proof (loop_end k c c' Hk Hk' Hc run _ _ _ _ _ W P) as Hl. rewrite Hn in Hl. apply Forall_app in Hl as [_ Hl]. inversion Hl as [|? ? H3 _]; subst.
  rewrite (S (near_early k c c' Hk Hk' _ _ W H3 Wb)) in Em'. destruct (parseLoop run (n + n') (sw c' l)) as [[[nds' imps'] l1']|[? ?|] ?|] eqn:P'; try discriminate. injection Em' as <- <-. cbn [ss_nodes].
  exact (loop_later k c c' Hk Hk' Hc run _ _ _ _ _ _ _ _ _ _ _ W P P' eq_refl Wb).
Qed.
Lemma C66_errors_lemma run n n' k c c' ss lines sp msg lines' pre nd post : alike k c c' ->
  parse run n c = ParseOk ss lines -> parse run n' c' = ParseErr sp msg lines' ->
  ss_nodes ss = pre ++ nd :: post -> wellBefore k nd ->
  (sp_start (nodeSpan nd) <= sp_start sp)%nat /\ (closed nd -> (sp_end (nodeSpan nd) <= sp_start sp)%nat).
Proof.
  intros Ha E E' Hn Wb. apply alike_firstn in Ha as (Hk & Hk' & Hc). assert (H8 : (8 <= k)%nat) by (unfold wellBefore in Wb; lia).
  assert (Em : parse run (n + n') c = ParseOk ss lines) by (rewrite (parse_stable run n (n + n')); [exact E|lia|congruence]).
  assert (Em' : parse run (n + n') c' = ParseErr sp msg lines') by (rewrite (parse_stable run n' (n + n')); [exact E'|lia|congruence]). clear E E'.
  unfold parse in Em, Em'. destruct (newLexer c []) as [l|? ?|] eqn:L; [|discriminate|discriminate].
  destruct (newLexer_later k c c' l Hk Hk' Hc H8 L) as [W S].
  destruct (parseLoop run (n + n') l) as [[[nds imps] l1]|[? ?|] ?|] eqn:P; try discriminate. injection Em as <- <-. cbn [ss_nodes] in Hn.
  pose proof (loop_end k c c' Hk Hk' Hc run _ _ _ _ _ W P) as Hl. rewrite Hn in Hl. apply Forall_app in Hl as [_ Hl]. inversion Hl as [|? ? H3 _]; subst.
  rewrite (S (near_early k c c' Hk Hk' _ _ W H3 Wb)) in Em'. destruct (parseLoop run (n + n') (sw c' l)) as [[[nds' imps'] l1']|[? ?|] ?|] eqn:P'; try discriminate. injection Em' as <- <- <-.
  exact (loop_late k c c' Hk Hk' Hc run _ _ _ _ _ _ _ _ _ _ _ W P P' eq_refl Wb).
Qed.
Lemma C67_same_error_lemma run n k c c' sp msg lines : alike k c c' ->
  parse run n c = ParseErr sp msg lines -> (sp_end sp + 16 <= k)%nat -> parse run n c' = ParseErr sp msg lines.
Proof.
  intros Ha E Hs. apply alike_firstn in Ha as (Hk & Hk' & Hc). assert (H8 : (8 <= k)%nat) by lia.
  unfold parse in *. destruct (newLexer c []) as [l|? ?|] eqn:L; [|discriminate|discriminate].
  destruct (newLexer_later k c c' l Hk Hk' Hc H8 L) as [W S].
  destruct (parseLoop run n l) as [[[nds imps] l1]|[sp0 msg0|] ln0|] eqn:P; try discriminate. injection E as -> -> ->.
  destruct (proj2 (loop_same k c c' Hk Hk' Hc run n l W) _ _ _ P) as [Q1 Q2].
  rewrite (S (near_early k c c' Hk Hk' _ _ W Q1 Hs)). rewrite (Q2 Hs). reflexivity.
Qed.
Lemma C67_accepted_lemma run n n' k c c' ss lines sp msg lines' : alike k c c' ->
  parse run n c = ParseOk ss lines -> parse run n' c' = ParseErr sp msg lines' -> (k < sp_end sp + 16)%nat.
Proof.
  intros Ha E E'. destruct (Nat.lt_ge_cases k (sp_end sp + 16)) as [H|H]; [exact H|]. exfalso.
  assert (Ha' : alike k c' c) by (destruct Ha as (a & r & r' & H1 & H2 & H3); exists a, r', r; auto).
  pose proof (C67_same_error_lemma run n' k c' c sp msg lines' Ha' E' H) as E2.
  pose proof (parse_stable run n (n + n') c) as A. pose proof (parse_stable run n' (n + n') c) as D. rewrite E in A. rewrite E2 in D.
  assert (A1 : parse run (n + n') c = ParseOk ss lines) by (apply A; [lia|discriminate]). rewrite A1 in D. assert (X : ParseOk ss lines = ParseErr sp msg lines') by (apply D; [lia|discriminate]). discriminate X.
Qed.
Lemma C66_closed_lemma run n n' k c c' ss lines ss' lines' pre nd post : alike k c c' ->
  parse run n c = ParseOk ss lines -> parse run n' c' = ParseOk ss' lines' ->
  ss_nodes ss = pre ++ nd :: post -> wellBefore k nd -> closed nd ->
  exists post', ss_nodes ss' = pre ++ nd :: post'.
Proof.
  intros Ha E E' Hn Wb Cl. destruct (later_lemma _ _ _ _ _ _ _ _ _ _ _ _ _ Ha E E' Hn Wb) as (post' & -> & H). destruct (H Cl) as (post2 & ->). eauto.
Qed.
Lemma C66_before_lemma run n n' k c c' ss lines ss' lines' pre nd post : alike k c c' ->
  parse run n c = ParseOk ss lines -> parse run n' c' = ParseOk ss' lines' ->
  ss_nodes ss = pre ++ nd :: post -> wellBefore k nd ->
  exists post', ss_nodes ss' = pre ++ post'.
Proof. intros Ha E E' Hn Wb. destruct (later_lemma _ _ _ _ _ _ _ _ _ _ _ _ _ Ha E E' Hn Wb) as (post' & -> & _). eauto. Qed.
End WithUnicode.
