(** The outputs of a compilation are read back: C54. *)
From Verif Require Import Bytes Utf8 Source Lexer Ast BytesFacts Parser Printer Transformer Resolver Strip Compile CompileSpec CompileOne CompileEnd CompileMany
  InlineSpec InlineProofs RoundSpec RoundTrip RoundMap OutputSpec OutputProofs.

Section WithProject.
Context {U : UnicodeDigits} {FO : FloatOps}.
Variable P : project.
Hypothesis D : decimals (p_opts P).

Lemma plain_writable ns : forallb plainSource ns = true -> forallb writable ns = true.
Proof. apply forallb_impl. intros n H. apply andb_true_iff in H. apply H. Qed.
Lemma printed_reads s ns out : forallb plainSource ns = true -> print (Some s) ns = Some out -> readsBack out ns.
Proof.
  intros H E run. destruct (round_trip_map run s ns out (plain_writable ns H) E) as (ss & lines & n0 & R & S1 & _). eauto.
Qed.
Lemma times_reads k f out : plainFile P f -> compiledTimes P k f out -> exists ns, transformed P f ns /\ readsBack out ns.
Proof.
  intros H (content & n & m & ss & lines & ss' & t & R & Hp & T & Pr). exists (ss_nodes ss'). split; [exists content, n, m, ss, lines, ss', t; auto|].
  eapply printed_reads; [|exact Pr]. eapply transform_keeps; [exact D| |eapply H; eauto|exact T]. discriminate.
Qed.
Lemma compiled_reads f out : plainFile P f -> compiled P f out -> exists ns, transformed P f ns /\ readsBack out ns.
Proof.
  intros H (content & n & m & ss & lines & ss' & t & R & Hp & T & Pr). exists (ss_nodes ss'). split; [exists content, n, m, ss, lines, ss', t; auto|].
  eapply printed_reads; [|exact Pr]. eapply transform_keeps; [exact D| |eapply H; eauto|exact T]. discriminate.
Qed.
Lemma inlined_plain : (forall f, involved P f -> plainFile P f) ->
  (forall d f r, inlined P d f r -> involved P f -> forall ns, r = Some ns -> forallb plainSource ns = true) /\
  (forall d f imps m, replaces P d f imps m -> involved P f -> (forall spec at_, In (spec, at_) imps -> imports P f spec) ->
     Forall (fun kv => forallb plainSource (snd kv) = true) m).
Proof.
  intros H. apply inlined_both; try discriminate; try (intros; constructor; fail).
  - intros d f content n ss lines m k ss' t R Hp Rp IH T Hi ns E. injection E as <-.
    eapply transform_keeps; [exact D| |eapply H; eauto|exact T]. intros m' E. injection E as <-. apply IH; auto.
    intros spec at_ I. exists content, d, n, ss, lines. split; auto. split; auto. apply in_map_iff. exists (spec, at_). auto.
  - intros d f spec at_ rel f' nds R A In_ IH Hi Him. constructor; [|constructor]. apply IH; auto.
    eapply involved_edge; eauto. exists spec, rel. split; auto. eapply Him. left. reflexivity.
Qed.
Lemma one_reads e g fs : p_entries P = [e] -> o_imports (p_opts P) = ImportPassthrough -> (forall a, p_abs P e = Some a -> ~ leads P a a) ->
  reach P (g, Finished fs) -> forall p out, lookup p fs = Some out -> plainFile P p -> exists ns, transformed P p ns /\ readsBack out ns.
Proof. intros E O L R p out K H. apply (C36_lemma P e E O L g fs R) in K as [_ K]. apply compiled_reads; auto. Qed.
Lemma many_reads g fs : o_imports (p_opts P) <> ImportInline ->
  reachApart P (g, Finished fs) -> forall p out, lookup p fs = Some out -> plainFile P p -> exists ns, transformed P p ns /\ readsBack out ns.
Proof.
  intros O R p out K H. destruct (C35_positive_lemma P O g fs R) as (_ & X & _). destruct (X p out K) as [_ [k C]]. eapply times_reads; eauto.
Qed.
Lemma inline_reads e g fs : p_entries P = [e] -> o_imports (p_opts P) = ImportInline -> oneImportEach P -> (forall f, involved P f -> plainFile P f) ->
  reach P (g, Finished fs) -> forall p out, lookup p fs = Some out -> exists ns, inlined P 0 p (Some ns) /\ readsBack out ns.
Proof.
  intros E O L H R p out K. apply (C53_lemma P O L e E g fs R) in K as [A (content & n & ss & lines & nds & Rd & Hp & In_ & Pr)].
  exists nds. split; auto. eapply printed_reads; [|exact Pr]. eapply (proj1 (inlined_plain H)); eauto.
  exists e, p. rewrite E. split; [left; reflexivity|auto].
Qed.
End WithProject.
