(** Property theorems C33-C37, C43, C45: compilations of several files, over all
    schedules of their goroutines. *)
From Verif Require Import Bytes Utf8 Source Lexer Ast Parser Printer Transformer Resolver Compile CompileSpec CompileOne CompileCalm CompileEnd CompileTrap PrinterSpec CompileMany CompileReturns
  Samples TransSamples CompileSamples CompileWitness CompileExamples.

(** ** C33 *)
(** A variable and a custom media query defined in the imported file are not
    applied in the importing one. *)
Theorem C33_imported_definitions_refuted : exists g out rest,
  @reachApart asciiOnly milli (simple [B "/a"]
    [(B "/a", B "@import ""/x"";p{q:var(--v)}@media (--m){r{s:t}}"); (B "/x", B ":root {--v:2px}@custom-media --m (width>=1px);")] inlineOpts)
    (g, Finished [(B "/a", out)]) /\
  out = B "p{q:var(--v)}@media (--m){r{s:t}}" ++ rest.
Proof. exact C33_refuted_lemma. Qed.
Print Assumptions C33_imported_definitions_refuted.

(** ** C34 *)
(** If no chain of imports is infinite and the parser returns on every file
    involved, executions without overlapping addSource calls are bounded.
    Missing for the full claim: files that import each other in circles, and
    overlapping calls; for both it fails (below). *)
Theorem C34_bounded_partial : forall (U : UnicodeDigits) (FO : FloatOps) P,
  (forall f, involved P f -> parserReturns P f) -> (forall f, involved P f -> grounded P f) ->
  exists N, forall k s, runsApart P k start s -> (k <= N)%nat.
Proof. exact @C34_bound. Qed.
Print Assumptions C34_bounded_partial.
Example C34_bounded_sample : forall f, @parserReturns asciiOnly dag f /\ @grounded asciiOnly dag f.
Proof. intros f. split; [apply dag_returns|apply dag_grounded]. Qed.
(** When imports are not inlined, and Parse and Transform return on every file
    involved: whatever the schedule, Compile is at its end after at most [N]
    transitions; before that there is always a next one, and none is a crash.
    Missing: as above. *)
Theorem C34_returns_partial : forall (U : UnicodeDigits) (FO : FloatOps) P, o_imports (p_opts P) <> ImportInline ->
  (forall f, involved P f -> processed P f) -> (forall f, involved P f -> grounded P f) ->
  exists N, forall k s, runsApart P k start s -> (k <= N)%nat /\ ((exists g fs, s = (g, Finished fs)) \/ exists s', apart P s s').
Proof. exact @C34_lemma. Qed.
Print Assumptions C34_returns_partial.
Example C34_returns_sample : o_imports (p_opts manyEntries) <> ImportInline /\
  forall f, @processed asciiOnly milli manyEntries f /\ @grounded asciiOnly manyEntries f.
Proof. exact many_entries_example. Qed.
(** When every entry leads into a circle of imports, Compile never returns,
    under any schedule. *)
Theorem C34_circular_imports_never_return : forall (U : UnicodeDigits) (FO : FloatOps) P (C : bytes -> Prop), trap P C ->
  (forall e, In e (p_entries P) -> exists a, p_abs P e = Some a /\ C a) ->
  forall g fs, p_entries P <> [] -> ~ reach P (g, Finished fs).
Proof. exact @C34_trap_lemma. Qed.
Print Assumptions C34_circular_imports_never_return.
Theorem C34_circular_imports_refuted : exists P C, @trap asciiOnly P C /\ p_entries P <> [] /\
  forall e, In e (p_entries P) -> exists a, p_abs P e = Some a /\ C a.
Proof. exact (ex_intro _ ring (ex_intro _ onRing C34_ring_lemma)). Qed.
Print Assumptions C34_circular_imports_refuted.
(** Without circles: two addSource calls that overlap can make Compile run for
    ever. *)
Theorem C34_overlapping_calls_refuted : exists P,
  (forall f, @involved asciiOnly P f -> @parserReturns asciiOnly P f) /\ (forall f, @involved asciiOnly P f -> @grounded asciiOnly P f) /\
  forall k, exists s, @runs asciiOnly milli P k start s.
Proof. exact C34_race_lemma. Qed.
Print Assumptions C34_overlapping_calls_refuted.

(** ** C35 *)
(** When imports are not inlined: every output has its own path, that of an
    entry or (imports followed) of what an entry leads to, and is the compilation
    of the file at that path, except that the line table the source map is made
    from may be there several times over.  The last entry has an output if its
    file compiles.  Missing: the other entries, and overlapping calls, for which
    the claim fails (below); inlined imports. *)
Theorem C35_outputs_partial : forall (U : UnicodeDigits) (FO : FloatOps) P, o_imports (p_opts P) <> ImportInline ->
  forall g fs, reachApart P (g, Finished fs) ->
  NoDup (map fst fs) /\
  (forall p out, lookup p fs = Some out -> wanted P p /\ exists k, compiledTimes P k p out) /\
  (forall l e a out, p_entries P = l ++ [e] -> p_abs P e = Some a -> compiled P a out -> exists out', lookup a fs = Some out').
Proof. exact @C35_positive_lemma. Qed.
Print Assumptions C35_outputs_partial.
Example C35_outputs_sample : exists g fs, @reachApart asciiOnly milli manyEntries (g, Finished fs) /\ length fs = 3%nat /\
  p_entries manyEntries = [B "/a"] ++ [B "/x"] /\
  exists out, @compiled asciiOnly milli manyEntries (B "/x") out /\ lookup (B "/x") fs = Some out.
Proof. exact C35_example_lemma. Qed.
(** The goroutines of the entries read the loop variable: an entry may be
    compiled twice and another not at all. *)
Theorem C35_loop_variable_refuted : exists P g fs e out, @reachApart asciiOnly milli P (g, Finished fs) /\
  In e (p_entries P) /\ p_abs P e = Some e /\ @compiled asciiOnly milli P e out /\ lookup e fs = None.
Proof. exact C35_loop_lemma. Qed.
Print Assumptions C35_loop_variable_refuted.
(** Two entries that take the same source index: no output at all. *)
Theorem C35_overlapping_calls_refuted : exists P g, @reach asciiOnly milli P (g, Finished []) /\
  (forall e, In e (p_entries P) -> p_abs P e = Some e /\ exists out, @compiled asciiOnly milli P e out) /\ p_entries P <> [].
Proof. exact C35_race_lemma. Qed.
Print Assumptions C35_overlapping_calls_refuted.

(** ** C36 *)
(** With one entry that does not import itself, in any number of steps, the
    result has exactly the output of the entry, if it has one.  Missing for the
    full claim: entries that import themselves, for which it fails (below). *)
Theorem C36_one_result_partial : forall (U : UnicodeDigits) (FO : FloatOps) P e, p_entries P = [e] ->
  o_imports (p_opts P) = ImportPassthrough -> (forall a, p_abs P e = Some a -> ~ leads P a a) ->
  forall g fs, reach P (g, Finished fs) ->
  forall p out, lookup p fs = Some out <-> p_abs P e = Some p /\ compiled P p out.
Proof. exact @C36_lemma. Qed.
Print Assumptions C36_one_result_partial.
Example C36_sample : p_entries dag = [B "/a"] /\ o_imports (p_opts dag) = ImportPassthrough /\
  (forall a, p_abs dag (B "/a") = Some a -> ~ @leads asciiOnly dag a a) /\
  exists out g fs, @compiled asciiOnly milli dag (B "/a") out /\ @reach asciiOnly milli dag (g, Finished fs) /\ lookup (B "/a") fs = Some out.
Proof. exact (conj eq_refl (conj eq_refl (conj (fun a _ => dag_acyclic _ _ a) C36_example_lemma))). Qed.
Theorem C36_self_import_refuted : exists P e g1 fs1 g2 fs2 out1 out2, p_entries P = [e] /\ o_imports (p_opts P) = ImportPassthrough /\
  @reachApart asciiOnly milli P (g1, Finished fs1) /\ @reach asciiOnly milli P (g2, Finished fs2) /\
  lookup e fs1 = Some out1 /\ lookup e fs2 = Some out2 /\ out1 <> out2.
Proof. exact C36_refuted_lemma. Qed.
Print Assumptions C36_self_import_refuted.

(** ** C37 *)
(** As long as calls of addSource do not overlap: an index belongs to one path,
    its source is the file at that path, and both stay.  Missing for the full
    claim: overlapping calls, for which it fails (below). *)
Theorem C37_indices_partial : forall (U : UnicodeDigits) (FO : FloatOps) P g m, reachApart P (g, m) -> m <> Crashed ->
  (forall p q i, lookup p (g_sources g) = Some i -> lookup q (g_sources g) = Some i -> p = q) /\
  (forall p i s, lookup p (g_sources g) = Some i -> ilookup i (g_byIndex g) = Some s ->
     exists src, nth_error (g_srcs g) s = Some src /\ src_path src = p /\ p_read P p = Some (src_content src)) /\
  (forall g' m', apart P (g, m) (g', m') ->
     (forall p i, lookup p (g_sources g) = Some i -> lookup p (g_sources g') = Some i) /\
     (forall i s, ilookup i (g_byIndex g) = Some s -> ilookup i (g_byIndex g') = Some s)).
Proof. exact @C37_lemma. Qed.
Print Assumptions C37_indices_partial.
Example C37_sample : exists g fs, @reachApart asciiOnly milli manyEntries (g, Finished fs) /\
  g_next g = 3%nat /\ length (g_sources g) = 3%nat /\ length fs = 3%nat.
Proof. exact C37_example_lemma. Qed.
Theorem C37_overlapping_calls_refuted : exists P g m p q i, @reach asciiOnly milli P (g, m) /\ p <> q /\
  lookup p (g_sources g) = Some i /\ lookup q (g_sources g) = Some i.
Proof. exact C37_refuted_lemma. Qed.
Print Assumptions C37_overlapping_calls_refuted.

(** ** C43 *)
(** When imports are not inlined, a path that has an output with either of two
    lists of entries has the same CSS text with both; only the source map may
    differ.  Missing: overlapping calls, and inlined imports, for which the claim
    fails (below). *)
Theorem C43_same_text_partial : forall (U : UnicodeDigits) (FO : FloatOps) P entries', o_imports (p_opts P) <> ImportInline ->
  let P' := mkProject entries' (p_abs P) (p_read P) (p_resolve P) (p_opts P) in
  forall g fs g' fs', reachApart P (g, Finished fs) -> reachApart P' (g', Finished fs') ->
  forall p out out', lookup p fs = Some out -> lookup p fs' = Some out' ->
  exists css map map', out = css ++ mapComment map /\ out' = css ++ mapComment map'.
Proof. exact @C43_lemma. Qed.
Print Assumptions C43_same_text_partial.
Example C43_same_text_sample : exists g fs g' fs' out out', @reachApart asciiOnly milli manyEntries (g, Finished fs) /\
  @reachApart asciiOnly milli (mkProject [B "/x"] (p_abs manyEntries) (p_read manyEntries) (p_resolve manyEntries) (p_opts manyEntries)) (g', Finished fs') /\
  lookup (B "/x") fs = Some out /\ lookup (B "/x") fs' = Some out'.
Proof. exact C43_example_lemma. Qed.
(** With inlining, an entry's output depends on which other entries there are:
    the shared imported file is transformed with the other's variables. *)
Theorem C43_entries_independent_refuted : exists entries entries' l o e g1 fs1 g2 fs2 out1 out2,
  In e entries /\ incl entries entries' /\
  @reachApart asciiOnly milli (simple entries l o) (g1, Finished fs1) /\ @reachApart asciiOnly milli (simple entries' l o) (g2, Finished fs2) /\
  lookup e fs1 = Some out1 /\ lookup e fs2 = Some out2 /\ out1 <> out2.
Proof. exact C43_refuted_lemma. Qed.
Print Assumptions C43_entries_independent_refuted.

(** ** C45 *)
(** When imports are not inlined and Parse and Transform return on every file
    involved, no schedule without overlapping addSource calls crashes Compile.
    Missing: overlapping calls, for which the claim fails (below); inlined
    imports, for which see PropInline.v. *)
Theorem C45_no_crash_partial : forall (U : UnicodeDigits) (FO : FloatOps) P, o_imports (p_opts P) <> ImportInline ->
  (forall f, involved P f -> processed P f) -> forall g, ~ reachApart P (g, Crashed).
Proof. exact @C45_lemma. Qed.
Print Assumptions C45_no_crash_partial.
Example C45_no_crash_sample : o_imports (p_opts manyEntries) <> ImportInline /\
  forall f, @processed asciiOnly milli manyEntries f /\ @grounded asciiOnly manyEntries f.
Proof. exact many_entries_example. Qed.
(** The same entry listed twice can crash Compile. *)
Theorem C45_no_crash_refuted : exists P g, @reach asciiOnly milli P (g, Crashed) /\
  forall f, @involved asciiOnly P f -> exists out, @compiled asciiOnly milli P f out.
Proof. exact C45_refuted_lemma. Qed.
Print Assumptions C45_no_crash_refuted.
