(** Property theorems C53, C33 (second part), C34 and C45 (inlined): imports inlined, over all schedules. *)
From Verif Require Import Bytes Utf8 Source Lexer Ast Parser Printer Transformer Resolver Compile CompileSpec InlineSpec InlineProofs InlineReturns TransDefs
  Samples TransSamples CompileSamples CompileWitness InlineExamples.

(** ** C53 *)
(** One entry, imports inlined, no file with two @imports or leading back to
    itself: whatever the schedule, the entry's output is the printing of its
    rules with its @import replaced by the result for the imported file, and
    there is no other output.  An @import whose file cannot be resolved, read or
    parsed stays. *)
Theorem C53_inlined_chain : forall (U : UnicodeDigits) (FO : FloatOps) P e, o_imports (p_opts P) = ImportInline -> oneImportEach P ->
  p_entries P = [e] -> forall g fs, reach P (g, Finished fs) ->
  forall p out, lookup p fs = Some out <-> p_abs P e = Some p /\ compiledInline P p out.
Proof. exact (fun U FO P e H1 H2 H3 => C53_lemma P H1 H2 e H3). Qed.
Print Assumptions C53_inlined_chain.
(** What a file comes to is determined. *)
Theorem C53_inlined_unique : forall (U : UnicodeDigits) (FO : FloatOps) P d f r r', inlined P d f r -> inlined P d f r' -> r = r'.
Proof. exact @inlined_unique. Qed.
Print Assumptions C53_inlined_unique.
(** Such a compilation ends under every schedule if the parser returns on
    every file involved and no chain of imports is infinite. *)
Theorem C53_chain_ends : forall (U : UnicodeDigits) (FO : FloatOps) P e, o_imports (p_opts P) = ImportInline -> oneImportEach P ->
  p_entries P = [e] -> (forall f, involved P f -> parserReturns P f) -> (forall f, involved P f -> grounded P f) ->
  exists N, forall k s, runs P k start s -> (k <= N)%nat.
Proof. exact (fun U FO P e H1 H2 H3 => C53_bound P H1 H2 e H3). Qed.
Print Assumptions C53_chain_ends.
Example C53_sample : p_entries row = [B "/a"] /\ o_imports (p_opts row) = ImportInline /\ @oneImportEach asciiOnly row /\
  exists g out rest, @reach asciiOnly milli row (g, Finished [(B "/a", out)]) /\
    out = B "a{b:c}@import ""/gone"";x{y:z}p{q:2px}d{e:var(--v)}" ++ rest.
Proof. exact C53_example_lemma. Qed.
Example C53_ends_sample : forall f, @parserReturns asciiOnly row f /\ @grounded asciiOnly row f.
Proof. exact (fun f => conj (row_returns f) (row_grounded f)). Qed.

(** ** C34, C45 *)
(** One entry, imports inlined.  If the entry file comes to anything ([inlined];
    this includes that it cannot be read or parsed), then under every schedule
    Compile does not crash, and it ends with [Finished] after at most [N]
    transitions: a state that is not the end always has a next transition.
    Missing: several entries; files with two @imports. *)
Theorem C45_inlined_chain_partial : forall (U : UnicodeDigits) (FO : FloatOps) P e, o_imports (p_opts P) = ImportInline ->
  p_entries P = [e] -> (forall p, p_abs P e = Some p -> exists r, inlined P 0 p r) -> forall g, ~ reach P (g, Crashed).
Proof. exact @result_no_crash. Qed.
Print Assumptions C45_inlined_chain_partial.
Theorem C34_inlined_chain_partial : forall (U : UnicodeDigits) (FO : FloatOps) P e, o_imports (p_opts P) = ImportInline ->
  p_entries P = [e] -> (forall p, p_abs P e = Some p -> exists r, inlined P 0 p r) ->
  exists N, forall k s, runs P k start s -> (k <= N)%nat /\ ((exists g fs, s = (g, Finished fs)) \/ exists s', step P s s').
Proof. exact @result_returns. Qed.
Print Assumptions C34_inlined_chain_partial.
(** If it comes to nothing, because the parser or the transform would not
    return or would crash, or its imports go on for ever, Compile returns under
    no schedule. *)
Theorem C34_no_result : forall (U : UnicodeDigits) (FO : FloatOps) P e p, o_imports (p_opts P) = ImportInline -> oneImportEach P ->
  p_entries P = [e] -> p_abs P e = Some p -> ~ (exists r, inlined P 0 p r) -> forall g fs, ~ reach P (g, Finished fs).
Proof. exact (fun U FO P e p H1 H2 => no_result P e p H1 H2). Qed.
Print Assumptions C34_no_result.
Example C34_inlined_sample : p_entries row = [B "/a"] /\ o_imports (p_opts row) = ImportInline /\
  forall p, p_abs row (B "/a") = Some p -> exists nds, @inlined asciiOnly milli row 0 p (Some nds).
Proof. exact row_result_lemma. Qed.
Example C34_no_result_sample : p_entries brokenRow = [B "/a"] /\ o_imports (p_opts brokenRow) = ImportInline /\ @oneImportEach asciiOnly brokenRow /\
  ~ exists r, @inlined asciiOnly milli brokenRow 0 (B "/a") r.
Proof. exact broken_result_lemma. Qed.

(** ** C33 *)
(** Definitions in an imported file never reach the importing one.  The rules a
    file itself comes to ([ownRule], without @imports) do not depend on what the
    imported file contains, or on whether it exists. *)
Theorem C33_own_rules : forall (U : UnicodeDigits) (FO : FloatOps) P P' d f ns ns', p_opts P = p_opts P' -> p_read P f = p_read P' f ->
  inlined P d f (Some ns) -> inlined P' d f (Some ns') -> filter (ownRule d) ns = filter (ownRule d) ns'.
Proof. exact C33_own_lemma. Qed.
Print Assumptions C33_own_rules.
(** So for the outputs of Compile, under every schedule. *)
Theorem C33_never_reach : forall (U : UnicodeDigits) (FO : FloatOps) P P' e p g g' fs fs' out out',
  o_imports (p_opts P) = ImportInline -> p_opts P' = p_opts P ->
  oneImportEach P -> oneImportEach P' -> p_entries P = [e] -> p_entries P' = [e] -> p_read P p = p_read P' p ->
  reach P (g, Finished fs) -> reach P' (g', Finished fs') -> lookup p fs = Some out -> lookup p fs' = Some out' ->
  exists src ns ns', print src ns = Some out /\ print src ns' = Some out' /\ filter (ownRule 0) ns = filter (ownRule 0) ns'.
Proof. exact C33_never_lemma. Qed.
Print Assumptions C33_never_reach.
(** With C53_sample: the imported file defines --v, or is missing. *)
Example C33_never_sample : p_opts lone = p_opts row /\ p_entries lone = p_entries row /\ @oneImportEach asciiOnly lone /\
  p_read lone (B "/a") = p_read row (B "/a") /\
  exists g out rest, @reach asciiOnly milli lone (g, Finished [(B "/a", out)]) /\ out = B "a{b:c}@import ""/x"";d{e:var(--v)}" ++ rest.
Proof. exact C33_example_lemma. Qed.
