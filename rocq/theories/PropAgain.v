(** Property theorems C57: compiling an output again. *)
From Verif Require Import Bytes Utf8 Source Lexer Ast Parser Printer PrinterSpec Transformer Resolver Compile CompileSpec InlineSpec OutputSpec TwiceSpec AgainSpec AgainProofs
  Samples TransSamples CompileSamples CompileWitness OutputExamples TwiceExamples AgainExamples.

(** ** C57 *)
(** An output without @import, used as the only entry of another project [P']
    with the same options, is compiled to the same text; only the source map
    changes.  The compiled file is plain (C54) and settled (C56).

    One entry that does not import itself, under every schedule of both runs. *)
Theorem C57_one_entry_partial : forall (U : UnicodeDigits) (FO : FloatOps) P P' e' p' out, compiles P P' e' p' out -> decimals (p_opts P) -> importless out ->
  forall e p g fs g' fs', p_entries P = [e] -> o_imports (p_opts P) = ImportPassthrough -> (forall a, p_abs P e = Some a -> ~ leads P a a) -> plainFile P p -> settledRules P p ->
  reach P (g, Finished fs) -> lookup p fs = Some out -> reach P' (g', Finished fs') -> exists out', lookup p' fs' = Some out' /\ sameText out out'.
Proof. exact @C57_one_lemma. Qed.
Print Assumptions C57_one_entry_partial.
Example C57_sample : p_entries calmProject = [B "/a"] /\ o_imports (p_opts calmProject) = ImportPassthrough /\ @decimals milli (p_opts calmProject) /\
  (forall f, ~ @leads asciiOnly calmProject f f /\ @plainFile asciiOnly milli calmProject f /\ @settledRules asciiOnly calmProject f) /\ @importless asciiOnly (outText calmProject) /\
  compiles calmProject calmAgain (B "/b") (B "/b") (outText calmProject) /\
  (exists g, @reach asciiOnly milli calmProject (g, Finished [(B "/a", outText calmProject)])) /\ (exists g, @reach asciiOnly milli calmAgain (g, Finished [(B "/b", outText calmAgain)])) /\
  (exists rest rest', outText calmProject = B "a:visited > b,a:link > b,i{c:2px 6px;d:var(--w)}@media (min-height:5.001px){a{b:c}}" ++ rest /\
    outText calmAgain = B "a:visited > b,a:link > b,i{c:2px 6px;d:var(--w)}@media (min-height:5.001px){a{b:c}}" ++ rest').
Proof. exact C57_sample_lemma. Qed.
(** Several entries, when no two outputs are added at the same time. *)
Theorem C57_entries_partial : forall (U : UnicodeDigits) (FO : FloatOps) P P' e' p' out, compiles P P' e' p' out -> decimals (p_opts P) -> importless out ->
  forall p g fs g' fs', o_imports (p_opts P) = ImportPassthrough -> plainFile P p -> settledRules P p ->
  reachApart P (g, Finished fs) -> lookup p fs = Some out -> reach P' (g', Finished fs') -> exists out', lookup p' fs' = Some out' /\ sameText out out'.
Proof. exact @C57_many_lemma. Qed.
Print Assumptions C57_entries_partial.
(** A chain of imports, inlined completely. *)
Theorem C57_inlined_partial : forall (U : UnicodeDigits) (FO : FloatOps) P P' e' p' out, compiles P P' e' p' out -> decimals (p_opts P) -> importless out ->
  forall e p g fs g' fs', p_entries P = [e] -> o_imports (p_opts P) = ImportInline -> oneImportEach P -> (forall f, involved P f -> plainFile P f) -> settledChain P p ->
  reach P (g, Finished fs) -> lookup p fs = Some out -> reach P' (g', Finished fs') -> exists out', lookup p' fs' = Some out' /\ sameText out out'.
Proof. exact @C57_inline_lemma. Qed.
Print Assumptions C57_inlined_partial.
Example C57_inlined_sample : p_entries (pair pairY) = [B "/a"] /\ o_imports (p_opts (pair pairY)) = ImportInline /\ @oneImportEach asciiOnly (pair pairY) /\ @decimals milli (p_opts (pair pairY)) /\
  (forall f, @plainFile asciiOnly milli (pair pairY) f) /\ @settledChain asciiOnly (pair pairY) (B "/a") /\ @importless asciiOnly (outText (pair pairY)) /\
  compiles (pair pairY) pairAgain (B "/b") (B "/b") (outText (pair pairY)) /\
  (exists g, @reach asciiOnly milli (pair pairY) (g, Finished [(B "/a", outText (pair pairY))])) /\ (exists g, @reach asciiOnly milli pairAgain (g, Finished [(B "/b", outText pairAgain)])) /\
  exists rest, outText (pair pairY) = B "p{q:2px;r:6px}a:visited,a:link{b:var(--w)}@media (max-width:9px){s{t:u}}d{e:f}" ++ rest.
Proof. exact C57_inline_sample_lemma. Qed.
(** Unsettled files have outputs that change when compiled again: a range that
    comes from a custom media query. *)
Theorem C57_unsettled_refuted : exists P P' g out g' out', p_entries P = [B "/a"] /\ o_imports (p_opts P) = ImportPassthrough /\ @decimals milli (p_opts P) /\
  (forall f, ~ @leads asciiOnly P f f /\ @plainFile asciiOnly milli P f) /\ @importless asciiOnly out /\ compiles P P' (B "/b") (B "/b") out /\
  @reach asciiOnly milli P (g, Finished [(B "/a", out)]) /\ @reach asciiOnly milli P' (g', Finished [(B "/b", out')]) /\ ~ sameText out out'.
Proof. exact C57_settled_refuted_lemma. Qed.
Print Assumptions C57_unsettled_refuted.
(** So do files with @import, which is written twice each time. *)
Theorem C57_imports_refuted : exists P P' g out g' out', p_entries P = [B "/a"] /\ o_imports (p_opts P) = ImportPassthrough /\ @decimals milli (p_opts P) /\
  (forall f, ~ @leads asciiOnly P f f /\ @plainFile asciiOnly milli P f /\ @settledRules asciiOnly P f) /\ compiles P P' (B "/b") (B "/b") out /\
  @reach asciiOnly milli P (g, Finished [(B "/a", out)]) /\ @reach asciiOnly milli P' (g', Finished [(B "/b", out')]) /\ ~ sameText out out'.
Proof. exact C57_imports_refuted_lemma. Qed.
Print Assumptions C57_imports_refuted.
(** So do sums that are not computed: they are written without spaces. *)
Theorem C57_sums_refuted : exists P P' g out g' out', p_entries P = [B "/a"] /\ o_imports (p_opts P) = ImportPassthrough /\ @decimals milli (p_opts P) /\
  (forall f, ~ @leads asciiOnly P f f /\ @settledRules asciiOnly P f) /\ @importless asciiOnly out /\ compiles P P' (B "/b") (B "/b") out /\
  @reach asciiOnly milli P (g, Finished [(B "/a", out)]) /\ @reach asciiOnly milli P' (g', Finished [(B "/b", out')]) /\
  (exists rest rest', out = B "a{b:calc(1px-2em*3)}" ++ rest /\ out' = B "a{b:3px-2em}" ++ rest') /\ ~ sameText out out'.
Proof. exact C57_sums_refuted_lemma. Qed.
Print Assumptions C57_sums_refuted.
