(** Property theorems C56: what an inlined file contributes. *)
From Verif Require Import Bytes Utf8 Source Lexer Ast Parser Printer PrinterSpec Transformer TransSpec Resolver Compile CompileSpec InlineSpec TwiceSpec TwiceFiles
  Samples TransSamples CompileSamples CompileWitness TwiceExamples.

(** ** C56 *)
(** An imported file is transformed on its own, and its rules are transformed
    again as part of the importing file.  The second time changes nothing if
    the nodes are settled (TwiceSpec.v): no calc() or fallback in a custom
    property or fallback, no var() in calc(), no range in a custom media query.
    [m] are any replacements that leave the remaining @imports alone. *)
Theorem C56_twice_partial : forall (FO : FloatOps) o m n ss ss' t, transform o (Some []) n ss = TOk ss' t -> Forall (settledNode o) (ss_nodes ss) ->
  Forall (fun nd => isImport nd = true -> plookup (nodeId nd) m = None) (ss_nodes ss') -> exists t', transform o (Some m) n ss' = TOk ss' t'.
Proof. exact C56_twice_lemma. Qed.
Print Assumptions C56_twice_partial.
(** In general it does change the rules. *)
Theorem C56_twice_refuted : differ againCalc (B "a{b:calc(1px+2px)}") (B "a{b:3px}") /\
  differ againFallback (B "a{b:calc(1px+1px)}") (B "a{b:2px}") /\
  differ againMedia (B "@media (width<=9px){a{b:c}}") (B "@media (max-width:9px){a{b:c}}").
Proof. exact C56_twice_refuted_lemma. Qed.
Print Assumptions C56_twice_refuted.

(** Outputs of Compile, under all schedules of both runs.  The file [p] begins
    with an @import of [p']; no involved file has another @import, and all are
    settled.  Compiled with [p] as the only entry, the output for [p] is the
    text of the output that [p'] has when it is the only entry, then the text
    of the rest of [p] compiled with nothing imported, then a source map. *)
Theorem C56_compiled_partial : forall (U : UnicodeDigits) (FO : FloatOps) P e e' p p' g fs out g' fs' out',
  o_imports (p_opts P) = ImportInline -> oneImportEach P -> p_entries P = [e] -> p_abs P e = Some p -> p_abs P e' = Some p' ->
  edge P p p' -> settledChain P p ->
  reach P (g, Finished fs) -> lookup p fs = Some out -> reach (entryOnly P e') (g', Finished fs') -> lookup p' fs' = Some out' ->
  exists own css text map map', ownPart P p own /\ print None own = Some text /\ out' = css ++ mapComment map' /\ out = css ++ text ++ mapComment map.
Proof. exact @C56_compiled_lemma. Qed.
Print Assumptions C56_compiled_partial.
Example C56_sample : @settledChain asciiOnly (pair pairX) (B "/a") /\
  (o_imports (p_opts (pair pairX)) = ImportInline /\ @oneImportEach asciiOnly (pair pairX) /\ p_entries (pair pairX) = [B "/a"] /\
   @edge asciiOnly (pair pairX) (B "/a") (B "/x")) /\
  startsAs (pair pairX) (B "/a") (B "@import ""/gone"";p{q:2px;r:3px}a:visited,a:link{b:var(--w)}@media (max-width:9px){s{t:u}}d{e:f}") /\
  startsAs (entryOnly (pair pairX) (B "/x")) (B "/x") (B "@import ""/gone"";p{q:2px;r:3px}a:visited,a:link{b:var(--w)}@media (max-width:9px){s{t:u}}").
Proof. exact C56_sample_lemma. Qed.
(** Without [settledChain] it fails. *)
Theorem C56_compiled_refuted : (o_imports (p_opts (pair againCalc)) = ImportInline /\ @oneImportEach asciiOnly (pair againCalc) /\ p_entries (pair againCalc) = [B "/a"] /\
   @edge asciiOnly (pair againCalc) (B "/a") (B "/x")) /\
  startsAs (pair againCalc) (B "/a") (B "a{b:3px}d{e:f}") /\
  startsAs (entryOnly (pair againCalc) (B "/x")) (B "/x") (B "a{b:calc(1px+2px)}").
Proof. exact C56_inlined_refuted_lemma. Qed.
Print Assumptions C56_compiled_refuted.
