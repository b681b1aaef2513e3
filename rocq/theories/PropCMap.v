(** Property theorems C64: the source maps that Compile writes. *)
From Verif Require Import Bytes Utf8 Source SourceSpec LexSpec Lexer Ast Parser ParserSpec Printer PrinterSpec Transformer TransSpec Resolver Compile CompileSpec
  Samples TransSamples CompileSamples CompileWitness CMapSpec CMapProofs CMapExamples.

(** One entry that does not import itself; imports are not inlined.  Under every
    schedule the output ends with a source map that has one entry for each rule
    of the output, in order, and each leads to the line and column at which a
    rule of the file starts: the rules of the file in their order, with some left
    out and with every @import at most twice.  Missing: files with a declaration
    kept as raw text and inlined imports, for both of which it fails (below). *)
Theorem C64_map_leads_to_file_partial : forall (U : UnicodeDigits) (FO : FloatOps) P e, p_entries P = [e] ->
  o_imports (p_opts P) = ImportPassthrough -> (forall a, p_abs P e = Some a -> ~ leads P a a) ->
  forall g fs p out, reach P (g, Finished fs) -> lookup p fs = Some out -> textOk out ->
  forall content n ss lines, p_read P p = Some content -> parse 0 n content = ParseOk ss lines ->
  Forall noRawNode (ss_nodes ss) -> Z.of_nat (length content) < 1073741823 ->
  exists nds, mapped p content nds out /\ sub (map snd (starts [] nds)) (flat_map places (twiceImports (ss_nodes ss))).
Proof. exact @C64_lemma. Qed.
Print Assumptions C64_map_leads_to_file_partial.
Example C64_sample : p_entries mapProject = [B "/a"] /\ o_imports (p_opts mapProject) = ImportPassthrough /\
  (forall a, p_abs mapProject (B "/a") = Some a -> ~ @leads asciiOnly mapProject a a) /\
  exists g fs out ss lines, @reach asciiOnly milli mapProject (g, Finished fs) /\ lookup (B "/a") fs = Some out /\ textOk out /\
    p_read mapProject (B "/a") = Some mapFile /\ @parse asciiOnly 0 200 mapFile = ParseOk ss lines /\ Forall noRawNode (ss_nodes ss) /\
    map (fun sp => position mapFile (sp_start sp)) (flat_map places (twiceImports (ss_nodes ss))) = [(2, 1); (3, 1); (3, 31); (4, 2); (4, 9); (6, 1)] /\
    exists rest, out = B "@media (width>1px){a{b:c}i{}}x{y:1px}" ++ rest.
Proof. exact C64_example_lemma. Qed.
(** A broken declaration over two lines: the rule after it, on line 3, is said to
    be on line 4, which the file does not have. *)
Theorem C64_raw_declaration_refuted : exists g out css mappings ms m ss lines, @reach asciiOnly milli brokenMap (g, Finished [(B "/a", out)]) /\
  @parse asciiOnly 0 200 brokenFile = ParseOk ss lines /\
  out = css ++ mapComment (base64Std (mappingJson (mkSource (B "/a") brokenFile lines) mappings)) /\
  readMappings mappings = Some ms /\ In m ms /\ astray brokenFile (ss_nodes ss) m.
Proof. exact C64_broken_lemma. Qed.
Print Assumptions C64_raw_declaration_refuted.
(** An inlined rule: the map has only the importing file, and leads into the
    middle of its @import. *)
Theorem C64_inlined_refuted : exists g out css mappings ms m ss lines, @reach asciiOnly milli inlineMap (g, Finished [(B "/a", out)]) /\
  @parse asciiOnly 0 200 mapIn = ParseOk ss lines /\ Forall noRawNode (ss_nodes ss) /\
  out = css ++ mapComment (base64Std (mappingJson (mkSource (B "/a") mapIn lines) mappings)) /\
  readMappings mappings = Some ms /\ In m ms /\ astray mapIn (ss_nodes ss) m.
Proof. exact C64_inlined_lemma. Qed.
Print Assumptions C64_inlined_refuted.
