(** Property theorems C58: reports about variables. *)
From Verif Require Import Bytes Utf8 Source Lexer Ast Parser ParserSpec Transformer TransSpec DiagSpec DiagProofs DiagExamples Samples TransSamples.

(** ** C58 *)
(** Full claim: Transform reports exactly the references to variables that are
    not defined and have no fallback, and the calls of var() without a name.
    It is false; the refutations below name the uses that are missed and those
    that are reported although nothing is wrong.

    What is reported is [complaints] (DiagSpec.v): in the order of the file, the
    references that are a whole component of a value or an operand of calc(),
    against the definitions so far.  No other report is about variables. *)
Theorem C58_reports_partial : forall (U : UnicodeDigits) (FO : FloatOps) run k content ss lines o n ss' t, o_props o = true ->
  parse run k content = ParseOk ss lines -> ~ Exists blocked (ss_nodes ss) -> Forall plainSelectors (ss_nodes ss) ->
  transform o None n ss = TOk ss' t -> filter aboutVars (t_reports t) = complaints (o_calc o) [] (ss_nodes ss).
Proof. exact @C58_file_lemma. Qed.
Print Assumptions C58_reports_partial.
Example C58_sample : exists ss lines, @parse asciiOnly 0 100 uses = ParseOk ss lines /\ ~ Exists blocked (ss_nodes ss) /\ Forall plainSelectors (ss_nodes ss) /\
  exists ss' t, @transform milli allOpts None 100 ss = TOk ss' t /\ map rp_msg (complaints true [] (ss_nodes ss)) = [undefinedMsg (B "--y"); noArgMsg; undefinedMsg (B "--w"); noNameMsg].
Proof. exact C58_sample_lemma. Qed.
(** When nothing is computed and nothing inlined these are all the reports. *)
Theorem C58_no_other_reports_partial : forall (U : UnicodeDigits) (FO : FloatOps) run k content ss lines o n ss' t, o_props o = true ->
  o_calc o = false -> o_ranges o = false -> o_imports o <> ImportInline ->
  parse run k content = ParseOk ss lines -> ~ Exists blocked (ss_nodes ss) -> Forall plainSelectors (ss_nodes ss) ->
  transform o None n ss = TOk ss' t -> t_reports t = complaints false [] (ss_nodes ss).
Proof. exact @C58_file_only_lemma. Qed.
Print Assumptions C58_no_other_reports_partial.
Example C58_only_sample : exists ss lines, @parse asciiOnly 0 100 uses = ParseOk ss lines /\
  exists ss' t, @transform milli propsOnly None 100 ss = TOk ss' t /\ map rp_msg (t_reports t) = [undefinedMsg (B "--y"); noArgMsg; noNameMsg].
Proof. exact C58_only_sample_lemma. Qed.
(** When imports are inlined, the references and definitions are those of the
    stylesheet with the imported nodes in the place of the @import rules. *)
Theorem C58_inlined_partial : forall (FO : FloatOps) o, o_props o = true -> forall m n ss ss' t, transform o (Some m) n ss = TOk ss' t ->
  exists flat, flattens (fun p => plookup p m) (ss_nodes ss) flat /\
    (sheetOk flat -> Forall plainSelectors flat -> filter aboutVars (t_reports t) = complaints (o_calc o) [] flat).
Proof. exact @C58_inlined_lemma. Qed.
Print Assumptions C58_inlined_partial.
Example C58_inlined_sample : exists i a, sheetOf (B "@import 'x';a{b:var(--y) var(--z)}") = [NAt i; a] /\
  let flat := sheetOf (B ":root {--y:2px}p{b:var(--z)}") ++ [a] in
  flattens (fun p => plookup p [(atRuleId i, sheetOf (B ":root {--y:2px}p{b:var(--z)}"))]) [NAt i; a] flat /\ Forall plainSelectors flat /\ length (complaints true [] flat) = 2%nat.
Proof. exact C58_inlined_sample_lemma. Qed.
(** Missed: a reference inside another function, ... *)
Theorem C58_nested_refuted : @says milli allOpts (B "a{b:foo(var(--u))}") = Some [].
Proof. exact eq_refl. Qed.
Print Assumptions C58_nested_refuted.
(** ... in a rule inside @media, ... *)
Theorem C58_media_refuted : @says milli allOpts (B "@media print{a{b:var(--u)}}") = Some [].
Proof. exact eq_refl. Qed.
Print Assumptions C58_media_refuted.
(** ... in a fallback that is used, ... *)
Theorem C58_fallback_refuted : @says milli allOpts (B "a{b:var(--u,var(--w))}") = Some [].
Proof. exact eq_refl. Qed.
Print Assumptions C58_fallback_refuted.
(** ... in a definition that is used. *)
Theorem C58_definition_refuted : @says milli allOpts (B ":root {--x:var(--u)}a{b:var(--x)}") = Some [].
Proof. exact eq_refl. Qed.
Print Assumptions C58_definition_refuted.
(** Reported in vain: the definition comes later, ... *)
Theorem C58_defined_later_refuted : option_map (map rp_msg) (@says milli allOpts (B "a{b:var(--x)}:root {--x:1px}")) = Some [undefinedMsg (B "--x")].
Proof. exact eq_refl. Qed.
Print Assumptions C58_defined_later_refuted.
(** ... is in a rule written ":root{", ... *)
Theorem C58_root_without_space_refuted : option_map (map rp_msg) (@says milli allOpts (B ":root{--x:1px}a{b:var(--x)}")) = Some [undefinedMsg (B "--x")].
Proof. exact eq_refl. Qed.
Print Assumptions C58_root_without_space_refuted.
(** ... or is in the same rule, ... *)
Theorem C58_local_refuted : option_map (map rp_msg) (@says milli allOpts (B "a{--u:1px;b:var(--u)}")) = Some [undefinedMsg (B "--u")].
Proof. exact eq_refl. Qed.
Print Assumptions C58_local_refuted.
(** ... or the fallback is empty. *)
Theorem C58_empty_fallback_refuted : option_map (map rp_msg) (@says milli allOpts (B "a{b:var(--u,)}")) = Some [undefinedMsg (B "--u")].
Proof. exact eq_refl. Qed.
Print Assumptions C58_empty_fallback_refuted.
