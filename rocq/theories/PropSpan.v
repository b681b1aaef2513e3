(** Property theorems C51 and C52: positions in trees and in errors. *)
From Verif Require Import Bytes Utf8 Source Lexer Ast Walk WalkSpec SpanSpec SpanExamples SpanProofs Parser Printer Transformer Resolver Compile CompileSpec Plugin PluginSpec PluginProofs
  Samples TransSamples CompileSamples.

(** ** C51 *)
(** Every node of a parsed tree lies in the file, its parts lie inside it, one
    after the other, and so do the top-level nodes in the file; [placed] names
    the three exceptions. *)
Theorem C51_nodes_are_placed : forall (U : UnicodeDigits) run n content ss lines,
  parse run n content = ParseOk ss lines -> placedTree content (ss_nodes ss).
Proof. exact @C51_tree_lemma. Qed.
Print Assumptions C51_nodes_are_placed.
Example C51_sample : exists ss lines vs, @parse asciiOnly 0 200 (B "a,b{c:url(x) f(1;}@media (1px<width<2px){}") = ParseOk ss lines /\
  preorder kids (NdSheet (ss_nodes ss)) vs /\ length (spansOf vs) = 20%nat.
Proof. exact C51_tree_example_lemma. Qed.

(** ** C52 *)
(** Every report of Transform is at a node of the tree it was given, or at the
    zero span, which new nodes have. *)
Theorem C52_reports_are_at_nodes : forall (FO : FloatOps) o n ss ss' t vs r,
  preorder kids (NdSheet (ss_nodes ss)) vs -> transform o None n ss = TOk ss' t -> In r (t_reports t) ->
  rp_sp r = mkSpan 0 0 \/ exists m, In m vs /\ locate m = Some (rp_sp r).
Proof. exact @C52_reports_lemma. Qed.
Print Assumptions C52_reports_are_at_nodes.
Example C52_reports_sample : exists ss lines vs ss' t r, @parse asciiOnly 0 200 varContent = ParseOk ss lines /\ preorder kids (NdSheet (ss_nodes ss)) vs /\
  @transform milli allOpts None 100 ss = TOk ss' t /\ t_reports t = [r] /\ rp_sp r = mkSpan 18 26.
Proof. exact C52_reports_example_lemma. Qed.

(** Full claim: in every state of every execution, every error points into the
    file it names,
      forall P g ms, reach P (g, ms) -> Forall (pointsIn g) (g_errors g).
    Missing: projects that inline imports, for which it is false. *)
Theorem C52_errors_point_into_file_partial : forall (U : UnicodeDigits) (FO : FloatOps) P g ms,
  o_imports (p_opts P) <> ImportInline -> reach P (g, ms) -> Forall (pointsIn g) (g_errors g).
Proof. exact @C52_errors_lemma. Qed.
Print Assumptions C52_errors_point_into_file_partial.
(** So rendering an error never panics. *)
Theorem C52_errors_render_partial : forall (U : UnicodeDigits) (FO : FloatOps) P text g ms e,
  o_imports (p_opts P) <> ImportInline -> reach P (g, ms) -> smallFiles g -> In e (g_errors g) ->
  exists r msg, toReport text g e = Some r /\ errorText r = Some msg.
Proof. exact @C52_rendered_lemma. Qed.
Print Assumptions C52_errors_render_partial.
Example C52_errors_sample : o_imports (p_opts varProject) <> ImportInline /\
  exists g fs r, @reach asciiOnly milli varProject (g, Finished fs) /\ smallFiles g /\ g_errors g = [ETransform 0%nat r].
Proof. exact C52_errors_example_lemma. Qed.

(** What remains with inlining: the span is one of some file that was read. *)
Theorem C52_errors_point_somewhere : forall (U : UnicodeDigits) (FO : FloatOps) P g ms,
  reach P (g, ms) -> Forall (pointsSomewhere g) (g_errors g).
Proof. exact @C52_somewhere_lemma. Qed.
Print Assumptions C52_errors_point_somewhere.
(** A file that inlines a longer one, in which a variable is undefined: the
    second report names the importing file with the position in the imported
    one; rendering it panics, in Compile's reporter as in the plugin. *)
Theorem C52_inlined_refuted : exists P g fs e r,
  @reachApart asciiOnly milli P (g, Finished fs) /\ smallFiles g /\ In e (g_errors g) /\ ~ pointsIn g e /\ toReport noText g e = Some r /\ errorText r = None /\
  forall path, onLoad noText path g fs = None.
Proof. exact C52_inline_refuted_lemma. Qed.
Print Assumptions C52_inlined_refuted.
