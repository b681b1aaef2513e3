(** Property theorems C41 and C46: the esbuild plugin. *)
From Verif Require Import Bytes Utf8 Source Lexer Ast Parser Printer Transformer Resolver Compile CompileSpec Plugin PluginSpec PluginProofs
  Samples TransSamples CompileSamples CompileExamples SpanSpec SpanExamples.

(** ** C41 *)
(** What the messages are, for any list of errors that point into their files
    (below 2 GiB): in order, at least one for each error, with its text; see
    [rendered].  Missing for the full claim ([reportedOnce]): errors of the
    transformer are reported twice, with the offset of their line instead of its
    number; syntax errors have no location. *)
Theorem C41_messages_partial : forall es, Forall wellPointed es ->
  exists mss, toEsbuild es = Some (concat mss) /\ Forall2 rendered es mss.
Proof. exact C41_lemma. Qed.
Print Assumptions C41_messages_partial.
(** An undefined variable in line 3: two messages, the first "in line 14". *)
Theorem C41_once_at_its_line_refuted : exists P path g fs es s sp inner m1 m2 l,
  @reachApart asciiOnly milli P (g, Finished fs) /\ p_entries P = [path] /\ toReports noText g (g_errors g) = Some es /\
  es = [Located s sp inner] /\ pointed s sp /\ toEsbuild es = Some [m1; m2] /\ m_loc m1 = Some l /\ m_loc m2 = None /\ lineOfError s sp = 3 /\ l_line l = 14.
Proof. exact C41_refuted_lemma. Qed.
Print Assumptions C41_once_at_its_line_refuted.
Theorem C41_syntax_error_refuted : exists P path g fs es s sp inner m,
  @reachApart asciiOnly milli P (g, Finished fs) /\ p_entries P = [path] /\ toReports noText g (g_errors g) = Some es /\
  es = [Syntax s sp inner] /\ pointed s sp /\ toEsbuild es = Some [m] /\ m_loc m = None.
Proof. exact C41_syntax_lemma. Qed.
Print Assumptions C41_syntax_error_refuted.

(** ** C46 *)
(** Under every schedule, for a file that does not import itself: the plugin
    answers with the compiled file and there were no errors, or with at least
    one message, or it panics while rendering an error (see C09). *)
Theorem C46_plugin_answer : forall (U : UnicodeDigits) (FO : FloatOps) P text path g fs,
  p_entries P = [path] -> p_abs P path = Some path -> o_imports (p_opts P) = ImportPassthrough -> ~ leads P path path ->
  reach P (g, Finished fs) ->
  match onLoad text path g fs with
  | Some (LoadContents css) => g_errors g = [] /\ compiled P path css
  | Some (LoadErrors ms) => g_errors g <> [] /\ ms <> []
  | Some LoadMissing => False
  | None => exists rs, toReports text g (g_errors g) = Some rs /\ toEsbuild rs = None
  end.
Proof. exact @C46_lemma. Qed.
Print Assumptions C46_plugin_answer.
(** Except when inlining, and with files below 2 GiB, it does not panic. *)
Theorem C46_plugin_does_not_panic : forall (U : UnicodeDigits) (FO : FloatOps) P text path g fs,
  o_imports (p_opts P) <> ImportInline -> reach P (g, Finished fs) -> smallFiles g -> onLoad text path g fs <> None.
Proof. exact @C46_total_lemma. Qed.
Print Assumptions C46_plugin_does_not_panic.
Example C46_panic_sample : o_imports (p_opts varProject) <> ImportInline /\
  exists g fs r, @reach asciiOnly milli varProject (g, Finished fs) /\ smallFiles g /\ g_errors g = [ETransform 0%nat r].
Proof. exact C52_errors_example_lemma. Qed.
Example C46_sample : p_entries dag = [B "/a"] /\ p_abs dag (B "/a") = Some (B "/a") /\ o_imports (p_opts dag) = ImportPassthrough /\ ~ @leads asciiOnly dag (B "/a") (B "/a") /\
  exists g fs css, @reach asciiOnly milli dag (g, Finished fs) /\ onLoad noText (B "/a") g fs = Some (LoadContents css).
Proof. exact (conj eq_refl (conj eq_refl (conj eq_refl (conj (dag_acyclic _ _ _) C46_example_lemma)))). Qed.
