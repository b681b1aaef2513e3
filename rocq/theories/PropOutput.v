(** Property theorems C54: what Compile writes is a stylesheet again. *)
From Verif Require Import Bytes Utf8 Source Lexer Ast Parser Printer Transformer Resolver Strip Compile CompileSpec InlineSpec RoundSpec OutputSpec OutputRead
  Samples TransSamples CompileSamples CompileWitness CompileExamples InlineExamples OutputExamples.

(** ** C54 *)
(** The files are plain: their stylesheets are ones that can be written
    ([writable], RoundSpec.v) after the sums that calc() computes are replaced,
    and :any-link has no arguments.  The transforms
    that compute, if they are on, write decimal numbers.  Then the text of every
    output, map comment included, parses to the transformed stylesheet, up to
    positions and white space at the end of selectors.

    One entry that does not import itself, under every schedule. *)
Theorem C54_one_entry : forall (U : UnicodeDigits) (FO : FloatOps) P, decimals (p_opts P) -> forall e g fs, p_entries P = [e] ->
  o_imports (p_opts P) = ImportPassthrough -> (forall a, p_abs P e = Some a -> ~ leads P a a) -> reach P (g, Finished fs) ->
  forall p out, lookup p fs = Some out -> plainFile P p -> exists ns, transformed P p ns /\ readsBack out ns.
Proof. exact @one_reads. Qed.
Print Assumptions C54_one_entry.
Example C54_one_sample : p_entries mixedProject = [B "/a"] /\ o_imports (p_opts mixedProject) = ImportPassthrough /\ @decimals milli (p_opts mixedProject) /\
  (forall f, ~ @leads asciiOnly mixedProject f f /\ @plainFile asciiOnly milli mixedProject f) /\
  exists g out rest, @reach asciiOnly milli mixedProject (g, Finished [(B "/a", out)]) /\
    out = B "a:visited > b,a:link > b,i{c:2px 7px;d:""x""}@media (width>30px),(min-height:5.001px){a{b:c}}" ++ rest.
Proof. exact C54_one_example. Qed.
(** Several entries, imports followed or not, when no two outputs are added at
    the same time. *)
Theorem C54_entries : forall (U : UnicodeDigits) (FO : FloatOps) P, decimals (p_opts P) -> forall g fs, o_imports (p_opts P) <> ImportInline ->
  reachApart P (g, Finished fs) ->
  forall p out, lookup p fs = Some out -> plainFile P p -> exists ns, transformed P p ns /\ readsBack out ns.
Proof. exact @many_reads. Qed.
Print Assumptions C54_entries.
Example C54_entries_sample : o_imports (p_opts manyEntries) <> ImportInline /\ @decimals milli (p_opts manyEntries) /\
  (forall f, @plainFile asciiOnly milli manyEntries f) /\ exists g fs, @reachApart asciiOnly milli manyEntries (g, Finished fs) /\ length fs = 3%nat.
Proof. exact C54_many_example. Qed.
(** A chain of imports, inlined, under every schedule. *)
Theorem C54_inlined : forall (U : UnicodeDigits) (FO : FloatOps) P, decimals (p_opts P) -> forall e g fs, p_entries P = [e] ->
  o_imports (p_opts P) = ImportInline -> oneImportEach P -> (forall f, involved P f -> plainFile P f) -> reach P (g, Finished fs) ->
  forall p out, lookup p fs = Some out -> exists ns, inlined P 0 p (Some ns) /\ readsBack out ns.
Proof. exact @inline_reads. Qed.
Print Assumptions C54_inlined.
(** The other hypotheses: C53_sample. *)
Example C54_inlined_sample : @decimals milli (p_opts row) /\ forall f, @plainFile asciiOnly milli row f.
Proof. exact C54_inline_example. Qed.
(** An arithmetic that overflows writes "+Inf", which is not read back as a
    number. *)
Theorem C54_overflow_refuted : exists FO P g out, p_entries P = [B "/a"] /\ o_imports (p_opts P) = ImportPassthrough /\
  (forall f, ~ @leads asciiOnly P f f /\ @plainFile asciiOnly FO P f) /\ @reach asciiOnly FO P (g, Finished [(B "/a", out)]) /\
  forall ns, @transformed asciiOnly FO P (B "/a") ns -> ~ @readsBack asciiOnly out ns.
Proof. exact C54_overflow_lemma. Qed.
Print Assumptions C54_overflow_refuted.
(** :any-link(a)b becomes :linkb. *)
Theorem C54_link_refuted : exists P g out, p_entries P = [B "/a"] /\ o_imports (p_opts P) = ImportPassthrough /\ @decimals milli (p_opts P) /\
  (forall f, ~ @leads asciiOnly P f f) /\
  (exists ss lines, @parse asciiOnly 0 300 linked = ParseOk ss lines /\ p_read P (B "/a") = Some linked /\ forallb writable (ss_nodes ss) = true) /\
  @reach asciiOnly milli P (g, Finished [(B "/a", out)]) /\ forall ns, @transformed asciiOnly milli P (B "/a") ns -> ~ @readsBack asciiOnly out ns.
Proof. exact C54_link_lemma. Qed.
Print Assumptions C54_link_refuted.
(** A sum that defines a variable is written as it is where the variable is
    used. *)
Theorem C54_sum_refuted : exists P g out rest, p_entries P = [B "/a"] /\ o_imports (p_opts P) = ImportPassthrough /\ @decimals milli (p_opts P) /\
  (forall f, ~ @leads asciiOnly P f f) /\ p_read P (B "/a") = Some (B ":root {--v:calc(1px + 2px)}a{b:var(--v);c:calc(1px + 2px)}") /\
  @reach asciiOnly milli P (g, Finished [(B "/a", out)]) /\ out = B "a{b:calc(1px+2px);c:3px}" ++ rest /\
  forall ns, @transformed asciiOnly milli P (B "/a") ns -> ~ @readsBack asciiOnly out ns.
Proof. exact C54_sum_lemma. Qed.
Print Assumptions C54_sum_refuted.
