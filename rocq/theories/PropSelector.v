(** C62: white space between the parts of a selector. *)
From Verif Require Import Bytes Utf8 Source Lexer LexSpec Ast Walk WalkSpec Parser Printer Samples SelectorSpec SelectorProofs SelectorExamples.

(** Full claim: between neighbouring parts of a selector the file has nothing
    but comments, so that white space, the descendant combinator, is never lost.
    It holds of every accepted file, but not after an attribute selector. *)
Theorem C62_blanks_are_parts_partial : forall (U : UnicodeDigits) run n content ss lines sp ps1 p q ps2, parse run n content = ParseOk ss lines ->
  selectorIn (ss_nodes ss) (sp, ps1 ++ p :: q :: ps2) -> isAttr p = false -> onlyComments (between content p q).
Proof. exact @C62_kept_lemma. Qed.
Print Assumptions C62_blanks_are_parts_partial.
(** And what the tree takes for white space is white space. *)
Theorem C62_parts_are_blanks : forall (U : UnicodeDigits) run n content ss lines sp ps wsp, parse run n content = ParseOk ss lines ->
  selectorIn (ss_nodes ss) (sp, ps) -> In (SWhitespace wsp) ps -> wsRun (sub content (sp_start wsp) (sp_end wsp)).
Proof. exact @C62_text_lemma. Qed.
Print Assumptions C62_parts_are_blanks.
(** After an attribute selector it is always lost. *)
Theorem C62_always_lost_after_brackets : forall (U : UnicodeDigits) run n content ss lines sp ps1 p q ps2, parse run n content = ParseOk ss lines ->
  selectorIn (ss_nodes ss) (sp, ps1 ++ p :: q :: ps2) -> isAttr p = true -> isSpace q = false.
Proof. exact @C62_lost_lemma. Qed.
Print Assumptions C62_always_lost_after_brackets.
(** So a c inside an a[b] becomes a type selector glued to a[b]. *)
Theorem C62_descendant_refuted : let U := asciiOnly in exists ss lines sp p q r, parse 0 200 text62 = ParseOk ss lines /\ selectorIn (ss_nodes ss) (sp, [p; q; r]) /\
  isAttr q = true /\ r = SType (mkSpan 5 6) (B "c") /\ between text62 q r = B " " /\ ~ onlyComments (between text62 q r) /\
  print None (ss_nodes ss) = Some (B "a[b]c{d:e}") /\ exists ss' lines', parse 0 200 (B "a[b]c{d:e}") = ParseOk ss' lines' /\ print None (ss_nodes ss') = Some (B "a[b]c{d:e}").
Proof. exact C62_refuted_lemma. Qed.
Print Assumptions C62_descendant_refuted.
Example C62_sample : let U := asciiOnly in exists ss lines, parse 0 200 inner62 = ParseOk ss lines /\
  selectorIn (ss_nodes ss) (mkSpan 0 13, [SType (mkSpan 0 1) (B "a"); SWhitespace (mkSpan 1 2); SPseudo (mkSpan 2 13) (B "x") (PASel (mkSpan 5 12) [(mkSpan 5 12, deep62)])]) /\
  selectorIn (ss_nodes ss) (mkSpan 5 12, deep62) /\ between inner62 (SType (mkSpan 5 6) (B "b")) (SWhitespace (mkSpan 10 11)) = B "/**/" /\
  print None (ss_nodes ss) = Some (B "a :x(b c){d:e}").
Proof. exact C62_sample_lemma. Qed.
