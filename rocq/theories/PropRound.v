(** C16 and C17: what is printed is parsed back. *)
From Verif Require Import Bytes Utf8 Source Ast Lexer Parser Printer Strip Samples ParseWitness RoundSpec RoundTrip RoundMap.

(** ** C16 *)
(** Every stylesheet whose nodes are [writable] prints, the text parses, for
    every sufficient amount of fuel, to the same stylesheet up to positions and
    white space at the end of selectors ([tidy]), and printing that gives the
    same text again.  [writable] (RoundSpec.v) covers rules, selectors with
    combinators, pseudo-classes with arguments and attributes, declarations
    with lists of values, functions, math expressions, strings, urls, brackets,
    !important, and @import, @media, @keyframes, @custom-media and generic
    at-rules.  Missing for the full claim: the shapes that are not writable,
    for which it is false (C16_round_trip_refuted and C16_more_refuted) or
    which the parser never returns, and raw declarations. *)
Theorem C16_round_trip_partial : forall (U : UnicodeDigits) run ns, forallb writable ns = true ->
  exists css ss lines n0, print None ns = Some css /\
    (forall n, (n0 <= n)%nat -> parse run n css = ParseOk ss lines) /\
    strip (ss_nodes ss) = strip (tidy ns) /\ print None (ss_nodes ss) = Some css.
Proof. exact @round_trip. Qed.
Print Assumptions C16_round_trip_partial.
(** The same when the source map is printed too: the comment is no part of what
    is read. *)
Theorem C16_with_map_partial : forall (U : UnicodeDigits) run s ns out, forallb writable ns = true -> print (Some s) ns = Some out ->
  exists ss lines n0, (forall n, (n0 <= n)%nat -> parse run n out = ParseOk ss lines) /\
    strip (ss_nodes ss) = strip (tidy ns) /\ print None (ss_nodes ss) = print None ns.
Proof. exact @round_trip_map. Qed.
Print Assumptions C16_with_map_partial.
(** More stylesheets that are not read back: an+b with a minus sign or
    without offset. *)
Theorem C16_more_refuted :
  lossy (B "a:nth-child(n - 2){b:c}") /\ lossy (B "a:nth-child(-5){b:c}") /\ lossy (B "a:nth-child(0){b:c}") /\
  lossy (B "a:nth-child(1n+2){b:c}").
Proof. exact C16_more_lemma. Qed.
Print Assumptions C16_more_refuted.
Example C16_sample : exists ss lines, @parse asciiOnly 0 500 text16 = ParseOk ss lines /\
  length (ss_nodes ss) = 6%nat /\ forallb writable (ss_nodes ss) = true /\ print None (ss_nodes ss) = Some css16.
Proof. exact C16_sample_lemma. Qed.

(** ** C17 *)
(** Writable stylesheets that print the same are the same, up to positions and
    white space at the end of selectors.  Missing for the full claim: the other
    parsed stylesheets, for which it is false (C17_injective_refuted). *)
Theorem C17_injective_partial : forall (U : UnicodeDigits) ns ms css, forallb writable ns = true -> forallb writable ms = true ->
  print None ns = Some css -> print None ms = Some css -> strip (tidy ns) = strip (tidy ms).
Proof. exact injective. Qed.
Print Assumptions C17_injective_partial.
Example C17_sample : exists ss lines ss' lines', @parse asciiOnly 0 500 text16 = ParseOk ss lines /\
  @parse asciiOnly 0 500 css16 = ParseOk ss' lines' /\ ss_nodes ss <> ss_nodes ss' /\
  forallb writable (ss_nodes ss) = true /\ forallb writable (ss_nodes ss') = true /\
  print None (ss_nodes ss) = Some css16 /\ print None (ss_nodes ss') = Some css16.
Proof. exact C17_sample_lemma. Qed.
