(** C61: white space and comments do not count where they are skipped. *)
From Verif Require Import Bytes Utf8 Source Lexer LexSpec Ast Parser Printer PrinterSpec Strip Transformer Resolver Compile CompileSpec ReadSpec LexStreamSpec Samples TransSamples CompileSamples CompileWitness FullExamples
  TwiceExamples AgainSpec JoinSpec LayoutSpec LayoutProofs LayoutExamples InlineSpec LayoutProjSpec LayoutInline LayoutInlineExamples.

(** White space or comments [w] added between [u] and [v]: the reading is the
    same, and positions after [u] are moved by the length of [w]. *)
Theorem C61_added_layout : forall (U : UnicodeDigits) run u w v nds, roomy run u v nds -> layout w -> v <> [] ->
  readsBytesPlainly run (u ++ w ++ v) (map (moveNode (spread (length u) (length w))) nds).
Proof. exact @C61_tree_lemma. Qed.
Print Assumptions C61_added_layout.
(** Room before [u] stays, so more can be added there. *)
Theorem C61_room_stays : forall (U : UnicodeDigits) run u w v ts nds, tokenized (u ++ v) ts -> gNodes (L := false) (u ++ v) run ts nds -> room u v ts -> layout w -> v <> [] ->
  exists ts', tokenized (u ++ w ++ v) ts' /\ gNodes (L := false) (u ++ w ++ v) run ts' (map (moveNode (spread (length u) (length w))) nds) /\
    forall u1 u2, u = u1 ++ u2 -> u2 <> [] -> room u1 (u2 ++ v) ts -> room u1 (u2 ++ w ++ v) ts'.
Proof. exact @C61_rooms_lemma. Qed.
Print Assumptions C61_room_stays.
(** Files that differ only in such layout are accepted together, have the same
    tree but for positions, the same import targets and the same text. *)
Theorem C61_same_tree : forall (U : UnicodeDigits) run x y, respaced run x y -> exists n0, forall n, (n0 <= n)%nat -> exists ssx lx ssy ly,
  parse run n x = ParseOk ssx lx /\ parse run n y = ParseOk ssy ly /\ strip (ss_nodes ssx) = strip (ss_nodes ssy) /\
  map fst (ss_imports ssx) = map fst (ss_imports ssy) /\ print None (ss_nodes ssx) = print None (ss_nodes ssy).
Proof. exact @C61_parse_lemma. Qed.
Print Assumptions C61_same_tree.
(** Their outputs differ only in the source map, under every schedule of both
    runs. *)
Theorem C61_same_output : forall (U : UnicodeDigits) (FO : FloatOps) P P' e e' p p' x y, p_opts P' = p_opts P -> p_entries P = [e] -> p_entries P' = [e'] ->
  o_imports (p_opts P) = ImportPassthrough -> p_abs P e = Some p -> p_abs P' e' = Some p' -> ~ leads P p p -> ~ leads P' p' p' ->
  p_read P p = Some x -> p_read P' p' = Some y -> respaced 0 x y ->
  forall g fs g' fs', reach P (g, Finished fs) -> reach P' (g', Finished fs') -> forall out, lookup p fs = Some out ->
  exists out', lookup p' fs' = Some out' /\ sameText out out'.
Proof. exact @C61_compile_lemma. Qed.
Print Assumptions C61_same_output.
Example C61_sample : @respaced asciiOnly 0 text49 pretty49.
Proof. exact C61_sample_lemma. Qed.
Example C61_compile_sample : p_entries (spaced61 text49) = [B "/a"] /\ p_entries (spaced61 pretty49) = [B "/a"] /\ o_imports (p_opts (spaced61 text49)) = ImportPassthrough /\
  ~ @leads asciiOnly (spaced61 text49) (B "/a") (B "/a") /\ ~ @leads asciiOnly (spaced61 pretty49) (B "/a") (B "/a") /\
  (exists g, @reach asciiOnly milli (spaced61 text49) (g, Finished [(B "/a", outOf (spaced61 text49))])) /\ (exists g, @reach asciiOnly milli (spaced61 pretty49) (g, Finished [(B "/a", outOf (spaced61 pretty49))])) /\
  exists rest, outOf (spaced61 text49) = B "@import ""x"" print;@import ""x"" print;a .b{*d:calc(2*i)!important;e:f}" ++ rest.
Proof. exact C61_compile_sample_lemma. Qed.
(** Inlined: every file of the chain may be respaced. *)
Theorem C61_same_inlined_output : forall (U : UnicodeDigits) (FO : FloatOps) P P' e, respacedProject P P' -> o_imports (p_opts P) = ImportInline -> oneImportEach P -> p_entries P = [e] ->
  forall g fs g' fs', reach P (g, Finished fs) -> reach P' (g', Finished fs') -> forall p out, lookup p fs = Some out ->
  exists out', lookup p fs' = Some out' /\ sameText out out'.
Proof. exact (fun U FO P P' e R => C61_inline_lemma P P' R e). Qed.
Print Assumptions C61_same_inlined_output.
Example C61_inlined_sample : let U := asciiOnly in let FO := milli in respacedProject flatChain airyChain /\ o_imports (p_opts flatChain) = ImportInline /\ oneImportEach flatChain /\ p_entries flatChain = [B "/a"] /\
  (exists g, reach flatChain (g, Finished [(B "/a", outOf flatChain)])) /\ (exists g, reach airyChain (g, Finished [(B "/a", outOf airyChain)])) /\
  outOf flatChain <> outOf airyChain /\ exists rest, outOf flatChain = B "x{y:z}a .b{*d:calc(2*i)!important;e:f}" ++ rest.
Proof. exact C61_inline_sample_lemma. Qed.
(** Any number of entries, imports not inlined, no overlapping addSource
    calls: a file that has an output in both runs has the same text. *)
Theorem C61_same_texts : forall (U : UnicodeDigits) (FO : FloatOps) P P', respacedProject P P' -> o_imports (p_opts P) <> ImportInline ->
  forall g fs g' fs', reachApart P (g, Finished fs) -> reachApart P' (g', Finished fs') -> forall p out out', lookup p fs = Some out -> lookup p fs' = Some out' -> sameText out out'.
Proof. exact (fun U FO => C61_many_lemma). Qed.
Print Assumptions C61_same_texts.
Example C61_texts_sample : let U := asciiOnly in let FO := milli in respacedProject flatMany airyMany /\ o_imports (p_opts flatMany) = ImportFollow /\
  exists g g' a x a' x', reachApart flatMany (g, Finished [(B "x", x); (B "/a", a)]) /\ reachApart airyMany (g', Finished [(B "x", x'); (B "/a", a')]) /\ x <> x'.
Proof. exact C61_many_sample_lemma. Qed.
(** Without room it may count: between selectors white space is kept. *)
Example C61_kept : let U := asciiOnly in exists ss l ss' l', parse 0 200 (B ":a(b)c{d:e}") = ParseOk ss l /\ parse 0 200 (B ":a(b) c{d:e}") = ParseOk ss' l' /\
  print None (ss_nodes ss) = Some (B ":a(b)c{d:e}") /\ print None (ss_nodes ss') = Some (B ":a(b) c{d:e}").
Proof. exact C61_kept_lemma. Qed.
