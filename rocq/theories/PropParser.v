(** Property theorems C08 and C10-C18: the parser, and printing what it
    returns; C31 for parsed files. *)
From Coq Require Import Sorting.Sorted.
From Verif Require Import Bytes Utf8 Source Ast Strip Printer Transformer Lexer LexSpec Parser ParserSpec ParseMono ParserProofs ParseResults
  ParseLines ParseRaw ParseMark ParseRerun ParseTable ParseWitness Samples TransSamples.

(** ** C08 *)
(** The parser's table is that of the file if no declaration had to be kept as
    raw text.  Missing for the full claim: files with such a declaration, for
    which it fails (below): lines read twice are entered twice. *)
Theorem C08_parser_line_table_partial : forall (U : UnicodeDigits) run n content ss lines,
  parse run n content = ParseOk ss lines -> Forall noRawNode (ss_nodes ss) -> lines = lineStarts content.
Proof. exact @C08_parse_lemma. Qed.
Print Assumptions C08_parser_line_table_partial.
(** In every file, as a set: nothing is missing and nothing is wrong. *)
Theorem C08_parser_line_set : forall (U : UnicodeDigits) content run n,
  match parse run n content with
  | ParseOk _ lines => hd_error lines = Some 0%nat /\ forall x, In x lines <-> In x (lineStarts content)
  | ParseErr _ _ lines => hd_error lines = Some 0%nat /\ incl lines (lineStarts content)
  | _ => True
  end.
Proof. exact @parse_table. Qed.
Print Assumptions C08_parser_line_set.
Theorem C08_line_table_refuted : forall (U : UnicodeDigits), exists content ss lines,
  (forall n, (100 <= n)%nat -> parse 0 n content = ParseOk ss lines) /\ lines <> lineStarts content.
Proof. exact C08_refuted_lemma. Qed.
Print Assumptions C08_line_table_refuted.

(** ** C10 *)
(** Parsing ends after at most 10 |content| + 18 nested calls, unless the file
    has a marker or dot that the lexer does not get past, a malformed math
    function, or a broken declaration with no semicolon after it.  Missing for
    the full claim: those files, which do make Parse loop (below). *)
Theorem C10_terminates_partial : forall (U : UnicodeDigits) run content,
  (forall i, ~ stuck (skipn i content)) -> ~ badMath content ->
  (forall l, visits run content InDecls l -> ~ lostDeclaration l) ->
  forall n, (10 * length content + 18 <= n)%nat -> parse run n content <> ParseTimeout.
Proof. exact @C10_lemma. Qed.
Print Assumptions C10_terminates_partial.
(** Each of the three makes Parse loop forever. *)
Theorem C10_lost_declaration_loops : forall (U : UnicodeDigits) run content l,
  visits run content InDecls l -> lostDeclaration l -> forall n, parse run n content = ParseTimeout.
Proof. exact @C10_lost_lemma. Qed.
Print Assumptions C10_lost_declaration_loops.
Theorem C10_stray_token_loops : forall (U : UnicodeDigits) run content l l1 l2 l3, visits run content InDecls l ->
  l_cur l = Ident -> next l = Ok l1 -> l_cur l1 = Colon -> next l1 = Ok l2 ->
  l_cur l2 = FunctionStart -> isMathName (l_str l2) = true -> next l2 = Ok l3 -> strayToken l3 ->
  forall n, parse run n content = ParseTimeout.
Proof. exact @C10_stray_lemma. Qed.
Print Assumptions C10_stray_token_loops.
Theorem C10_marker_loops : forall (U : UnicodeDigits) run content l,
  visits run content Top l -> In (l_cur l) [CDO; CDC] -> forall n, parse run n content = ParseTimeout.
Proof. exact @C10_marker_lemma. Qed.
Print Assumptions C10_marker_loops.
Theorem C10_terminates_refuted : forall (U : UnicodeDigits) run n,
  parse run n (B "a{b}") = ParseTimeout /\ parse run n (B "a{b:calc(;}") = ParseTimeout /\
  parse run n (B "a{b:c} -->") = ParseTimeout.
Proof. exact C10_refuted_lemma. Qed.
Print Assumptions C10_terminates_refuted.
Example C10_sample : let content := B "a{b:min(1px);c}d{e:f;}" in
  (forall i, ~ @stuck asciiOnly (skipn i content)) /\ ~ @badMath asciiOnly content /\
  (forall l, @visits asciiOnly 0 content InDecls l -> ~ @lostDeclaration asciiOnly l).
Proof. exact C10_sample_lemma. Qed.

(** ** C11 *)
(** A panic escapes only in three situations; reported errors have a span
    inside the file.  Missing for the full claim: the three situations, which
    occur (below). *)
Theorem C11_no_crash_partial : forall (U : UnicodeDigits) run content n,
  (parse run n content = ParseCrash ->
     (exists p lines, newLexer content [] = Panic p lines) \/ badMath content \/ badCustomMedia content) /\
  (forall sp msg lines, parse run n content = ParseErr sp msg lines -> (sp_start sp <= sp_end sp <= length content)%nat).
Proof. exact @C11_lemma. Qed.
Print Assumptions C11_no_crash_partial.
Theorem C11_no_crash_refuted : forall (U : UnicodeDigits) run n, (100 <= n)%nat ->
  parse run n (B "@custom-media --x;") = ParseCrash /\ parse run n (B "/*") = ParseCrash /\
  parse run n (B "a[b=calc(+)]{}") = ParseCrash.
Proof. exact C11_refuted_lemma. Qed.
Print Assumptions C11_no_crash_refuted.
Example C11_sample : let content := B "a{b:min(1px);c}d{e:f;}" in
  (exists l, @newLexer asciiOnly content [] = Ok l) /\ ~ @badMath asciiOnly content /\ ~ @badCustomMedia asciiOnly content.
Proof. exact C11_sample_lemma. Qed.
Example C11_error_sample : @parse asciiOnly 0 100 (B "a,{}") = ParseErr (mkSpan 2 3) (B "expected selector") [0%nat].
Proof. exact C11_error_lemma. Qed.

(** ** C12 *)
(** Once finished, more budget changes nothing; two finished parses agree; and
    another parse of the same content differs only in which parse its nodes
    belong to. *)
Theorem C12_deterministic : forall (U : UnicodeDigits) run run' content n m,
  parse run n content <> ParseTimeout -> parse run' m content <> ParseTimeout ->
  parse run' m content = outcomeOfRun run' (parse run n content).
Proof. exact @C12_lemma. Qed.
Print Assumptions C12_deterministic.
Theorem C12_stable : forall (U : UnicodeDigits) run n m content,
  (n <= m)%nat -> parse run n content <> ParseTimeout -> parse run m content = parse run n content.
Proof. exact @parse_stable. Qed.
Print Assumptions C12_stable.
Example C12_sample : @parse asciiOnly 3 40 (B "a{b:c}") <> ParseTimeout /\ @parse asciiOnly 5 20 (B "a{b:c}") <> ParseTimeout.
Proof. split; vm_compute; discriminate. Qed.

(** ** C13 *)
(** If the declaration at [l] does not parse, what is kept is the file's text
    from its first byte through the next semicolon, and reading goes on with
    the token after it; and this does happen whenever there is such a
    semicolon and such a token.  Without one Parse loops
    ([C10_lost_declaration_loops]), so the full claim is not met. *)
Theorem C13_recovery_partial : forall (U : UnicodeDigits) content l n p lines,
  pstate content l -> parseDeclaration n l = Panic p lines ->
  (forall d l2, parseDeclarationOrFallback n l = Ok (d, l2) ->
     exists ls s, toSemicolon (setLines l lines) ls /\ next ls = Ok l2 /\
       d = DRaw (mkSpan (l_start l) (l_lastPos ls)) (sub content (l_start l) (l_lastPos ls)) /\
       sub content (l_start l) (l_lastPos ls) = s ++ B ";") /\
  (forall ls l2, toSemicolon (setLines l lines) ls -> next ls = Ok l2 ->
     exists N, forall m, (N <= m)%nat -> parseDeclarationOrFallback m l =
       Ok (DRaw (mkSpan (l_start l) (l_lastPos ls)) (sub content (l_start l) (l_lastPos ls)), l2)).
Proof. exact @C13_lemma. Qed.
Print Assumptions C13_recovery_partial.
(** Whatever raw declarations a parsed stylesheet has, each is text of the
    file ending in a semicolon, and it is in the printed output. *)
Theorem C13_verbatim : forall (U : UnicodeDigits) run n content ss lines out nd sp v, parse run n content = ParseOk ss lines ->
  print None (ss_nodes ss) = Some out -> In nd (ss_nodes ss) -> In (DRaw sp v) (nodeDecls nd) ->
  v = sub content (sp_start sp) (sp_end sp) /\ (exists s, v = s ++ B ";") /\ exists a b, out = a ++ v ++ b.
Proof. exact @C13_verbatim_lemma. Qed.
Print Assumptions C13_verbatim.
(** The next semicolon may be in another rule: the rule c is gone. *)
Theorem C13_neighbours_refuted : forall (U : UnicodeDigits), exists ss lines sp lsp sels bsp dsp,
  (forall n, (100 <= n)%nat -> parse 0 n (B "a{b}c{d:e;}") = ParseOk ss lines) /\
  ss_nodes ss = [NRule (mkRule 0 sp (PrSel (lsp, sels)) bsp [DRaw dsp (B "b}c{d:e;")])].
Proof. exact C13_neighbours_refuted_lemma. Qed.
Print Assumptions C13_neighbours_refuted.
Example C13_sample : exists l n p lines ls l2, @visits asciiOnly 0 (B "a{b c;d:e}") InDecls l /\
  @parseDeclaration asciiOnly n l = Panic p lines /\ @toSemicolon asciiOnly (setLines l lines) ls /\ @next asciiOnly ls = Ok l2 /\
  sub (B "a{b c;d:e}") (l_start l) (l_lastPos ls) = B "b c;" /\ l_str l2 = B "d".
Proof. exact C13_sample_lemma. Qed.
Example C13_verbatim_sample : exists ss lines nd, @parse asciiOnly 0 100 (B "a{b c;d:e}") = ParseOk ss lines /\
  print None (ss_nodes ss) = Some (B "a{b c;;d:e}") /\ In nd (ss_nodes ss) /\ In (DRaw (mkSpan 2 6) (B "b c;")) (nodeDecls nd).
Proof. exact C13_verbatim_sample_lemma. Qed.

(** ** C14 *)
Theorem C14_imports : forall (U : UnicodeDigits) run n content ss lines, parse run n content = ParseOk ss lines ->
  ss_imports ss = flat_map importOf (ss_nodes ss) /\ StronglySorted lt (atStarts (ss_nodes ss)) /\
  NoDup (atIds (ss_nodes ss)) /\ NoDup (map snd (ss_imports ss)).
Proof. exact @C14_lemma. Qed.
Print Assumptions C14_imports.

(** ** C15 *)
Theorem C15_sound : forall (U : UnicodeDigits) run n content ss lines, parse run n content = ParseOk ss lines ->
  Forall soundNode (ss_nodes ss).
Proof. exact @C15_lemma. Qed.
Print Assumptions C15_sound.
Example C14_C15_C18_sample : exists ss lines, @parse asciiOnly 0 200 text15b = ParseOk ss lines /\
  length (ss_nodes ss) = 6%nat /\ map fst (ss_imports ss) = [B "x"; B "y"] /\ ~ Exists unprintable (ss_nodes ss).
Proof. exact C15_sample_lemma. Qed.

(** ** C16, C17 *)
Theorem C16_round_trip_refuted :
  lossy (B "a[b^=c]{d:e}") /\ lossy (B "a[b=c i]{d:e}") /\ lossy (B "@keyframes a{1%,2%{b:c}}") /\
  lossy (B "@keyframes a{from,to{b:c}}") /\ lossy (B "a{b:c(d e)}") /\ lossy (B "a{b:'""'}") /\ lossy (B "a{b:calc(1px + 2px)}").
Proof. exact C16_refuted_lemma. Qed.
Print Assumptions C16_round_trip_refuted.
Theorem C17_injective_refuted :
  confused (B "a[b^=c]{d:e}") (B "a[b=c]{d:e}") /\
  confused (B "a[b=c i]{d:e}") (B "a[b=c]{d:e}") /\
  confused (B "a{b:c(d e)}") (B "a{b:c(de)}") /\
  confused (B "a{b:'"" ""'}") (B "a{b:"""" """"}").
Proof. exact C17_refuted_lemma. Qed.
Print Assumptions C17_injective_refuted.

(** ** C18 *)
(** Print fails on exactly the parsed stylesheets with a rule without
    selectors, a @media without queries or empty parentheses in a math
    function.  Missing for the full claim: those, which do parse (below). *)
Theorem C18_print_succeeds_partial : forall (U : UnicodeDigits) run n content ss lines, parse run n content = ParseOk ss lines ->
  (print None (ss_nodes ss) = None <-> Exists unprintable (ss_nodes ss)).
Proof. exact @C18_lemma. Qed.
Print Assumptions C18_print_succeeds_partial.
Theorem C18_print_succeeds_refuted : forall (U : UnicodeDigits),
  Forall (fun content => exists ss lines, (forall n, (100 <= n)%nat -> parse 0 n content = ParseOk ss lines) /\ print None (ss_nodes ss) = None)
    [B "{a:b}"; B "@media {a{b:c}}"; B "a{b:calc(())}"].
Proof. exact C18_refuted_lemma. Qed.
Print Assumptions C18_print_succeeds_refuted.

(** ** C31 *)
(** Every parsed stylesheet is transformed, under every option combination,
    unless it has a top-level rule without selectors or a @media without
    queries (which crash, C31_transform_crash_refuted). *)
Theorem C31_parsed_partial : forall (U : UnicodeDigits) (FO : FloatOps) run n content ss lines o, parse run n content = ParseOk ss lines ->
  ~ Exists blocked (ss_nodes ss) ->
  exists N, forall m, (N <= m)%nat -> exists ss' t, transform o None m ss = TOk ss' t.
Proof. exact @C31_total_lemma. Qed.
Print Assumptions C31_parsed_partial.
Example C31_parsed_sample : exists ss lines, @parse asciiOnly 0 200 text15b = ParseOk ss lines /\ ~ Exists blocked (ss_nodes ss).
Proof. exact C31_parsed_sample_lemma. Qed.
