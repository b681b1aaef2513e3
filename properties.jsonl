{"id": "C01", "title": "Tokenising always terminates", "statement": "Asking the lexer for the next token always returns: a token, end of file, or a reported lexing error; it never loops forever inside one token.", "quantifier": "every byte string as source, every lexer position reachable on it, both whitespace modes", "why_tests_cant": "Each inner loop (names, numbers, strings, urls, comments, escapes, whitespace) could fail to advance on some byte sequence; only an argument over all sources excludes that.", "anchors": ["internal/lexer/lexer.go: Lexer.Next, nextName, nextNumber, nextEscaped, nextIdentLikeToken"]}
{"id": "C02", "title": "Tokenising never crashes the process", "statement": "On any bytes whatsoever, including invalid UTF-8 and stray carriage returns, the lexer never indexes or slices outside the source; the only failure it can raise is a located lexing error.", "quantifier": "every byte string, every reachable lexer position", "why_tests_cant": "Slice bounds mix byte offsets, rune widths and the CR look-ahead; a single unlucky encoding would be enough to crash.", "anchors": ["internal/lexer/lexer.go: Lexer.step, peek, Next, nextNumericToken, nextIdentLikeToken, nextDelimToken"]}
{"id": "C03", "title": "Token spans are ordered and inside the file", "statement": "Every token's span satisfies 0 <= start <= end <= length of the file, and each token starts at or after the end of the token before it.", "quantifier": "every source, every sequence of Next calls with whitespace retention switched arbitrarily between calls", "why_tests_cant": "Source maps and error locations rely on the spans of every token of every file.", "anchors": ["internal/lexer/lexer.go: Lexer.TokenSpan, TokenEnd, Next, step"]}
{"id": "C04", "title": "Every token other than EOF makes progress", "statement": "Each call to Next that yields a token other than EOF consumes at least one byte of the source, so a file of n bytes yields at most n tokens.", "quantifier": "every source and every lexer position", "why_tests_cant": "A token that consumes nothing turns every caller loop into an infinite loop; which inputs do that is a question about all inputs.", "anchors": ["internal/lexer/lexer.go: Lexer.Next cases '-', '<', '.', nextNumericToken"]}
{"id": "C05", "title": "Only whitespace and comments are skipped between tokens", "statement": "The bytes between the end of one token and the start of the next are exactly a sequence of CSS whitespace and closed comments; no other source text is silently dropped.", "quantifier": "every source, every pair of consecutive tokens", "why_tests_cant": "Silently lost text can only be excluded over all sources.", "anchors": ["internal/lexer/lexer.go: Lexer.Next (whitespace and comment cases)"]}
{"id": "C06", "title": "Token text is the source text", "statement": "The text delivered with a token is the verbatim source text of its span: the whole span for identifiers, numbers and delimiters, the span without its sigil or quotes for at-keywords, hashes and strings, numeral followed by unit for dimensions.", "quantifier": "every source, every token", "why_tests_cant": "The printer re-emits these strings; a byte lost for some input silently changes the stylesheet.", "anchors": ["internal/lexer/lexer.go: nextNumericToken, nextIdentLikeToken, nextDelimToken, Next"]}
{"id": "C07", "title": "Line and column of an offset are correct", "statement": "For a source whose table of line starts is the sorted list of line starts, the reported line is the unique line containing the offset and the column is the 1-based distance from its start.", "quantifier": "every sorted line table and every offset", "why_tests_cant": "Binary search boundary errors show only at particular offsets.", "anchors": ["internal/sources/source.go: Source.LineAndCol, FullLine"]}
{"id": "C08", "title": "The line table built while lexing is the list of line starts", "statement": "After a file has been tokenised the line table lists offset 0 and the offset just after every line feed, in increasing order.", "quantifier": "every source file and every way the parser drives the lexer over it", "why_tests_cant": "Backtracking re-lexes text, so whether the table stays correct depends on the history of the parse.", "anchors": ["internal/lexer/lexer.go: Lexer.step", "internal/parser/parser.go: parseDeclarationOrFallback", "internal/sources/source.go: Source.Lines"]}
{"id": "C09", "title": "Rendering an error message never crashes", "statement": "Formatting any located error whose span lies inside the source succeeds (no negative repeat count, no out-of-range slice), even if the line table is unsorted, as long as its first entry is 0.", "quantifier": "every source, every line table starting with 0, every span inside the source", "why_tests_cant": "The index arithmetic has to be right for every span, including multi-line spans and spans at end of file.", "anchors": ["internal/logging/logging.go: locationError.Error, AnnotateSourceSpan", "internal/sources/source.go: FullLine"]}
{"id": "C10", "title": "Parsing terminates on every input", "statement": "Parse returns (a stylesheet or an error) on every input.", "quantifier": "every byte string", "why_tests_cant": "Termination on all inputs cannot be tested; one unterminated block is enough to hang a build.", "anchors": ["internal/parser/parser.go: parse, parseRaw, parseDeclarationBlock, parseValue", "internal/lexer/lexer.go: Next"]}
{"id": "C11", "title": "Malformed input is reported, never a crash", "statement": "On every input Parse either returns a stylesheet or an error value; it does not panic out of the call.", "quantifier": "every byte string", "why_tests_cant": "The nil and index panics sit on rarely taken error paths.", "anchors": ["internal/parser/parser.go: Parse, newParser, parseCustomMediaAtRule, parseMathSum"]}
{"id": "C12", "title": "Parsing is a function of the file content", "statement": "Two parses of the same content give the same stylesheet or the same error; the outcome does not depend on how long the parser is allowed to run once it has finished.", "quantifier": "every byte string, every step budget", "why_tests_cant": "Needs all inputs and all budgets; it is what makes every other parse theorem meaningful.", "anchors": ["internal/parser/parser.go: Parse"]}
{"id": "C13", "title": "A broken declaration is kept verbatim and does not damage its neighbours", "statement": "When a declaration does not parse, the text from its first token up to and including the next semicolon is kept byte for byte as the output of that declaration, and parsing resumes right after that semicolon.", "quantifier": "every source and every position at which a declaration fails to parse", "why_tests_cant": "The recovery restores saved lexer state; whether it restores enough depends on where in the declaration the failure happened.", "anchors": ["internal/parser/parser.go: parseDeclarationOrFallback, parseRaw"]}
{"id": "C14", "title": "The import list matches the @import rules", "statement": "For every successfully parsed file, the list of import specifiers is exactly the list of @import rules of the stylesheet in source order, each with the target string of its rule, and distinct rules are distinguishable.", "quantifier": "every byte string that parses", "why_tests_cant": "A file with any number of imports in any position.", "anchors": ["internal/parser/parser.go: parseImportAtRule", "internal/ast/ast.go: Stylesheet.Imports"]}
{"id": "C15", "title": "Parsed stylesheets are structurally sound", "statement": "Every stylesheet the parser returns has non-empty selectors, selector lists, media queries and keyframe selector lists, declarations with at least one value, and media ranges whose operator is one of < <= > >=.", "quantifier": "every byte string that parses", "why_tests_cant": "Transforms index the first element of these lists without checking.", "anchors": ["internal/parser/selectors.go: parseSelector, parseSelectorList", "internal/parser/parser.go: parseMediaQuery, parseMediaRangeOperator, parseDeclaration, parseKeyframeSelectorList"]}
{"id": "C16", "title": "Printed CSS parses back to the same stylesheet", "statement": "Printing a stylesheet and parsing the output gives the same stylesheet up to source positions.", "quantifier": "every stylesheet made of rules, selectors, declarations and at-rules that the printer is able to express", "why_tests_cant": "Token-boundary bugs appear only for particular neighbouring pairs of nodes, nested arbitrarily.", "anchors": ["internal/printer/printer.go: print", "internal/parser/parser.go: Parse"]}
{"id": "C17", "title": "Printing preserves every construct", "statement": "Two stylesheets with different meaning never print to the same text: attribute operators and modifiers, keyframe selector lists, spaces between function arguments, quotes inside strings survive printing.", "quantifier": "every stylesheet the parser can produce", "why_tests_cant": "Injectivity quantifies over pairs of stylesheets.", "anchors": ["internal/printer/printer.go: AttributeSelector, KeyframeSelectorList, Function, String cases"]}
{"id": "C18", "title": "Printing a parsed stylesheet succeeds", "statement": "Print returns no error for any stylesheet that Parse returned.", "quantifier": "every byte string that parses", "why_tests_cant": "The parser can leave nil nodes behind; which inputs do that is a question about all inputs.", "anchors": ["internal/printer/printer.go: Print, print"]}
{"id": "C19", "title": "Requesting a source map does not change the CSS", "statement": "The CSS text printed with a source map is the text printed without one, followed by exactly one trailing comment, and the comment's payload cannot close the comment early.", "quantifier": "every stylesheet, every source, every line table", "why_tests_cant": "Mapping bookkeeping runs interleaved with printing.", "anchors": ["internal/printer/printer.go: Print, printMapping, addMapping"]}
{"id": "C20", "title": "VLQ numbers decode to what was encoded", "statement": "Decoding the VLQ encoding of v followed by arbitrary further bytes returns v and the number of bytes of the encoding.", "quantifier": "every int32 with magnitude below 2^30 and every suffix", "why_tests_cant": "Two billion values; only a proof covers the boundaries of all sextets.", "anchors": ["internal/printer/sourcemaps.go: VLQEncode, VLQDecode"]}
{"id": "C21", "title": "VLQ covers the whole int32 range", "statement": "The VLQ round trip holds for every int32.", "quantifier": "every int32", "why_tests_cant": "The failure starts at 2^30, far from any test value.", "anchors": ["internal/printer/sourcemaps.go: VLQEncode"]}
{"id": "C22", "title": "The source map points every rule at its origin", "statement": "Decoding the emitted mappings yields one segment per printed rule, in order, whose generated line and column are where that rule begins in the output and whose original line and column are those of the rule's span.", "quantifier": "every stylesheet and line table with positions below 2^30", "why_tests_cant": "Deltas accumulate over the whole file, so correctness is an induction over arbitrarily many rules and newlines.", "anchors": ["internal/printer/printer.go: addMapping", "internal/printer/sourcemaps.go: VLQEncode"]}
{"id": "C23", "title": "With default options nothing is transformed", "statement": "With all transforms in passthrough mode the transformed stylesheet is the parsed stylesheet.", "quantifier": "every parsed stylesheet", "why_tests_cant": "Must hold for every combination of rules and at-rules.", "anchors": ["internal/transformer/transformer.go: Transform, transformNodes", "transforms/transforms.go"]}
{"id": "C24", "title": ":any-link replacement keeps the set of matched elements", "statement": "An element is matched by the transformed selector list exactly when it is matched by the original one.", "quantifier": "every document, every interpretation of simple selectors with :any-link = :link or :visited, every selector list", "why_tests_cant": "Quantifies over documents and selectors of any length; the implementation shares arrays between copies.", "anchors": ["internal/transformer/transformer.go: transformSelectors"]}
{"id": "C25", "title": "Media range lowering keeps the meaning", "statement": "A lowered range feature holds for a device exactly when the original holds for <= and >=; for < and > it implies the original and differs from it only inside the documented .001 gap.", "quantifier": "every device value, every operator, every left and right bound", "why_tests_cant": "Direction and strictness must be right for all eight operator/side combinations and all values.", "anchors": ["internal/transformer/transformer.go: transformMediaFeatureRange, addToValue"]}
{"id": "C26", "title": "Custom media queries are replaced by their definition", "statement": "Every use (--name) of a custom media query in an @media rule is replaced by the defined query, and the media rule applies on a device exactly when it did before.", "quantifier": "every stylesheet, every device", "why_tests_cant": "Depends on definition order, nesting and the operators surrounding the use.", "anchors": ["internal/transformer/transformer.go: transformNodes (custom-media), transformMediaQueryParts"]}
{"id": "C27", "title": "var() of a :root variable is replaced by its value", "statement": "Every var(--x) whose variable is defined on :root is replaced by the defined value, an undefined one by its fallback, so no reference to a removed definition is left behind.", "quantifier": "every stylesheet and nesting of values", "why_tests_cant": "References can be nested anywhere in a value and defined anywhere in the file.", "anchors": ["internal/transformer/transformer.go: transformNodes (:root), transformValues"]}
{"id": "C28", "title": "calc() reduction computes the right value", "statement": "When calc(e) is replaced by a plain value, that value and unit are those of e under CSS calc arithmetic and typing; when e is not computable the call is left unchanged.", "quantifier": "every calc expression tree, every arithmetic", "why_tests_cant": "Expressions nest without bound.", "anchors": ["internal/transformer/transformer.go: transformValues, evaluateMathExpression, doMath"]}
{"id": "C29", "title": "Transforms keep rule order", "statement": "Rules of the transformed stylesheet appear in the order of the source rules they come from; no rule is moved or duplicated.", "quantifier": "every stylesheet, every option combination", "why_tests_cant": "The cascade depends on relative order of arbitrarily many rules.", "anchors": ["internal/transformer/transformer.go: transformNodes"]}
{"id": "C30", "title": "Transforms reach rules inside @media", "statement": "A rule inside an @media block is transformed exactly like the same rule at top level.", "quantifier": "every stylesheet with media blocks", "why_tests_cant": "Quantifies over all nesting.", "anchors": ["internal/transformer/transformer.go: transformNodes (media), transformBlock"]}
{"id": "C31", "title": "Transforming never crashes on parsed input", "statement": "Transform returns for every stylesheet produced by Parse and every option combination.", "quantifier": "every byte string that parses, every option combination", "why_tests_cant": "nil preludes and nil media query lists are produced only by unusual inputs.", "anchors": ["internal/transformer/transformer.go: transformNodes"]}
{"id": "C32", "title": "Inlined imports take the place of their @import rule", "statement": "With inlining on, the output is the concatenation in order of the transformed rules of the file, each resolved @import replaced by the rules of the imported file, each unresolved one left in place.", "quantifier": "every stylesheet, every assignment of imported stylesheets", "why_tests_cant": "Any number and order of imports.", "anchors": ["internal/transformer/transformer.go: transformNodes (import)", "api.go: parseFile"]}
{"id": "C33", "title": "Definitions in imported files reach the importing file", "statement": "With inlining on, a :root variable or custom media query defined in an imported file is applied in the importing file.", "quantifier": "every pair of files", "why_tests_cant": "Depends on the order of the two transform passes for all contents.", "anchors": ["api.go: parseFile", "internal/transformer/transformer.go: Transform"]}
{"id": "C34", "title": "Compilation terminates on every import graph", "statement": "Compile returns for every finite set of files, including files that import each other.", "quantifier": "every file system and entry list", "why_tests_cant": "Cycles of any length.", "anchors": ["api.go: parseFile, Compile"]}
{"id": "C35", "title": "Every readable, parseable entry produces one output under its own path", "statement": "For every schedule, the result contains exactly one output per entry that could be read and parsed, and that output is the compilation of that entry's content.", "quantifier": "every list of entries, every interleaving of the goroutines", "why_tests_cant": "The number of interleavings is unbounded and the scheduler is not under test control.", "anchors": ["api.go: Compile, parseFile, addSource"]}
{"id": "C36", "title": "A single entry compiles the same under every schedule", "statement": "With one entry file, the printed output does not depend on goroutine scheduling, whatever it imports, as long as imports are not inlined or followed.", "quantifier": "every file system, every complete schedule", "why_tests_cant": "All interleavings of arbitrarily many import goroutines.", "anchors": ["api.go: Compile, parseFile, addSource"]}
{"id": "C37", "title": "Source indices identify files", "statement": "Two different files never share a source index, so a file is never replaced by another one.", "quantifier": "every schedule of concurrent addSource calls", "why_tests_cant": "The race window is a few instructions wide.", "anchors": ["api.go: addSource"]}
{"id": "C38", "title": "Resolve only returns paths of existing regular files", "statement": "A path returned by NodeResolver.Resolve without error exists and is not a directory.", "quantifier": "every file system, base URL, import specifier and directory", "why_tests_cant": "File systems are arbitrary: directories named x.css, package.json pointing at directories, ...", "anchors": ["resolver/node_resolver.go: Resolve, resolve, resolveAsDir"]}
{"id": "C39", "title": "Resolution order", "statement": "Relative specifiers are looked up only relative to the importing directory; other specifiers first against BaseURL, then in node_modules of the importing directory, then of each parent in turn, and the nearest match wins.", "quantifier": "every file system, specifier and directory", "why_tests_cant": "Shadowing depends on which of arbitrarily many directories contain a match.", "anchors": ["resolver/node_resolver.go: Resolve, resolveFromNodeModules"]}
{"id": "C40", "title": "Resolution terminates", "statement": "Resolve returns for every specifier and importing directory.", "quantifier": "every directory string", "why_tests_cant": "Directory depth is unbounded, and relative directories never reach the root.", "anchors": ["resolver/node_resolver.go: resolveFromNodeModules"]}
{"id": "C41", "title": "The esbuild plugin reports each problem once, at its line", "statement": "Each reported error becomes exactly one esbuild message carrying the error's line number.", "quantifier": "every list of reported errors", "why_tests_cant": "Any number and mix of located and unlocated errors.", "anchors": ["esbuildplugin/plugin.go: csscReporter.toEsbuild"]}
{"id": "C42", "title": "The underline of an error message marks the reported text", "statement": "In the two-line excerpt of an error message the underline starts under the first character of the reported span.", "quantifier": "every source line, every span, any mixture of tabs and text before and after the span", "why_tests_cant": "Alignment depends on all tabs of the line, on both sides of the span.", "anchors": ["internal/logging/logging.go: AnnotateSourceSpan"]}
{"id": "C43", "title": "Entries do not influence each other", "statement": "The output for an entry is the same whether or not further entries are compiled in the same call.", "quantifier": "every file system, every two entry lists one of which contains the other, every schedule", "why_tests_cant": "Depends on which files the entries share and on the order in which goroutines transform the shared nodes.", "anchors": ["api.go: parseFile, Compile", "internal/transformer/transformer.go: transformNodes"]}
{"id": "C44", "title": "The source map is valid JSON about the right file", "statement": "The payload of the source map comment decodes to JSON text in UTF-8 whose file, sourcesContent and mappings are the source's path, its content and the mappings.", "quantifier": "every source and stylesheet printed with a source map", "why_tests_cant": "Over all paths, contents (any bytes) and stylesheets; needs base64, JSON escapes and UTF-8.", "anchors": ["internal/printer/printer.go: printMapping", "internal/printer/sourcemaps.go"]}
{"id": "C45", "title": "Compile does not crash on files that compile alone", "statement": "If every file involved can be read, parsed, transformed and printed, no schedule makes Compile panic.", "quantifier": "every file system, entry list and interleaving of the goroutines", "why_tests_cant": "The crash needs one particular interleaving of two addSource calls.", "anchors": ["api.go: addSource, parseFile"]}
{"id": "C46", "title": "The esbuild plugin answers with the compiled file or with errors", "statement": "For a loaded file that does not import itself, OnLoad returns the compilation of that file and no error was reported, or at least one error message; it never reports a missing output.", "quantifier": "every file system, every complete schedule, imports passed through", "why_tests_cant": "Over all file contents and interleavings of the goroutines of the compilation.", "anchors": ["esbuildplugin/plugin.go: Plugin", "api.go: Compile"]}
{"id": "C47", "title": "The parsed tree says what the file says", "statement": "The nodes Parse returns are derived from the tokens of the file, all of them and in order, by the grammar of the language the parser accepts; every name, number, operator, flag and span in the tree is that of its tokens.", "quantifier": "every content and amount of fuel for which Parse returns a stylesheet", "why_tests_cant": "Over all files, with arbitrary nesting of functions, math expressions, selectors and rules.", "anchors": ["internal/parser/parser.go", "internal/parser/selectors.go", "internal/lexer/lexer.go"]}
{"id": "C48", "title": "Walk visits every node once, parents first", "statement": "Walk calls visit on every node of the tree it is given, each once, before the nodes it consists of, and does not crash.", "quantifier": "every stylesheet", "why_tests_cant": "Over all trees, with arbitrary nesting of values, selectors and rules.", "anchors": ["internal/ast/walk.go: Walk"]}
{"id": "C49", "title": "Well-formed files are accepted", "statement": "If the tokens of a file are derived from a list of nodes by the grammar without its liberties (missing closers and separators, text kept as is), Parse succeeds and returns those nodes; so there is only one such list.", "quantifier": "every content and every such derivation", "why_tests_cant": "Over all files, with arbitrary nesting; needs that one token of lookahead decides every choice, and the right white space flag at every token.", "anchors": ["internal/parser/parser.go", "internal/parser/selectors.go"]}
{"id": "C50", "title": "Next delivers the tokens of the lexical grammar", "statement": "A call of Next delivers kind, span, string and numeral of the token that the lexical grammar finds at this offset, skipping only what it may skip, and reports an error with exact message and span where the grammar finds none; the grammar is unambiguous. With C47 and C49 this relates the bytes of a file to its tree.", "quantifier": "every content, every sequence of calls and flags", "why_tests_cant": "Over all byte strings, including invalid UTF-8 and lone carriage returns; escapes, numbers, names, urls and comments extend as far as possible.", "anchors": ["internal/lexer/lexer.go", "internal/lexer/tokens.go"]}
{"id": "C51", "title": "Positions in the tree", "statement": "Every node of a parsed tree has a span inside the file, its parts have spans inside its own, one after the other in order, and so have the top-level nodes in the file. Exceptions: the name in a range, a function the parser closes early, the argument of url().", "quantifier": "every content the parser accepts", "why_tests_cant": "Over all files; needs that every construct takes its span from its first and last token and that tokens do not overlap.", "anchors": ["internal/parser/parser.go", "internal/parser/selectors.go", "internal/lexer/lexer.go", "internal/ast/ast.go"]}
{"id": "C52", "title": "Errors point into their file", "statement": "In every state of every execution of Compile, every syntax error and every report of the transformer has a span inside the content of the source it names, so that rendering it does not panic.", "quantifier": "every project, every schedule", "why_tests_cant": "The transformer reports at nodes, which must come from the file it transforms; nodes live in a heap shared by all goroutines and are rewritten in place.", "anchors": ["api.go", "internal/transformer/transformer.go", "internal/parser/parser.go", "internal/logging/logging.go"]}
{"id": "C53", "title": "Inlining a chain of imports", "statement": "With one entry, imports inlined, and no file having two @imports or leading back to itself, every execution ends with the entry's output being its rules with the @import replaced, recursively, by the result for the imported file; an @import whose file cannot be resolved, read or parsed stays.", "quantifier": "every such project, every schedule", "why_tests_cant": "The imported file's nodes are shared and rewritten in place by two calls of Transform; the replacement is found by pointer; the sources, indices and trees of all files live in shared maps.", "anchors": ["api.go", "internal/transformer/transformer.go", "internal/parser/parser.go"]}
{"id": "C54", "title": "The output is the transformed stylesheet again", "statement": "When the files consist of constructs that can be written and computed numbers are decimal, the text of every output of Compile, map comment included, parses to the stylesheet that Transform returned, up to positions and trailing selector white space.", "quantifier": "every project of plain files, every schedule (several entries: when outputs are not added at once)", "why_tests_cant": "Needs that every transform (variables, calc, ranges, custom media, :any-link, inlining) keeps the tree within what printer and parser agree on, and that the map comment is skipped.", "anchors": ["api.go", "internal/transformer/transformer.go", "internal/printer/printer.go", "internal/parser/parser.go"]}
{"id": "C55", "title": "No data races", "statement": "In no execution of Compile are two goroutines about to access the same variable, one of them to write, without holding the same lock.", "quantifier": "every project, every schedule", "why_tests_cant": "Over all interleavings of any number of goroutines, nested to any depth; the shared variables include closures' loop variables, maps, a counter, the reporter and the nodes of shared trees.", "anchors": ["api.go"]}
{"id": "C56", "title": "An inlined file contributes what it compiles to on its own", "statement": "With imports inlined, the output of a file that begins with an @import is the text the imported file has as an output of its own, followed by the text of the rest of the importing file; transforming the imported rules a second time changes nothing.", "quantifier": "every project with at most one @import per file, every schedule", "why_tests_cant": "Relates two whole compilations with different entries; the rules of a file at depth d are transformed d+1 times, with definitions collected anew each time.", "anchors": ["api.go", "internal/transformer/transformer.go", "internal/printer/printer.go"]}
{"id": "C57", "title": "Compiling an output again changes nothing", "statement": "An output of Compile, given to Compile as a file of its own with the same options, is compiled to the same text; only the source map at the end differs.", "quantifier": "every project, every schedule of both runs", "why_tests_cant": "Composes the whole pipeline with itself: printing, reading back and transforming from fresh definitions must agree up to positions, over two independent concurrent executions.", "anchors": ["api.go", "internal/transformer/transformer.go", "internal/printer/printer.go", "internal/parser/parser.go"]}
{"id": "C58", "title": "Undefined variables are reported", "statement": "With custom properties transformed, Transform reports exactly the references to variables that are not defined and have no fallback, and the calls of var() without a name.", "quantifier": "every stylesheet, alone or with its imports inlined", "why_tests_cant": "A reference may be anywhere in a value and its definition anywhere in the file or its imports; no set of stylesheets covers all the places.", "anchors": ["internal/transformer/transformer.go: transformValues, transformDeclarations, transformNodes, evaluateMathExpression"]}
{"id": "C59", "title": "Compile reports the faults of the project", "statement": "When Compile returns, the errors that it handed to the reporter are the faults of the project: entries and imports without a path, files that cannot be read, syntax errors, imports that do not resolve and what Transform says about each file, for every entry and everything that it imports, each against the file and place where it is; and nothing else.", "quantifier": "every project, every schedule", "why_tests_cant": "Errors come from goroutines that share variables; only a proof over all schedules and all graphs of imports shows that none is lost or attributed to another file.", "anchors": ["api.go: Compile, parseFile, addSource"]}
{"id": "C60", "title": "Files can be put in a row", "statement": "The text of one plainly written stylesheet followed directly by the text of another parses to the tree of the first followed by the tree of the second, every position of which is moved by the length of the first text; the imports are those of the first and then those of the second, and the printed text is the two printed texts in a row.", "quantifier": "every pair of plainly written files of any length", "why_tests_cant": "Where a file ends every function of the lexer and the parser has looked ahead; only a proof over all files shows that none of them lets what follows change what came before, or is changed by it.", "anchors": ["internal/lexer/lexer.go", "internal/parser/parser.go"]}
{"id": "C61", "title": "White space and comments do not count where they are skipped", "statement": "White space and comments added to a plainly written stylesheet, or taken away from it, at its start, at its end or behind a token whose end can be seen and after which the reader skips white space, change the tree only in positions: every position after the addition is moved by its length. Text, import targets and the output of Compile (but for the source map) stay the same.", "quantifier": "every plainly written file, every white space and comments, any number of additions and removals", "why_tests_cant": "Each token is read with its own look-ahead and in one of two white space modes; only a proof over all files and all additions shows that none of them is changed by what is skipped.", "anchors": ["internal/lexer/lexer.go", "internal/parser/parser.go", "internal/parser/selectors.go"]}
{"id": "C62", "title": "White space in selectors is not lost", "statement": "Between two neighbouring parts of a selector in the tree of an accepted file, also inside the arguments of pseudo-classes, the file has nothing but comments: white space there, the descendant combinator, is always a part of its own, and each such part is white space in the file.", "quantifier": "every accepted file and every selector in it", "why_tests_cant": "White space is kept or skipped by a flag that nested functions of the parser switch back and forth while the lexer is already one token ahead; only a proof over all selectors shows where a combinator is lost.", "anchors": ["internal/parser/selectors.go", "internal/lexer/lexer.go: Next"]}
{"id": "C63", "title": "The programs in the repository run to their end", "statement": "Each of the two programs parses its stylesheet and prints it without a panic: cli/main.go always, manualtest/main.go unless the file cannot be written, whatever the Unicode tables of the Go version are.", "quantifier": "the executions of both programs (neither reads input)", "why_tests_cant": "They are the only callers in the repository that panic on an error of Parse or Print, and go through most constructs of the language in one run.", "anchors": ["cli/main.go", "internal/printer/manualtest/main.go"]}
{"id": "C64", "title": "The source map that Compile writes leads back to the file", "statement": "Whatever the schedule, each output of Compile ends with a source map that has one entry for each rule of the output, in order, and each entry leads to the line and column of the file at which that rule starts.", "quantifier": "every project, every schedule, every file", "why_tests_cant": "The positions are made by the lexer, carried through the parser, the transformer and the goroutines of Compile and turned into lines by a table that other code appends to; only a proof over all of them shows where they get out of step.", "anchors": ["api.go", "internal/printer/printer.go", "internal/sources/source.go", "internal/parser/parser.go"]}
{"id": "C65", "title": "Inlining does not change which rules apply", "statement": "On every device, the rules of the output that a browser applies (style rules, rules of media rules whose condition is met, other at-rules and @imports that stay) are, in the same order, those that it applies when it loads the entry file and follows its @imports itself: those before all other rules, and only if their condition is met.", "quantifier": "every project whose imports are inlined, every schedule, every set of media queries that a device meets", "why_tests_cant": "Which @imports count depends on what comes before them in every file of the chain, which inlining, dropping of empty rules and failed imports all change; only a proof over all files and devices shows where the cascade is altered.", "anchors": ["internal/transformer/transformer.go", "api.go"]}
{"id": "C66", "title": "What comes later in a file does not change the rules before it", "statement": "If two files begin with the same text and are accepted, all rules that end in it, 16 bytes or more before the files part, are the same in both, with the same positions; if only one of the files is accepted, the error in the other is placed behind them.", "quantifier": "every two files of any length with any common beginning", "why_tests_cant": "Each token is looked at before it is used, declarations are tried and read again after an error, and the lexer looks ahead by up to three code points; only a proof over every state of both shows that nothing read later reaches back.", "anchors": ["internal/parser/parser.go", "internal/parser/selectors.go", "internal/lexer/lexer.go"]}
{"id": "C67", "title": "What comes later in a file does not change an error before it", "statement": "If a file is rejected with an error whose place ends 16 bytes or more before some point, every file with the same text up to that point is rejected with the same error message at the same place.", "quantifier": "every two files of any length with any common beginning", "why_tests_cant": "A failed attempt to read a declaration is dropped and the text is read again as raw text to the next semicolon, so that an error that is shown may come long after the one that caused it; only a proof over every state of both files shows that nothing behind the error decides whether or how it is reported.", "anchors": ["internal/parser/parser.go", "internal/parser/selectors.go", "internal/lexer/lexer.go"]}
