#!/usr/bin/env python3
"""Regenerates /verif/properties.jsonl (kept as a script so that edits stay reviewable)."""
import json, os
P = []
def p(id, title, statement, quantifier, why, anchors):
    P.append(dict(id=id, title=title, statement=statement, quantifier=quantifier, why_tests_cant=why, anchors=anchors))

# ---------------------------------------------------------------- lexing
p("C01", "Tokenising always terminates",
  "Asking the lexer for the next token always returns: a token, end of file, or a reported lexing error; it never loops forever inside one token.",
  "every byte string as source, every lexer position reachable on it, both whitespace modes",
  "Each inner loop (names, numbers, strings, urls, comments, escapes, whitespace) could fail to advance on some byte sequence; only an argument over all sources excludes that.",
  ["internal/lexer/lexer.go: Lexer.Next, nextName, nextNumber, nextEscaped, nextIdentLikeToken"])
p("C02", "Tokenising never crashes the process",
  "On any bytes whatsoever, including invalid UTF-8 and stray carriage returns, the lexer never indexes or slices outside the source; the only failure it can raise is a located lexing error.",
  "every byte string, every reachable lexer position",
  "Slice bounds mix byte offsets, rune widths and the CR look-ahead; a single unlucky encoding would be enough to crash.",
  ["internal/lexer/lexer.go: Lexer.step, peek, Next, nextNumericToken, nextIdentLikeToken, nextDelimToken"])
p("C03", "Token spans are ordered and inside the file",
  "Every token's span satisfies 0 <= start <= end <= length of the file, and each token starts at or after the end of the token before it.",
  "every source, every sequence of Next calls with whitespace retention switched arbitrarily between calls",
  "Source maps and error locations rely on the spans of every token of every file.",
  ["internal/lexer/lexer.go: Lexer.TokenSpan, TokenEnd, Next, step"])
p("C04", "Every token other than EOF makes progress",
  "Each call to Next that yields a token other than EOF consumes at least one byte of the source, so a file of n bytes yields at most n tokens.",
  "every source and every lexer position",
  "A token that consumes nothing turns every caller loop into an infinite loop; which inputs do that is a question about all inputs.",
  ["internal/lexer/lexer.go: Lexer.Next cases '-', '<', '.', nextNumericToken"])
p("C05", "Only whitespace and comments are skipped between tokens",
  "The bytes between the end of one token and the start of the next are exactly a sequence of CSS whitespace and closed comments; no other source text is silently dropped.",
  "every source, every pair of consecutive tokens",
  "Silently lost text can only be excluded over all sources.",
  ["internal/lexer/lexer.go: Lexer.Next (whitespace and comment cases)"])
p("C06", "Token text is the source text",
  "The text delivered with a token is the verbatim source text of its span: the whole span for identifiers, numbers and delimiters, the span without its sigil or quotes for at-keywords, hashes and strings, numeral followed by unit for dimensions.",
  "every source, every token",
  "The printer re-emits these strings; a byte lost for some input silently changes the stylesheet.",
  ["internal/lexer/lexer.go: nextNumericToken, nextIdentLikeToken, nextDelimToken, Next"])
# ---------------------------------------------------------------- locations
p("C07", "Line and column of an offset are correct",
  "For a source whose table of line starts is the sorted list of line starts, the reported line is the unique line containing the offset and the column is the 1-based distance from its start.",
  "every sorted line table and every offset",
  "Binary search boundary errors show only at particular offsets.",
  ["internal/sources/source.go: Source.LineAndCol, FullLine"])
p("C08", "The line table built while lexing is the list of line starts",
  "After a file has been tokenised the line table lists offset 0 and the offset just after every line feed, in increasing order.",
  "every source file and every way the parser drives the lexer over it",
  "Backtracking re-lexes text, so whether the table stays correct depends on the history of the parse.",
  ["internal/lexer/lexer.go: Lexer.step", "internal/parser/parser.go: parseDeclarationOrFallback", "internal/sources/source.go: Source.Lines"])
p("C09", "Rendering an error message never crashes",
  "Formatting any located error whose span lies inside the source succeeds (no negative repeat count, no out-of-range slice), even if the line table is unsorted, as long as its first entry is 0.",
  "every source, every line table starting with 0, every span inside the source",
  "The index arithmetic has to be right for every span, including multi-line spans and spans at end of file.",
  ["internal/logging/logging.go: locationError.Error, AnnotateSourceSpan", "internal/sources/source.go: FullLine"])
# ---------------------------------------------------------------- parsing
p("C10", "Parsing terminates on every input",
  "Parse returns (a stylesheet or an error) on every input.",
  "every byte string",
  "Termination on all inputs cannot be tested; one unterminated block is enough to hang a build.",
  ["internal/parser/parser.go: parse, parseRaw, parseDeclarationBlock, parseValue", "internal/lexer/lexer.go: Next"])
p("C11", "Malformed input is reported, never a crash",
  "On every input Parse either returns a stylesheet or an error value; it does not panic out of the call.",
  "every byte string",
  "The nil and index panics sit on rarely taken error paths.",
  ["internal/parser/parser.go: Parse, newParser, parseCustomMediaAtRule, parseMathSum"])
p("C12", "Parsing is a function of the file content",
  "Two parses of the same content give the same stylesheet or the same error; the outcome does not depend on how long the parser is allowed to run once it has finished.",
  "every byte string, every step budget",
  "Needs all inputs and all budgets; it is what makes every other parse theorem meaningful.",
  ["internal/parser/parser.go: Parse"])
p("C13", "A broken declaration is kept verbatim and does not damage its neighbours",
  "When a declaration does not parse, the text from its first token up to and including the next semicolon is kept byte for byte as the output of that declaration, and parsing resumes right after that semicolon.",
  "every source and every position at which a declaration fails to parse",
  "The recovery restores saved lexer state; whether it restores enough depends on where in the declaration the failure happened.",
  ["internal/parser/parser.go: parseDeclarationOrFallback, parseRaw"])
p("C14", "The import list matches the @import rules",
  "For every successfully parsed file, the list of import specifiers is exactly the list of @import rules of the stylesheet in source order, each with the target string of its rule, and distinct rules are distinguishable.",
  "every byte string that parses",
  "A file with any number of imports in any position.",
  ["internal/parser/parser.go: parseImportAtRule", "internal/ast/ast.go: Stylesheet.Imports"])
p("C15", "Parsed stylesheets are structurally sound",
  "Every stylesheet the parser returns has non-empty selectors, selector lists, media queries and keyframe selector lists, declarations with at least one value, and media ranges whose operator is one of < <= > >=.",
  "every byte string that parses",
  "Transforms index the first element of these lists without checking.",
  ["internal/parser/selectors.go: parseSelector, parseSelectorList", "internal/parser/parser.go: parseMediaQuery, parseMediaRangeOperator, parseDeclaration, parseKeyframeSelectorList"])
# ---------------------------------------------------------------- printing
p("C16", "Printed CSS parses back to the same stylesheet",
  "Printing a stylesheet and parsing the output gives the same stylesheet up to source positions.",
  "every stylesheet made of rules, selectors, declarations and at-rules that the printer is able to express",
  "Token-boundary bugs appear only for particular neighbouring pairs of nodes, nested arbitrarily.",
  ["internal/printer/printer.go: print", "internal/parser/parser.go: Parse"])
p("C17", "Printing preserves every construct",
  "Two stylesheets with different meaning never print to the same text: attribute operators and modifiers, keyframe selector lists, spaces between function arguments, quotes inside strings survive printing.",
  "every stylesheet the parser can produce",
  "Injectivity quantifies over pairs of stylesheets.",
  ["internal/printer/printer.go: AttributeSelector, KeyframeSelectorList, Function, String cases"])
p("C18", "Printing a parsed stylesheet succeeds",
  "Print returns no error for any stylesheet that Parse returned.",
  "every byte string that parses",
  "The parser can leave nil nodes behind; which inputs do that is a question about all inputs.",
  ["internal/printer/printer.go: Print, print"])
p("C19", "Requesting a source map does not change the CSS",
  "The CSS text printed with a source map is the text printed without one, followed by exactly one trailing comment, and the comment's payload cannot close the comment early.",
  "every stylesheet, every source, every line table",
  "Mapping bookkeeping runs interleaved with printing.",
  ["internal/printer/printer.go: Print, printMapping, addMapping"])
p("C20", "VLQ numbers decode to what was encoded",
  "Decoding the VLQ encoding of v followed by arbitrary further bytes returns v and the number of bytes of the encoding.",
  "every int32 with magnitude below 2^30 and every suffix",
  "Two billion values; only a proof covers the boundaries of all sextets.",
  ["internal/printer/sourcemaps.go: VLQEncode, VLQDecode"])
p("C21", "VLQ covers the whole int32 range",
  "The VLQ round trip holds for every int32.",
  "every int32",
  "The failure starts at 2^30, far from any test value.",
  ["internal/printer/sourcemaps.go: VLQEncode"])
p("C22", "The source map points every rule at its origin",
  "Decoding the emitted mappings yields one segment per printed rule, in order, whose generated line and column are where that rule begins in the output and whose original line and column are those of the rule's span.",
  "every stylesheet and line table with positions below 2^30",
  "Deltas accumulate over the whole file, so correctness is an induction over arbitrarily many rules and newlines.",
  ["internal/printer/printer.go: addMapping", "internal/printer/sourcemaps.go: VLQEncode"])
# ---------------------------------------------------------------- transforms
p("C23", "With default options nothing is transformed",
  "With all transforms in passthrough mode the transformed stylesheet is the parsed stylesheet.",
  "every parsed stylesheet",
  "Must hold for every combination of rules and at-rules.",
  ["internal/transformer/transformer.go: Transform, transformNodes", "transforms/transforms.go"])
p("C24", ":any-link replacement keeps the set of matched elements",
  "An element is matched by the transformed selector list exactly when it is matched by the original one.",
  "every document, every interpretation of simple selectors with :any-link = :link or :visited, every selector list",
  "Quantifies over documents and selectors of any length; the implementation shares arrays between copies.",
  ["internal/transformer/transformer.go: transformSelectors"])
p("C25", "Media range lowering keeps the meaning",
  "A lowered range feature holds for a device exactly when the original holds for <= and >=; for < and > it implies the original and differs from it only inside the documented .001 gap.",
  "every device value, every operator, every left and right bound",
  "Direction and strictness must be right for all eight operator/side combinations and all values.",
  ["internal/transformer/transformer.go: transformMediaFeatureRange, addToValue"])
p("C26", "Custom media queries are replaced by their definition",
  "Every use (--name) of a custom media query in an @media rule is replaced by the defined query, and the media rule applies on a device exactly when it did before.",
  "every stylesheet, every device",
  "Depends on definition order, nesting and the operators surrounding the use.",
  ["internal/transformer/transformer.go: transformNodes (custom-media), transformMediaQueryParts"])
p("C27", "var() of a :root variable is replaced by its value",
  "Every var(--x) whose variable is defined on :root is replaced by the defined value, an undefined one by its fallback, so no reference to a removed definition is left behind.",
  "every stylesheet and nesting of values",
  "References can be nested anywhere in a value and defined anywhere in the file.",
  ["internal/transformer/transformer.go: transformNodes (:root), transformValues"])
p("C28", "calc() reduction computes the right value",
  "When calc(e) is replaced by a plain value, that value and unit are those of e under CSS calc arithmetic and typing; when e is not computable the call is left unchanged.",
  "every calc expression tree, every arithmetic",
  "Expressions nest without bound.",
  ["internal/transformer/transformer.go: transformValues, evaluateMathExpression, doMath"])
p("C29", "Transforms keep rule order",
  "Rules of the transformed stylesheet appear in the order of the source rules they come from; no rule is moved or duplicated.",
  "every stylesheet, every option combination",
  "The cascade depends on relative order of arbitrarily many rules.",
  ["internal/transformer/transformer.go: transformNodes"])
p("C30", "Transforms reach rules inside @media",
  "A rule inside an @media block is transformed exactly like the same rule at top level.",
  "every stylesheet with media blocks",
  "Quantifies over all nesting.",
  ["internal/transformer/transformer.go: transformNodes (media), transformBlock"])
p("C31", "Transforming never crashes on parsed input",
  "Transform returns for every stylesheet produced by Parse and every option combination.",
  "every byte string that parses, every option combination",
  "nil preludes and nil media query lists are produced only by unusual inputs.",
  ["internal/transformer/transformer.go: transformNodes"])
# ---------------------------------------------------------------- imports and compile
p("C32", "Inlined imports take the place of their @import rule",
  "With inlining on, the output is the concatenation in order of the transformed rules of the file, each resolved @import replaced by the rules of the imported file, each unresolved one left in place.",
  "every stylesheet, every assignment of imported stylesheets",
  "Any number and order of imports.",
  ["internal/transformer/transformer.go: transformNodes (import)", "api.go: parseFile"])
p("C33", "Definitions in imported files reach the importing file",
  "With inlining on, a :root variable or custom media query defined in an imported file is applied in the importing file.",
  "every pair of files",
  "Depends on the order of the two transform passes for all contents.",
  ["api.go: parseFile", "internal/transformer/transformer.go: Transform"])
p("C34", "Compilation terminates on every import graph",
  "Compile returns for every finite set of files, including files that import each other.",
  "every file system and entry list",
  "Cycles of any length.",
  ["api.go: parseFile, Compile"])
p("C35", "Every readable, parseable entry produces one output under its own path",
  "For every schedule, the result contains exactly one output per entry that could be read and parsed, and that output is the compilation of that entry's content.",
  "every list of entries, every interleaving of the goroutines",
  "The number of interleavings is unbounded and the scheduler is not under test control.",
  ["api.go: Compile, parseFile, addSource"])
p("C36", "A single entry compiles the same under every schedule",
  "With one entry file, the printed output does not depend on goroutine scheduling, whatever it imports, as long as imports are not inlined or followed.",
  "every file system, every complete schedule",
  "All interleavings of arbitrarily many import goroutines.",
  ["api.go: Compile, parseFile, addSource"])
p("C37", "Source indices identify files",
  "Two different files never share a source index, so a file is never replaced by another one.",
  "every schedule of concurrent addSource calls",
  "The race window is a few instructions wide.",
  ["api.go: addSource"])
# ---------------------------------------------------------------- resolver
p("C38", "Resolve only returns paths of existing regular files",
  "A path returned by NodeResolver.Resolve without error exists and is not a directory.",
  "every file system, base URL, import specifier and directory",
  "File systems are arbitrary: directories named x.css, package.json pointing at directories, ...",
  ["resolver/node_resolver.go: Resolve, resolve, resolveAsDir"])
p("C39", "Resolution order",
  "Relative specifiers are looked up only relative to the importing directory; other specifiers first against BaseURL, then in node_modules of the importing directory, then of each parent in turn, and the nearest match wins.",
  "every file system, specifier and directory",
  "Shadowing depends on which of arbitrarily many directories contain a match.",
  ["resolver/node_resolver.go: Resolve, resolveFromNodeModules"])
p("C40", "Resolution terminates",
  "Resolve returns for every specifier and importing directory.",
  "every directory string",
  "Directory depth is unbounded, and relative directories never reach the root.",
  ["resolver/node_resolver.go: resolveFromNodeModules"])
# ---------------------------------------------------------------- plugin / reporting
p("C41", "The esbuild plugin reports each problem once, at its line",
  "Each reported error becomes exactly one esbuild message carrying the error's line number.",
  "every list of reported errors",
  "Any number and mix of located and unlocated errors.",
  ["esbuildplugin/plugin.go: csscReporter.toEsbuild"])
p("C42", "The underline of an error message marks the reported text",
  "In the two-line excerpt of an error message the underline starts under the first character of the reported span.",
  "every source line, every span, any mixture of tabs and text before and after the span",
  "Alignment depends on all tabs of the line, on both sides of the span.",
  ["internal/logging/logging.go: AnnotateSourceSpan"])
p("C43", "Entries do not influence each other",
  "The output for an entry is the same whether or not further entries are compiled in the same call.",
  "every file system, every two entry lists one of which contains the other, every schedule",
  "Depends on which files the entries share and on the order in which goroutines transform the shared nodes.",
  ["api.go: parseFile, Compile", "internal/transformer/transformer.go: transformNodes"])
p("C44", "The source map is valid JSON about the right file",
  "The payload of the source map comment decodes to JSON text in UTF-8 whose file, sourcesContent and mappings are the source's path, its content and the mappings.",
  "every source and stylesheet printed with a source map",
  "Over all paths, contents (any bytes) and stylesheets; needs base64, JSON escapes and UTF-8.",
  ["internal/printer/printer.go: printMapping", "internal/printer/sourcemaps.go"])
p("C45", "Compile does not crash on files that compile alone",
  "If every file involved can be read, parsed, transformed and printed, no schedule makes Compile panic.",
  "every file system, entry list and interleaving of the goroutines",
  "The crash needs one particular interleaving of two addSource calls.",
  ["api.go: addSource, parseFile"])
p("C46", "The esbuild plugin answers with the compiled file or with errors",
  "For a loaded file that does not import itself, OnLoad returns the compilation of that file and no error was reported, or at least one error message; it never reports a missing output.",
  "every file system, every complete schedule, imports passed through",
  "Over all file contents and interleavings of the goroutines of the compilation.",
  ["esbuildplugin/plugin.go: Plugin", "api.go: Compile"])
p("C47", "The parsed tree says what the file says",
  "The nodes Parse returns are derived from the tokens of the file, all of them and in order, by the grammar of the language the parser accepts; every name, number, operator, flag and span in the tree is that of its tokens.",
  "every content and amount of fuel for which Parse returns a stylesheet",
  "Over all files, with arbitrary nesting of functions, math expressions, selectors and rules.",
  ["internal/parser/parser.go", "internal/parser/selectors.go", "internal/lexer/lexer.go"])
p("C48", "Walk visits every node once, parents first",
  "Walk calls visit on every node of the tree it is given, each once, before the nodes it consists of, and does not crash.",
  "every stylesheet",
  "Over all trees, with arbitrary nesting of values, selectors and rules.",
  ["internal/ast/walk.go: Walk"])
p("C49", "Well-formed files are accepted",
  "If the tokens of a file are derived from a list of nodes by the grammar without its liberties (missing closers and separators, text kept as is), Parse succeeds and returns those nodes; so there is only one such list.",
  "every content and every such derivation",
  "Over all files, with arbitrary nesting; needs that one token of lookahead decides every choice, and the right white space flag at every token.",
  ["internal/parser/parser.go", "internal/parser/selectors.go"])
p("C50", "Next delivers the tokens of the lexical grammar",
  "A call of Next delivers kind, span, string and numeral of the token that the lexical grammar finds at this offset, skipping only what it may skip, and reports an error with exact message and span where the grammar finds none; the grammar is unambiguous. With C47 and C49 this relates the bytes of a file to its tree.",
  "every content, every sequence of calls and flags",
  "Over all byte strings, including invalid UTF-8 and lone carriage returns; escapes, numbers, names, urls and comments extend as far as possible.",
  ["internal/lexer/lexer.go", "internal/lexer/tokens.go"])
p("C51", "Positions in the tree",
  "Every node of a parsed tree has a span inside the file, its parts have spans inside its own, one after the other in order, and so have the top-level nodes in the file. Exceptions: the name in a range, a function the parser closes early, the argument of url().",
  "every content the parser accepts",
  "Over all files; needs that every construct takes its span from its first and last token and that tokens do not overlap.",
  ["internal/parser/parser.go", "internal/parser/selectors.go", "internal/lexer/lexer.go", "internal/ast/ast.go"])
p("C52", "Errors point into their file",
  "In every state of every execution of Compile, every syntax error and every report of the transformer has a span inside the content of the source it names, so that rendering it does not panic.",
  "every project, every schedule",
  "The transformer reports at nodes, which must come from the file it transforms; nodes live in a heap shared by all goroutines and are rewritten in place.",
  ["api.go", "internal/transformer/transformer.go", "internal/parser/parser.go", "internal/logging/logging.go"])
p("C53", "Inlining a chain of imports",
  "With one entry, imports inlined, and no file having two @imports or leading back to itself, every execution ends with the entry's output being its rules with the @import replaced, recursively, by the result for the imported file; an @import whose file cannot be resolved, read or parsed stays.",
  "every such project, every schedule",
  "The imported file's nodes are shared and rewritten in place by two calls of Transform; the replacement is found by pointer; the sources, indices and trees of all files live in shared maps.",
  ["api.go", "internal/transformer/transformer.go", "internal/parser/parser.go"])
p("C54", "The output is the transformed stylesheet again",
  "When the files consist of constructs that can be written and computed numbers are decimal, the text of every output of Compile, map comment included, parses to the stylesheet that Transform returned, up to positions and trailing selector white space.",
  "every project of plain files, every schedule (several entries: when outputs are not added at once)",
  "Needs that every transform (variables, calc, ranges, custom media, :any-link, inlining) keeps the tree within what printer and parser agree on, and that the map comment is skipped.",
  ["api.go", "internal/transformer/transformer.go", "internal/printer/printer.go", "internal/parser/parser.go"])
p("C55", "No data races",
  "In no execution of Compile are two goroutines about to access the same variable, one of them to write, without holding the same lock.",
  "every project, every schedule",
  "Over all interleavings of any number of goroutines, nested to any depth; the shared variables include closures' loop variables, maps, a counter, the reporter and the nodes of shared trees.",
  ["api.go"])
p("C56", "An inlined file contributes what it compiles to on its own",
  "With imports inlined, the output of a file that begins with an @import is the text the imported file has as an output of its own, followed by the text of the rest of the importing file; transforming the imported rules a second time changes nothing.",
  "every project with at most one @import per file, every schedule",
  "Relates two whole compilations with different entries; the rules of a file at depth d are transformed d+1 times, with definitions collected anew each time.",
  ["api.go", "internal/transformer/transformer.go", "internal/printer/printer.go"])
p("C57", "Compiling an output again changes nothing",
  "An output of Compile, given to Compile as a file of its own with the same options, is compiled to the same text; only the source map at the end differs.",
  "every project, every schedule of both runs",
  "Composes the whole pipeline with itself: printing, reading back and transforming from fresh definitions must agree up to positions, over two independent concurrent executions.",
  ["api.go", "internal/transformer/transformer.go", "internal/printer/printer.go", "internal/parser/parser.go"])
p("C58", "Undefined variables are reported",
  "With custom properties transformed, Transform reports exactly the references to variables that are not defined and have no fallback, and the calls of var() without a name.",
  "every stylesheet, alone or with its imports inlined",
  "A reference may be anywhere in a value and its definition anywhere in the file or its imports; no set of stylesheets covers all the places.",
  ["internal/transformer/transformer.go: transformValues, transformDeclarations, transformNodes, evaluateMathExpression"])
p("C59", "Compile reports the faults of the project",
  "When Compile returns, the errors that it handed to the reporter are the faults of the project: entries and imports without a path, files that cannot be read, syntax errors, imports that do not resolve and what Transform says about each file, for every entry and everything that it imports, each against the file and place where it is; and nothing else.",
  "every project, every schedule",
  "Errors come from goroutines that share variables; only a proof over all schedules and all graphs of imports shows that none is lost or attributed to another file.",
  ["api.go: Compile, parseFile, addSource"])
p("C60", "Files can be put in a row",
  "The text of one plainly written stylesheet followed directly by the text of another parses to the tree of the first followed by the tree of the second, every position of which is moved by the length of the first text; the imports are those of the first and then those of the second, and the printed text is the two printed texts in a row.",
  "every pair of plainly written files of any length",
  "Where a file ends every function of the lexer and the parser has looked ahead; only a proof over all files shows that none of them lets what follows change what came before, or is changed by it.",
  ["internal/lexer/lexer.go", "internal/parser/parser.go"])
p("C61", "White space and comments do not count where they are skipped",
  "White space and comments added to a plainly written stylesheet, or taken away from it, at its start, at its end or behind a token whose end can be seen and after which the reader skips white space, change the tree only in positions: every position after the addition is moved by its length. Text, import targets and the output of Compile (but for the source map) stay the same.",
  "every plainly written file, every white space and comments, any number of additions and removals",
  "Each token is read with its own look-ahead and in one of two white space modes; only a proof over all files and all additions shows that none of them is changed by what is skipped.",
  ["internal/lexer/lexer.go", "internal/parser/parser.go", "internal/parser/selectors.go"])
p("C62", "White space in selectors is not lost",
  "Between two neighbouring parts of a selector in the tree of an accepted file, also inside the arguments of pseudo-classes, the file has nothing but comments: white space there, the descendant combinator, is always a part of its own, and each such part is white space in the file.",
  "every accepted file and every selector in it",
  "White space is kept or skipped by a flag that nested functions of the parser switch back and forth while the lexer is already one token ahead; only a proof over all selectors shows where a combinator is lost.",
  ["internal/parser/selectors.go", "internal/lexer/lexer.go: Next"])
p("C63", "The programs in the repository run to their end",
  "Each of the two programs parses its stylesheet and prints it without a panic: cli/main.go always, manualtest/main.go unless the file cannot be written, whatever the Unicode tables of the Go version are.",
  "the executions of both programs (neither reads input)",
  "They are the only callers in the repository that panic on an error of Parse or Print, and go through most constructs of the language in one run.",
  ["cli/main.go", "internal/printer/manualtest/main.go"])
p("C64", "The source map that Compile writes leads back to the file",
  "Whatever the schedule, each output of Compile ends with a source map that has one entry for each rule of the output, in order, and each entry leads to the line and column of the file at which that rule starts.",
  "every project, every schedule, every file",
  "The positions are made by the lexer, carried through the parser, the transformer and the goroutines of Compile and turned into lines by a table that other code appends to; only a proof over all of them shows where they get out of step.",
  ["api.go", "internal/printer/printer.go", "internal/sources/source.go", "internal/parser/parser.go"])
p("C65", "Inlining does not change which rules apply",
  "On every device, the rules of the output that a browser applies (style rules, rules of media rules whose condition is met, other at-rules and @imports that stay) are, in the same order, those that it applies when it loads the entry file and follows its @imports itself: those before all other rules, and only if their condition is met.",
  "every project whose imports are inlined, every schedule, every set of media queries that a device meets",
  "Which @imports count depends on what comes before them in every file of the chain, which inlining, dropping of empty rules and failed imports all change; only a proof over all files and devices shows where the cascade is altered.",
  ["internal/transformer/transformer.go", "api.go"])
p("C66", "What comes later in a file does not change the rules before it",
  "If two files begin with the same text and are accepted, all rules that end in it, 16 bytes or more before the files part, are the same in both, with the same positions; if only one of the files is accepted, the error in the other is placed behind them.",
  "every two files of any length with any common beginning",
  "Each token is looked at before it is used, declarations are tried and read again after an error, and the lexer looks ahead by up to three code points; only a proof over every state of both shows that nothing read later reaches back.",
  ["internal/parser/parser.go", "internal/parser/selectors.go", "internal/lexer/lexer.go"])
p("C67", "What comes later in a file does not change an error before it",
  "If a file is rejected with an error whose place ends 16 bytes or more before some point, every file with the same text up to that point is rejected with the same error message at the same place.",
  "every two files of any length with any common beginning",
  "A failed attempt to read a declaration is dropped and the text is read again as raw text to the next semicolon, so that an error that is shown may come long after the one that caused it; only a proof over every state of both files shows that nothing behind the error decides whether or how it is reported.",
  ["internal/parser/parser.go", "internal/parser/selectors.go", "internal/lexer/lexer.go"])
if __name__ == "__main__":
    out = os.path.join(os.path.dirname(os.path.abspath(__file__)), "..", "properties.jsonl")
    with open(out, "w") as f:
        for x in P: f.write(json.dumps(x) + "\n")
    print(len(P))
