# Formal model of stephen/cssc in Rocq (Coq 8.16.1)

## Trusted base

* Coq's kernel. `rocq/` uses the standard library only; no axioms, no switched
  off checks, no plugins, no functors.
* `Print Assumptions` follows every property theorem in the `Prop*.v` files;
  every one of them answers "Closed under the global context". (A checker that
  counts axioms of loaded libraries finds seven names of `Coq.ssr.ssrunder`,
  which the standard library declares; no theorem depends on them.)
* That the model says what the Go code says. The code was read, not run. Every
  definition cites the lines it stands for. Section "What is modelled" lists
  the simplifications.

## Conventions

* Strings are lists of bytes; offsets are `nat`; runes and Go integers are `Z`,
  with explicit wrap-around where the code uses `int32`.
* A Go panic is a value (`Panic`, `None`). A `lexer.Error` panic that Parse
  recovers is kept apart from a run-time panic.
* Loops that need not end take fuel; running out is a separate value
  (`Timeout`, `ParseTimeout`, `TTimeout`) that never looks like a result. "Loops
  for ever" means: that value for every amount of fuel. "Returns" means: some
  amount of fuel suffices, and every larger amount gives the same answer (C12).
* `unicode.IsDigit` above Latin-1 is an arbitrary function (class
  `UnicodeDigits`); theorems hold for every Unicode version.
* Floats are an arbitrary structure (class `FloatOps`); a theorem that needs a
  law states it as a hypothesis. `TransSamples.v` has an instance that satisfies
  them.
* The outside world of Compile (files, working directory, resolver) is an
  arbitrary set of functions (`project`) that does not change during a run.

## Files (rocq/theories)

| code | model | specifications | proofs | theorems |
|---|---|---|---|---|
| bytes, `unicode/utf8` | `Bytes`, `Utf8` | | `BytesFacts` | |
| `internal/sources`, `internal/logging` | `Source` | `SourceSpec` | `SourceProofs` | `PropSource` |
| `internal/lexer` | `Lexer` | `LexSpec`, `LexGrammar`, `LexStreamSpec` | `LexFacts`, `LexNext`, `LexProps`, `LexCut`, `LexWords`, `LexFun`, `LexReads`, `LexStream` | `PropLexer`, `PropLexical` |
| `internal/ast` | `Ast`, `Walk` | `WalkSpec` | `AstInd`, `Strip`, `WalkProofs` | `PropWalk` |
| `internal/parser` | `Parser` | `ParserSpec`, `ReadSpec` | `Parse*`, `ParserProofs`, `ReadProofs` | `PropParser`, `PropRead` |
| `internal/printer` | `Printer`, `Vlq` | `PrinterSpec`, `VlqSpec` | `PrinterProofs`, `PrintStrip`, `MapProofs`, `VlqProofs` | `PropPrinter`, `PropVlq` |
| parser and printer together | | `RoundSpec` | `Round*` | `PropRound` |
| `internal/transformer`, `transforms` | `Transformer` | `TransSpec` | `Trans*` | `PropTransformer` |
| `resolver` | `Resolver` | `ResolverSpec` | `ResolverProofs` | `PropResolver` |
| `api.go` | `Compile` | `CompileSpec` | `Compile*` | `PropCompile` |
| `api.go` with ImportRulesInline | | `InlineSpec` | `InlineRefs`, `InlineProofs`, `InlineReturns`, `TransDefs` | `PropInline` |
| inlined files on their own | | `TwiceSpec` | `TwiceProofs`, `TwiceFiles` | `PropTwice` |
| outputs compiled again | | `AgainSpec` | `StripTrans`, `AgainProofs` | `PropAgain` |
| outputs of `api.go` read back | | `OutputSpec` | `OutputProofs`, `OutputRead` | `PropOutput` |
| reports about variables | | `DiagSpec` | `DiagProofs` | `PropDiag` |
| white space and comments | | `LayoutSpec`, `LayoutProjSpec` | `LayoutLex`, `LayoutTokens`, `LayoutSwap`, `LayoutLoose`, `LayoutProofs`, `LayoutInline` | `PropLayout` |
| white space in selectors | | `SelectorSpec` | `SelectorProofs` | `PropSelector` |
| source maps of `api.go` | | `CMapSpec` | `CMapProofs` | `PropCMap` |
| what inlining makes of the cascade | | `ApplySpec` | `ApplyProofs` `ApplyChain` `ApplyWarn` | `PropApply` |
| files that begin alike | | `LaterSpec` | `LaterLex` `LaterParse` `LaterErr` `LaterRaw` `LaterSheet` `LaterStop` `LaterSame` `LaterProofs` | `PropLater` |
| `cli`, `internal/printer/manualtest` | `Mains` | | `MainsProofs` | `PropMains` |
| files in a row | | `JoinSpec` | `JoinLex`, `JoinTokens`, `JoinRead`, `JoinProofs` | `PropJoin` |
| errors of `api.go` | | `ErrSpec` | `ErrSound`, `ErrComplete`, `ErrChain` | `PropErr` |
| data races of `api.go` | `RaceSpec` (accesses, locks) | `RaceSpec` | `RaceProofs` | `PropRace` |
| positions in trees and errors | | `SpanSpec` | `SpanProofs`, `SpanReports`, `SpanCompile` | `PropSpan` |
| `esbuildplugin` | `Plugin` | `PluginSpec` | `PluginProofs` | `PropPlugin` |

`*Samples.v`, `*Examples.v`, `*Witness.v` hold the concrete cases used as
witnesses and as examples beside the theorems. `seeded/` holds the wrong
programs (`mutants*.json`), the script that runs them (`mutate.py`) and what
came out (`LOG.jsonl`). `tools/` regenerates `properties.jsonl` and
`MANIFEST.json`.

## What is modelled

* `internal/lexer/lexer.go`, `tokens.go`: everything. Characters are decoded as
  Go does, including invalid UTF-8 and the folding of CR, FF.
* `internal/parser`: everything. Error texts are modelled except where they
  print a Go type or a position.
* `internal/ast`: the tree. Pointers are the nodes themselves; the one place
  where pointer identity matters (ImportReplacements) uses the pair of parse
  run and start offset. `Walk` (used by a test only) is modelled in `Walk.v`.
* `internal/printer`: everything, with the source map and its JSON; base64 of
  the standard library is modelled. `encoding/json` string escaping is modelled
  for the one call there is.
* `internal/transformer`, `transforms`: everything. The transformer mutates its
  tree; on a tree nobody else holds this is the same as returning a new one.
* `internal/sources`, `internal/logging`: everything that produces text or
  positions; colours and the terminal reporter are not.
* `resolver`: everything, with the `path/filepath` functions it uses (Unix) and
  `package.json` as an arbitrary function to `style` fields.
* `api.go`: Compile as interleaved goroutines. One transition touches shared
  state once. Parse and Transform are single transitions although two may run
  at once on the same Source or nodes; unlocked writes to `outputsByIndex` are
  atomic (the Go runtime may stop the program instead).
* `esbuildplugin`: OnLoad from the call of Compile to the returned result;
  esbuild itself is not.

* `cli/main.go` and `internal/printer/manualtest`: all, but not what spew prints.

Not modelled: tests and benchmarks, memory exhaustion, files above the
address space, changes of the file system during a run.

## Each property

"False as stated" means that a theorem named `…_refuted` gives an input and
proves that the model violates the property on it; the code is reported below.
The remaining theorems then say what does hold, as exactly as possible.

* C01 C02 proved for every state reachable by any calls with any flags: an
  invariant (`session`, `pstate`) that NewLexer establishes and Next keeps, and a
  measure that decreases.
* C03 the same invariant carries the order of offsets.
* C04 false as stated. The inputs with empty tokens are characterised; without
  them a file has at most one token per byte.
* C05 the skipped text is described by a grammar (`skipped`): white space only
  when white space is not kept, comments only when they are not kept.
* C06 the text of each kind of token is a grammar over its bytes (`tokenText`).
* C07 C08 lines and columns against a walk over the file. C08 is false for
  files with broken declarations as a list (lines entered twice), true as a set.
* C09 totality of the renderer for files below 2 GiB, wrap-around beyond.
* C10 C11 false as stated. Every way not to return, and every way to crash, is
  named; each does happen.
* C12 monotonicity in fuel. C13 resynchronisation at the next semicolon,
  false as stated when that belongs to something else.
* C14 C15 structural induction over all runs of the parser.
* C16 C17 the class `writable` is decidable and closed under parsing back; the
  proof lexes the printed text token by token and replays the parser on it.
* C18 false as stated; Print fails exactly on the shapes of `unprintable`.
* C19 C22 the printer's operations with positions removed; the map decoded by an
  independent decoder. C20 C21 arithmetic modulo 2^32.
* C23 C29 C30 C31 C32 functional theorems about Transform; C24 against selector
  matching over arbitrary documents; C25 C26 against evaluation of media
  queries; C27 against substitution; C28 against the value of an expression.
* C33 false as stated; transformed rules are shown to define nothing, so that the
  importer's rules are the same whatever the imported file holds (TransDefs.v).
  C34–C37, C43, C45 over all schedules of the goroutines:
  an invariant over reachable states, and a measure for termination.
* C38–C40 over arbitrary file systems.
* C41 C46 over lists of errors and complete runs of Compile. C42 the rendered
  message compared column by column with tabs expanded alike.
* C44 the payload is read by a small JSON reader; false for paths that need
  escaping.
* C47 the tree is derived from the file's tokens by a grammar that does not
  mention the parser.
* C48 the visits are compared with the list of all nodes below a node, parents
  first; false as stated, the exact behaviour is proved.
* C49 the converse of C47 for readings without liberties: induction over the
  derivation, with the tokens still ahead of the lexer (`toks`) as state.
* C50 the lexical grammar is a set of relations over characters (`LexGrammar.v`)
  that shares with the lexer only UTF-8 decoding and `unicode.IsDigit`. Each loop
  of the lexer is shown to read one of its constructs; each construct is shown
  to be determined by the input; so the lexer and the grammar agree both ways.
* C51 from the grammar of C47: every construct spells a row of tokens, which lie
  in the file one after the other.
* C52 the transformer is shown to report only at nodes it was given (or the zero
  span), and every heap cell to hold nodes of the file its Parse call read, over
  all schedules. False as stated when imports are inlined.
* C53 an invariant over all schedules: on the way down the shared state is an
  explicit function of the files parsed so far, on the way up each call keeps what
  belongs to the calls above it; Transform on shared nodes is compared with
  Transform on lists. The meaning (`InlineSpec.v`) is a recursion over files. If
  the recursion has a value, Compile returns it under every schedule without a
  crash (C34, C45); if it has none, Compile never returns.
* C54 the transforms keep the class `writable` of C16 (OutputProofs.v), and the
  map comment is skipped (RoundMap.v); composed with C36, C35 and C53. Sums in
  calc() are not in the class; a source may contain them where Transform computes
  them (`readySource`), that is outside definitions of variables and, so far,
  without var() inside.
* C55 `RaceSpec.v` lists for every state of Compile.v which shared variables each
  goroutine is about to access, whether it writes, and under which lock; a race
  is a reachable state with two conflicting accesses. Without a loop of two
  rounds one goroutine runs at a time (invariant); with one, a schedule that
  leads to the loop is constructed. The accesses of a Transform call are all its
  nodes, the reporter and its replacements; the printing goroutines have no
  conflicts.
* C56 false as stated. What a first pass returns is shown to be a fixed point of a
  second pass from fresh definitions, when the source is settled; an induction
  over the chain of files then splits the rules of the importer. Depth is shown to
  matter only for the names of pointers, so that the imported file's rules are
  those it has as an entry (C53).
* C57 false as stated. Transform commutes with forgetting positions (an equation
  for every function of the transformer, `StripTrans.v`) and, on a fixed point,
  with dropping white space at the end of selectors; with C54 (what is read back)
  and C56 (fixed points) the second run gives the same rules up to positions.
* C58 false as stated. The reports about variables are computed by a separate
  specification from the tree (which calls are looked at, against which
  definitions); every function of the transformer is shown to add exactly its
  share, and every other report to have another message.
* C59 false as stated. Soundness is an invariant of every reachable state: each
  goroutine works on requested files, on nodes as parsed or as transformed from
  one involved file, and each error has its cause in the project. Completeness
  follows each request (a call, an @import, a file) from the goroutine that
  serves it to its answer among the errors. For one entry and single @imports
  every schedule is shown to keep calls of addSource apart.
* C60 by the grammars of C49 and C50. A plain file ends at a semicolon or a
  closing brace; before such a character no rule of the lexical grammar is
  changed by what follows the file (`JoinLex.v`), so the tokens are those of the
  first file and, moved, those of the second (`JoinTokens.v`); the grammar is
  invariant under moving (`JoinRead.v`), and does not look at the text.
* C61 by the same lemmas as C60, for positions that are spread where the white
  space or the comment is added: tokens before it are unchanged because they end
  in a punctuation mark (`LayoutLex.v`) or before white space, a slash or a
  punctuation mark (`LayoutSwap.v`), tokens after it are moved.  When imports
  are inlined the two runs of the transform are compared rule by rule, with
  each @import replaced in both or in neither (`LayoutInline.v`).
* C62 by the grammar of C47 and the layout of its tokens: a token that is read
  with white space kept has only comments before it, and of all parts only an
  attribute selector lets the next token be read with white space skipped.
* C63 by running the model on the one stylesheet each program has, for all
  Unicode tables, and the stability of Parse in the number of steps.
* C64 from C36 (what the output is), C08 (the line table), C51 (positions lie in
  the file), C22 (what the printer writes for such positions), and an induction
  over the transform for the positions that remain.
* C65 by a small account of what a browser applies (`ApplySpec.v`: imports count
  before all other rules and on devices that meet their condition; supports
  conditions, layers and the effect of custom media are left out). The transform
  with other options off is the replacement of each @import and the removal of
  rules that do nothing; then induction over the inlined chain of C53.
* C66 by running the lexer and the parser on both files side by side: as long as
  the first is 8 bytes before the point where the files part, the second is in
  the same state (`LaterLex.v` for a token, `LaterParse.v` and `LaterSheet.v` for
  each function of the parser, `LaterErr.v` for the place of errors).  A
  declaration is read a second time as raw text after an error; the first
  attempt may go beyond the semicolon that ends the raw text, because any token
  after `!/*important*/` is passed over, but not beyond the bracket that closes
  the declarations: the declarations that are read in the end show that this
  bracket does not come directly after an exclamation mark (`LaterRaw.v`).
* C67 in the same way for errors: first for a token (`LaterStop.v`), then for each
  function of the parser (`LaterSame.v`).  In declarations an error can only come
  from a token, and all tokens before it are read alike in both files, so the
  failed attempts before it end alike too.

## Findings

Lexer
* `<!--`, `-->` and a dot before a signed or dotted number (`..5`, `.+5`) give an
  empty token without moving on (C04).
* An escaped quote ends a string; a lone CR is folded into the next character,
  so `*` CR `/` ends a comment (C05).
* An escape of a character that is not a hexadecimal digit consumes the
  backslash only, so `\{` is the name `\` and a brace; five instead of six
  digits are taken, and white space after each of them. `-\61` is not a name and
  `1\61` not a dimension. `.+5` is an empty number (C50).
* Every decimal digit of Unicode starts a number and counts as hexadecimal.
* The string of a token that carries none is that of the last token or comment
  before it, which the parser then reads (C47, C50).

Parser
* Loops for ever: a declaration without a later semicolon (`a{b}`, an unclosed
  block, `@foo`), `calc(;`, `<!--`, `-->` (C10).
* Crashes: an unterminated comment at the start of the file, `@custom-media
  --x;`, `[a=calc(+)]{}` (C11).
* A broken declaration swallows everything up to the next semicolon, even in
  another rule: `a{b}c{d:e;}` (C13). Its lines are entered twice (C08).
* Accepted although malformed (C47): `!/*important*/5` and `!"important"` as
  `!important`; `[a>b]` as `[a=b]`; `[a"^"=b]`; a function closed by any token;
  `calc(())`; keyframe lists without commas, of which only the last is kept; a
  generic at-rule opened by any one token; `@import` without semicolon;
  `(a:)` with a nil value. `(1px < width > 2px)` is rejected.
* White space after an attribute selector is swallowed, so `[a] b` means
  `[a]b` (C62); `:not(a, b)` keeps the space as a part.
* `{}` has a nil prelude and `@media {}` a typed nil; Transform crashes on both
  (C31).
* `Walk` panics on `[c]` values and on `@media {}`; it does not visit the
  arguments of pseudo classes or the property of a range (C48).

Printer
* Attribute selectors lose operator and modifier; strings are always written
  with `"`; function arguments lose spaces; `calc(1px + 2px)` is printed without
  spaces, which is not valid CSS; `:nth-child(n - 2)` becomes `n-2`, `(-5)`
  becomes `5`, `(0)` becomes empty, `1n+2` becomes `n+2` (C16, C17).
* The VLQ encoder loses bit 30 (C21). Generated columns count characters,
  original ones bytes (C22). In the map's JSON the `file` field is not escaped;
  inlined imports are mapped with the entry's name and line table, and after a
  broken declaration over several lines every mapping is lines too far (C64).

Transformer
* Selectors with two `:any-link` lose the mixed combinations (C24).
* `@import` is duplicated, `@custom-media` and empty rules vanish with default
  options (C23, C29). Blocks of media rules are not transformed (C30).
* Inlining changes what applies: the condition of an inlined `@import` is dropped
  with a warning only; an `@import` after other rules, which browsers ignore,
  takes effect without a warning; one that stays (an external address, a missing
  file) behind an inlined one loses its effect; one behind an empty rule gains
  it (C65).
* `@import "a"` is not over until the next token: a condition may follow after
  any number of spaces, so the rule can change with text far behind it (C66).
* Custom media: uses before the definition, definitions by other custom queries
  and negated definitions are wrong (C26); ranges inside `@custom-media` are
  not lowered.
* Variables: only `:root {` with the space is recognised; nested, chained and
  early uses stay dangling (C27). Undefined variables go unreported inside
  functions, fallbacks, definitions and @media; definitions further down and
  empty fallbacks are reported as missing (C58).
* Definitions in imported files never reach the importer (C33).
* A result of calc() that overflows is written `+Inf`, e.g. `+Infpx`, which is
  read as a delimiter and a name; `:any-link(a)b` becomes `:linkb`;
  a sum that defines a variable is written without spaces where the variable is
  used, which is another value (C54).

Compile
* The loop variable is shared by the goroutines, so an entry may be compiled
  twice and another not at all; the last one always is (C35). The same holds for
  the @imports of a file. So a missing entry, an @import that does not resolve or
  a broken file may go without an error (C59).
* `sourcesMu` is released before `nextIndex++`: two files may get one index
  (C37), outputs get lost (C35), Parse(nil) crashes (C45), and Compile may never
  end (C34). Circular imports never end (C34). An entry that imports itself may
  be parsed twice (C36).
* The transformer is given the reporter without `c.mu` (api.go:207), and the
  plugin's reporter is an unprotected append: reports of two goroutines may get
  lost. The model adds the reports of one Transform call at once.
* Inlined rules are transformed once per importer on the way, so a file may compile
  to more when it is imported than by itself: `:root {--x:calc(1px + 2px)}a{b:var(--x)}`
  gives `calc(1px+2px)` alone and `3px` imported (C56). For the same reason outputs
  may change when they are compiled again, and passed-through @imports double
  every time (C57). A sum that calc() cannot compute is written without spaces:
  `a{b:calc(1px - 2em * 3)}` gives `calc(1px-2em*3)`, which is invalid, and compiled
  again `3px-2em` (C57).
* Data races exist exactly with two entries or a file with two @imports (C55): on
  the loop variables, on the map `outputsByIndex` (written without a lock, which
  Go's runtime stops with "concurrent map writes"), on `nextIndex`, and on the
  nodes of a file inlined twice.
* Inlining shares nodes between entries, which then see each other's
  transformations (C43).
* With inlining, the nodes of an imported file are transformed once more for the
  importer, and what is reported then names the importer with a position in the
  imported file. If that is beyond the importer's end, rendering the message
  panics: `@import "b";` with an undefined variable far enough down in b stops
  the program (C52).

Plugin and messages
* A syntax error has no location; a located one gives two messages; `Line` holds
  a byte offset; warnings fail the build (C41). The underline is misplaced when
  a tab follows (C42).

Resolver
* `/node_modules` is never searched (C39); a relative directory loops (C40); a
  package whose `style` is a directory gives an empty path without an error
  (C38).
