(** The two programs in the repository: cli/main.go and
    internal/printer/manualtest/main.go.  Neither reads its arguments, so each
    has one execution (but for the file that the second writes). *)
From Verif Require Import Bytes Utf8 Source Lexer LexSpec Ast Parser Printer.

(** The stylesheet in cli/main.go:14-66. *)
Definition cliContent : bytes :=
  B "@import ""test.css"";" ++ [LF] ++
  B "@import url(""./testing.css"");" ++ [LF] ++
  [TAB] ++ B "@import url(tester.css);" ++ [LF] ++
  [TAB] ++ B "/* some notes about the next line" ++ [LF] ++
  [TAB] ++ B "are here */" ++ [LF] ++
  B "" ++ [LF] ++
  [TAB] ++ B ".class {" ++ [LF] ++
  [TAB; TAB] ++ B "width: 2rem;" ++ [LF] ++
  [TAB; TAB] ++ B "margin: 2em 1px;" ++ [LF] ++
  [TAB; TAB] ++ B "height: 20%;" ++ [LF] ++
  [TAB; TAB] ++ B "padding: 0;" ++ [LF] ++
  [TAB; TAB] ++ B "color: rgb(255, 255, calc(2 + 2));" ++ [LF] ++
  [TAB] ++ B "}" ++ [LF] ++
  B "" ++ [LF] ++
  [TAB] ++ B "section {" ++ [LF] ++
  [TAB; TAB] ++ B "float: left;" ++ [LF] ++
  [TAB; TAB] ++ B "margin: 1em; border: solid 1px;" ++ [LF] ++
  [TAB; TAB] ++ B "width: calc(100%/3 - 2*1em - 2*1px);" ++ [LF] ++
  [TAB] ++ B "}" ++ [LF] ++
  B "" ++ [LF] ++
  [TAB] ++ B "/*" ++ [LF] ++
  [TAB; TAB] ++ B "here we are:" ++ [LF] ++
  [TAB] ++ B "*/" ++ [LF] ++
  [TAB] ++ B "section .child {}" ++ [LF] ++
  [TAB] ++ B "section.self {}" ++ [LF] ++
  B "" ++ [LF] ++
  [TAB] ++ B "[test=""hello""] {}" ++ [LF] ++
  [TAB] ++ B "[test=hello] {}" ++ [LF] ++
  [TAB] ++ B "[test*=hello] {}" ++ [LF] ++
  [TAB] ++ B "[test^=2.5] {}" ++ [LF] ++
  [TAB] ++ B "[test] {}" ++ [LF] ++
  B "" ++ [LF] ++
  [TAB] ++ B "@media (width: 600px), (200px < width < 600px), (200px < width), (width < 600px) {" ++ [LF] ++
  [TAB; TAB] ++ B ".c {height: 100%;}" ++ [LF] ++
  [TAB] ++ B "}" ++ [LF] ++
  B "" ++ [LF] ++
  [TAB] ++ B "@media not screen {" ++ [LF] ++
  [TAB; TAB] ++ B ".c {height: 100%;}" ++ [LF] ++
  [TAB] ++ B "}" ++ [LF] ++
  B "" ++ [LF] ++
  [TAB] ++ B "@media screen and (color), projection and (color) {" ++ [LF] ++
  [TAB; TAB] ++ B ".c {height: 100%;}" ++ [LF] ++
  [TAB] ++ B "}" ++ [LF] ++
  B "" ++ [LF] ++
  [TAB] ++ B "@media not (width <= -100px) {" ++ [LF] ++
  [TAB; TAB] ++ B "body { background: green; }" ++ [LF] ++
  [TAB] ++ B "}" ++ [LF] ++
  [TAB] ++ B "@media (min-width: 30em) and (orientation: landscape) {" ++ [LF] ++
  [TAB; TAB] ++ B "body { background: green; }" ++ [LF] ++
  [TAB] ++ B "}" ++ [LF] ++
  B "" ++ [LF] ++
  [TAB] ++ B "@import url('landscape.css') screen and (orientation: landscape);" ++ [LF] ++
  [TAB] ++ B "".
(** The stylesheet in internal/printer/manualtest/main.go:17-42. *)
Definition manualContent : bytes :=
  B "" ++ [LF] ++
  [TAB] ++ B "body {" ++ [LF] ++
  [TAB; TAB] ++ B "background-color: purple;" ++ [LF] ++
  [TAB] ++ B "}" ++ [LF] ++
  B "" ++ [LF] ++
  [TAB] ++ B "@media not (width <= -100px) {" ++ [LF] ++
  [TAB; TAB] ++ B "body {" ++ [LF] ++
  [TAB; TAB; TAB] ++ B "background: red;" ++ [LF] ++
  [TAB; TAB] ++ B "}" ++ [LF] ++
  [TAB] ++ B "}" ++ [LF] ++
  [TAB] ++ B "@media (min-width: 30em) and (orientation: landscape) {" ++ [LF] ++
  [TAB; TAB] ++ B "body {" ++ [LF] ++
  B "" ++ [LF] ++
  [TAB; TAB; TAB] ++ B "background: green;}" ++ [LF] ++
  [TAB] ++ B "}" ++ [LF] ++
  B "" ++ [LF] ++
  [TAB] ++ B "@import url('landscape.css') screen and (orientation: landscape);" ++ [LF] ++
  B "" ++ [LF] ++
  [TAB] ++ B ".a {" ++ [LF] ++
  [TAB; TAB] ++ B "color: white;" ++ [LF] ++
  [TAB] ++ B "}" ++ [LF] ++
  B "" ++ [LF] ++
  [TAB] ++ B ".b {" ++ [LF] ++
  [TAB; TAB] ++ B "color: red;" ++ [LF] ++
  [TAB] ++ B "}" ++ [LF] ++
  [TAB] ++ B "".

(** How a program ends: with what it has logged as the printed text (of cli/main.go
    also the error of Print, [None]), by a panic of its own after Parse (l. 71,
    manualtest l. 47) or after Print or WriteFile (manualtest l. 55, 61), by a
    panic inside Parse, or not within the steps allowed. *)
Inductive ending := Ended (logged : option bytes) (written : option bytes) | BadParse | BadPrint | BadWrite | Crashed | Unfinished.
Section WithUnicode.
Context {U : UnicodeDigits}.
(** main, cli/main.go:12-78.  What spew prints of the tree is not modelled. *)
Definition cliMain (n : nat) : ending :=
  match parse 0 n cliContent with
  | ParseOk ss lines => Ended (print (Some (mkSource [] cliContent lines)) (ss_nodes ss)) None
  | ParseErr _ _ _ => BadParse
  | ParseCrash => Crashed
  | ParseTimeout => Unfinished
  end.
(** main, manualtest/main.go:14-63; [canWrite]: WriteFile succeeds. *)
Definition manualMain (canWrite : bool) (n : nat) : ending :=
  match parse 0 n manualContent with
  | ParseOk ss lines =>
    match print (Some (mkSource (B "index.css") manualContent lines)) (ss_nodes ss) with
    | Some out => if canWrite then Ended (Some out) (Some out) else BadWrite
    | None => BadPrint
    end
  | ParseErr _ _ _ => BadParse
  | ParseCrash => Crashed
  | ParseTimeout => Unfinished
  end.
End WithUnicode.
