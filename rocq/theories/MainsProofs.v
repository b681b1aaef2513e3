(** The programs run to their end (C63). *)
From Verif Require Import Bytes Utf8 Source Lexer LexSpec Ast Parser ParseMono Printer Mains.

(** What they print, before the comment with the source map. *)
Definition cliText : bytes :=
  B "@import ""test.css"";@import ""./testing.css"";@import ""tester.css"";" ++
  B ".class{width:2rem;margin:2em 1px;height:20%;padding:0;color:rgb(255,255,calc(2+2))}" ++
  B "section{float:left;margin:1em;border:solid 1px;width:calc(100%/3-2*1em-2*1px)}" ++
  B "section .child{}section.self{}" ++
  B "[test=""hello""]{}[test=hello]{}[test=hello]{}[test=2.5]{}[test]{}" ++
  B "@media (width:600px),(200px<width<600px),(200px<width),(width<600px){.c{height:100%}}" ++
  B "@media not screen{.c{height:100%}}@media screen and (color),projection and (color){.c{height:100%}}" ++
  B "@media not (width<=-100px){body{background:green}}@media (min-width:30em) and (orientation:landscape){body{background:green}}" ++
  B "@import ""landscape.css"" screen and (orientation:landscape);".
Definition manualText : bytes :=
  B "body{background-color:purple}@media not (width<=-100px){body{background:red}}" ++
  B "@media (min-width:30em) and (orientation:landscape){body{background:green}}" ++
  B "@import ""landscape.css"" screen and (orientation:landscape);.a{color:white}.b{color:red}".
Section WithUnicode.
Context {U : UnicodeDigits}.
Definition steps63 : nat := 2000.
Lemma cli_parses : exists ss lines, parse 0 steps63 cliContent = ParseOk ss lines /\
  exists rest, print (Some (mkSource [] cliContent lines)) (ss_nodes ss) = Some (cliText ++ [LF] ++ B "/*# sourceMappingURL=" ++ rest).
Proof.
  destruct (parse 0 steps63 cliContent) as [ss lines| | |] eqn:E; [exists ss, lines; split; [reflexivity|]|exfalso..]; vm_compute in E; try discriminate.
  injection E as <- <-. eexists. vm_compute. reflexivity.
Qed.
Lemma C63_cli_lemma : exists n0 rest, forall n, (n0 <= n)%nat -> cliMain n = Ended (Some (cliText ++ [LF] ++ B "/*# sourceMappingURL=" ++ rest)) None.
Proof.
  destruct cli_parses as (ss & lines & E & rest & P). exists steps63, rest. intros n Hn. unfold cliMain.
  rewrite (parse_stable 0 _ _ _ Hn), E, P by (rewrite E; discriminate). reflexivity.
Qed.
Lemma manual_parses : exists ss lines, parse 0 steps63 manualContent = ParseOk ss lines /\
  exists rest, print (Some (mkSource (B "index.css") manualContent lines)) (ss_nodes ss) = Some (manualText ++ [LF] ++ B "/*# sourceMappingURL=" ++ rest).
Proof.
  destruct (parse 0 steps63 manualContent) as [ss lines| | |] eqn:E; [exists ss, lines; split; [reflexivity|]|exfalso..]; vm_compute in E; try discriminate.
  injection E as <- <-. eexists. vm_compute. reflexivity.
Qed.
Lemma C63_manual_lemma : exists n0 rest, forall n, (n0 <= n)%nat -> let out := manualText ++ [LF] ++ B "/*# sourceMappingURL=" ++ rest in
  manualMain true n = Ended (Some out) (Some out) /\ manualMain false n = BadWrite.
Proof.
  destruct manual_parses as (ss & lines & E & rest & P). exists steps63, rest. intros n Hn. unfold manualMain.
  rewrite (parse_stable 0 _ _ _ Hn), E, P by (rewrite E; discriminate). auto.
Qed.
End WithUnicode.
