(** C60: two plainly written files in a row read as the first file followed by
    the second, moved. *)
From Verif Require Import Bytes Utf8 Source Lexer Ast Parser Printer LexStreamSpec Samples FullExamples JoinSpec JoinProofs JoinExamples.

(** By the grammar: the readings of the two files are the reading of the files
    in a row; nothing is needed between them. *)
Theorem C60_readings_join : forall (U : UnicodeDigits) run a b na nb,
  readsBytesPlainly run a na -> readsBytesPlainly run b nb ->
  readsBytesPlainly run (a ++ b) (na ++ map (moveNode (later (length a))) nb).
Proof. exact @C60_reads_lemma. Qed.
Print Assumptions C60_readings_join.
(** The parser: all three files are accepted, the tree of the files in a row is
    made of the two trees, and so are the import targets. *)
Theorem C60_parser_joins : forall (U : UnicodeDigits) run a b na nb,
  readsBytesPlainly run a na -> readsBytesPlainly run b nb ->
  exists n0, forall n, (n0 <= n)%nat -> exists ssa la ssb lb ss l,
    parse run n a = ParseOk ssa la /\ parse run n b = ParseOk ssb lb /\ parse run n (a ++ b) = ParseOk ss l /\
    ss_nodes ss = ss_nodes ssa ++ map (moveNode (later (length a))) (ss_nodes ssb) /\
    map fst (ss_imports ss) = map fst (ss_imports ssa) ++ map fst (ss_imports ssb).
Proof. exact @C60_parse_lemma. Qed.
Print Assumptions C60_parser_joins.
(** Printed without a source map, the text of the files in a row is the two
    texts in a row. *)
Theorem C60_texts_join : forall (U : UnicodeDigits) run n a b na nb ssa la ssb lb ss l ta tb,
  readsBytesPlainly run a na -> readsBytesPlainly run b nb ->
  parse run n a = ParseOk ssa la -> parse run n b = ParseOk ssb lb -> parse run n (a ++ b) = ParseOk ss l ->
  print None (ss_nodes ssa) = Some ta -> print None (ss_nodes ssb) = Some tb -> print None (ss_nodes ss) = Some (ta ++ tb).
Proof. exact @C60_text_lemma. Qed.
Print Assumptions C60_texts_join.
Example C60_sample : let U := asciiOnly in readsBytesPlainly 0 text49 tree49 /\ readsBytesPlainly 0 file60 tree60 /\
  (exists ss lines, parse 0 200 (text49 ++ file60) = ParseOk ss lines /\ ss_nodes ss = tree49 ++ map (moveNode (later 51)) tree60 /\
    map fst (ss_imports ss) = [B "x"; B "x"] /\ match nth_error (ss_nodes ss) 3 with Some (NRule r) => r_sp r = mkSpan 79 112 | _ => False end).
Proof. exact C60_sample_lemma. Qed.
Example C60_open_end : let U := asciiOnly in exists ss lines sp msg l2,
  parse 0 200 (B "@import 'x'") = ParseErr sp msg l2 /\ parse 0 200 (B "@import 'x'" ++ B "a{b:c}") = ParseOk ss lines /\
  match ss_nodes ss with [NAt a; NRule r] => r_prelude r = PrNil /\ length (ar_preludes a) = 2%nat | _ => False end.
Proof. exact C60_open_lemma. Qed.
