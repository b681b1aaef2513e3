(** C47: the tree says what the file says. *)
From Verif Require Import Bytes Utf8 Source Ast Lexer LexSpec Parser Strip ReadSpec ReadProofs ReadExamples Samples.

(** ** C47 *)
(** Whatever Parse returns is a reading of the file: the nodes are derived from
    the tokens of the file, all of them and in their order, by the grammar of
    ReadSpec.v, which also fixes every span. *)
Theorem C47_tree_is_a_reading : forall (U : UnicodeDigits) run n content ss lines,
  parse run n content = ParseOk ss lines -> reads run content (ss_nodes ss).
Proof. exact @C47_lemma. Qed.
Print Assumptions C47_tree_is_a_reading.
Example C47_sample : exists ss lines, @parse asciiOnly 0 200 text47 = ParseOk ss lines /\
  strip (ss_nodes ss) = tree47 /\ @reads asciiOnly 0 text47 (ss_nodes ss).
Proof. exact C47_sample_lemma. Qed.

(** The tokens of a reading make up the whole file: each is the text at its
    span, and between them there is only skipped white space and comments. *)
Theorem C47_tokens_cover_file : forall (U : UnicodeDigits) content ts, tokensOf content ts ->
  exists b, laidOut content 0 ts b /\ skipped false false (sub content b (length content)).
Proof. exact @C47_layout_lemma. Qed.
Print Assumptions C47_tokens_cover_file.
(** One of the liberties the grammar has to allow: "!" followed by a comment
    that holds the word "important" and then by any token. *)
Example C47_comment : exists ss lines, @parse asciiOnly 0 60 text47b = ParseOk ss lines /\
  map (fun nd => match nd with NRule r => r_decls r | NAt _ => [] end) (ss_nodes ss) =
    [[DDecl (mkSpan 2 21) (B "b") [VIdent (mkSpan 4 5) (B "c")] true]].
Proof. exact C47_comment_lemma. Qed.
