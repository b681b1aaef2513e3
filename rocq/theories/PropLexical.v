(** Property theorems C50: the lexer against the lexical grammar of
    LexGrammar.v. *)
From Verif Require Import Bytes Utf8 Source Ast Lexer LexSpec Parser LexGrammar ReadSpec FullExamples LexStreamSpec LexStream LexExamples Samples.

(** What a call of Next delivers is the token the grammar finds at this offset;
    when it fails, the grammar finds none, and says why and where. *)
Theorem C50_next_follows_grammar : forall (U : UnicodeDigits) content l ws com, session content l ->
  match next (withFlags l ws com) with
  | Ok l' => exists p o, tokenAt content ws com (l_lastPos l) (l_cur l') p (l_start l') (l_lastPos l') o /\
      l_str l' = strAfter p (heard o (l_str l)) /\ l_num l' = numAfter p (l_num l)
  | Panic e _ => exists m b e', e = PLex (mkSpan b e') m /\ errorAt content ws com (l_lastPos l) m b e'
  | Timeout => False
  end.
Proof. exact @C50_next_lemma. Qed.
Print Assumptions C50_next_follows_grammar.

(** The first token, read by NewLexer. *)
Theorem C50_first_follows_grammar : forall (U : UnicodeDigits) content,
  match newLexer content [] with
  | Ok l' => exists p o, tokenAt content false false 0 (l_cur l') p (l_start l') (l_lastPos l') o /\
      l_str l' = strAfter p (heard o []) /\ l_num l' = numAfter p []
  | Panic e _ => exists m b e', e = PLex (mkSpan b e') m /\ errorAt content false false 0 m b e'
  | Timeout => False
  end.
Proof. exact @C50_first_lemma. Qed.
Print Assumptions C50_first_follows_grammar.

(** Conversely: a token of the grammar is delivered, an error is reported. *)
Theorem C50_token_is_delivered : forall (U : UnicodeDigits) content l ws com k p b e o, session content l ->
  tokenAt content ws com (l_lastPos l) k p b e o ->
  exists l', next (withFlags l ws com) = Ok l' /\ l_cur l' = k /\ l_str l' = strAfter p (heard o (l_str l)) /\
    l_num l' = numAfter p (l_num l) /\ l_start l' = b /\ l_lastPos l' = e.
Proof. exact @C50_token_lemma. Qed.
Print Assumptions C50_token_is_delivered.
Theorem C50_error_is_reported : forall (U : UnicodeDigits) content l ws com m b e, session content l ->
  errorAt content ws com (l_lastPos l) m b e ->
  exists lines, next (withFlags l ws com) = Panic (PLex (mkSpan b e) m) lines.
Proof. exact @C50_error_lemma. Qed.
Print Assumptions C50_error_is_reported.

(** The grammar is unambiguous. *)
Theorem C50_grammar_unambiguous : forall (U : UnicodeDigits) content ws com a,
  (forall k p b e o k' p' b' e' o', tokenAt content ws com a k p b e o -> tokenAt content ws com a k' p' b' e' o' ->
     k = k' /\ p = p' /\ b = b' /\ e = e' /\ o = o') /\
  (forall m b e m' b' e', errorAt content ws com a m b e -> errorAt content ws com a m' b' e' -> m = m' /\ b = b' /\ e = e') /\
  (forall k p b e o m b' e', tokenAt content ws com a k p b e o -> errorAt content ws com a m b' e' -> False).
Proof. exact @C50_unique_lemma. Qed.
Print Assumptions C50_grammar_unambiguous.

(** The file "/* */ -1.5e+3p\78 x url( a\29 b )": its first token, then the
    second with white space skipped and with white space kept. *)
Example C50_dimension : let U := asciiOnly in
  exists o, tokenAt lexFile false false 0 Dimension (PlBoth (B "-1.5e+3") (B "p\78 x")) 6 19 o.
Proof. exact C50_dimension_lemma. Qed.
Example C50_session : let U := asciiOnly in
  exists l o o', session lexFile l /\ l_lastPos l = 19%nat /\
    tokenAt lexFile false false (l_lastPos l) URL (PlStr (B "a\29 b ")) 20 33 o /\
    tokenAt lexFile true false (l_lastPos l) Whitespace PlNone 19 20 o'.
Proof. exact C50_session_lemma. Qed.
(** An error. *)
Example C50_broken : let U := asciiOnly in
  errorAt (B " url(a(b)") false false 0 (B "unexpected token: (") 1 6.
Proof. exact C50_broken_lemma. Qed.

(** * Whole files *)
(** The tokens Next delivers for a file are those of the grammar; which they
    are depends only on where white space is kept. *)
Theorem C50_tokens_of_file : forall (U : UnicodeDigits) content ts, tokensOf content ts <-> tokenized content ts.
Proof. exact @C50_same_tokens_lemma. Qed.
Print Assumptions C50_tokens_of_file.
Theorem C50_tokens_unique : forall (U : UnicodeDigits) content ts ts', tokenized content ts -> tokenized content ts' ->
  map k_kept ts = map k_kept ts' -> ts = ts'.
Proof. exact @C50_flags_lemma. Qed.
Print Assumptions C50_tokens_unique.

(** From bytes to tree, lexical grammar and grammar together: what the parser
    accepts is a reading of the bytes of the file; a plain reading of the bytes
    is found, and there is at most one. *)
Theorem C50_tree_reads_bytes : forall (U : UnicodeDigits) run n content ss lines,
  parse run n content = ParseOk ss lines -> readsBytes run content (ss_nodes ss).
Proof. exact @C50_parse_lemma. Qed.
Print Assumptions C50_tree_reads_bytes.
Theorem C50_plain_bytes_accepted : forall (U : UnicodeDigits) run content nds, readsBytesPlainly run content nds ->
  exists imps lines n0, forall n, (n0 <= n)%nat -> parse run n content = ParseOk (mkSheet nds imps) lines.
Proof. exact @C50_accept_lemma. Qed.
Print Assumptions C50_plain_bytes_accepted.
Theorem C50_plain_bytes_one_tree : forall (U : UnicodeDigits) run content nds nds',
  readsBytesPlainly run content nds -> readsBytesPlainly run content nds' -> nds = nds'.
Proof. exact @C50_one_tree_lemma. Qed.
Print Assumptions C50_plain_bytes_one_tree.
Example C50_sample : @readsBytesPlainly asciiOnly 0 text49 tree49.
Proof. exact C50_sample_lemma. Qed.
