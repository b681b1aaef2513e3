(** Property theorems C01-C06, C08: the lexer. *)
From Verif Require Import Bytes Utf8 Source Lexer BytesFacts LexSpec LexFacts LexNext LexProps Samples.
From Coq Require Import Sorting.Sorted.

(** ** C01 *)
(** Every call returns a token or a lexing error: the loops of the model stop
    before their fuel (length of the file plus two iterations) is used up. *)
Theorem C01_next_terminates : forall (U : UnicodeDigits) content,
  newLexer content [] <> Timeout /\
  forall l ws com, session content l -> next (withFlags l ws com) <> Timeout.
Proof. exact C01_lemma. Qed.
Print Assumptions C01_next_terminates.

(** ** C02 *)
(** No Go run-time panic: every slice taken is in range, and a failure is a
    lexing error whose span lies in the file. *)
Theorem C02_no_runtime_panic : forall (U : UnicodeDigits) content r,
  (r = newLexer content [] \/
   exists l ws com, session content l /\ r = next (withFlags l ws com)) ->
  match r with
  | Ok l => (l_lastPos l <= l_pos l <= length content)%nat
  | Panic (PLex sp _) _ => (sp_start sp <= sp_end sp <= length content)%nat
  | Panic PRuntime _ => False
  | Timeout => False
  end.
Proof. exact C02_lemma. Qed.
Print Assumptions C02_no_runtime_panic.

(** ** C03 *)
Theorem C03_spans_ordered : forall (U : UnicodeDigits) content l ws com l',
  session content l -> next (withFlags l ws com) = Ok l' ->
  (l_start l <= l_lastPos l <= l_start l')%nat /\
  (l_start l' <= l_lastPos l' <= length content)%nat /\
  tokenSpan l' = mkSpan (l_start l') (l_lastPos l') /\
  l_content l' = content.
Proof. exact C03_lemma. Qed.
Print Assumptions C03_spans_ordered.

(** ** C04 *)
(** Full statement: every token other than EOF is non-empty.  It is false
    (below).  Proved: it holds except at the three inputs of [stuck], and a
    file without them gives at most as many tokens as it has bytes. *)
Theorem C04_progress_partial : forall (U : UnicodeDigits) content l ws com l',
  session content l -> next (withFlags l ws com) = Ok l' -> l_cur l' <> EOF ->
  (l_lastPos l < l_lastPos l')%nat \/ stuck (skipn (l_start l') content).
Proof. exact C04_lemma. Qed.
Print Assumptions C04_progress_partial.

Theorem C04_token_count_partial : forall (U : UnicodeDigits) content ls l,
  sessions content ls l -> (forall i, ~ stuck (skipn i content)) ->
  Forall (fun l => l_cur l <> EOF) ls -> (length ls <= length content)%nat.
Proof. exact C04_count_lemma. Qed.
Print Assumptions C04_token_count_partial.

(** The lexer never gets past "-->": every token ever delivered is the same
    empty one. *)
Theorem C04_progress_refuted : forall (U : UnicodeDigits),
  (exists l, session (B "-->") l) /\
  (forall l, session (B "-->") l -> l_cur l = CDC /\ l_lastPos l = 0%nat /\
     forall ws com, exists l', next (withFlags l ws com) = Ok l').
Proof. exact C04_refuted_lemma. Qed.
Print Assumptions C04_progress_refuted.

(** ** C05 *)
Theorem C05_gaps : forall (U : UnicodeDigits) content l ws com l',
  session content l -> next (withFlags l ws com) = Ok l' ->
  skipped ws com (sub content (l_lastPos l) (l_start l')) /\
  (noLoneCR content -> gapStrict (sub content (l_lastPos l) (l_start l'))).
Proof. exact C05_lemma. Qed.
Print Assumptions C05_gaps.

(** Before the first token. *)
Theorem C05_first_gap : forall (U : UnicodeDigits) content l,
  newLexer content [] = Ok l ->
  gap (sub content 0 (l_start l)) /\ (noLoneCR content -> gapStrict (sub content 0 (l_start l))).
Proof. exact C05_first_lemma. Qed.
Print Assumptions C05_first_gap.

(** After the last token: EOF is only delivered at the end of the file. *)
Theorem C05_eof_at_end : forall (U : UnicodeDigits) content l,
  session content l -> l_cur l = EOF -> l_lastPos l = length content.
Proof. exact C05_eof_lemma. Qed.
Print Assumptions C05_eof_at_end.

(** Without the condition on carriage returns the strict reading is false: a
    comment is closed by star, carriage return, slash. *)
Theorem C05_gaps_strict_refuted : forall (U : UnicodeDigits),
  exists content l, newLexer content [] = Ok l /\ ~ gapStrict (sub content 0 (l_start l)).
Proof. exact C05_refuted_lemma. Qed.
Print Assumptions C05_gaps_strict_refuted.

(** ** C06 *)
Theorem C06_token_text : forall (U : UnicodeDigits) content l,
  session content l ->
  let text := sub content (l_start l) (l_lastPos l) in
  tokenText (l_cur l) (l_str l) (l_num l) text /\
  (noLoneCR content -> tokenTextStrict (l_cur l) (l_str l) (l_num l) text).
Proof. exact C06_lemma. Qed.
Print Assumptions C06_token_text.

(** ** C08 *)
(** Plain tokenising; what the parser's backtracking does to the table is in
    PropParser.v. *)
Theorem C08_line_table : forall (U : UnicodeDigits) content l,
  session content l -> l_cur l = EOF ->
  l_lines l = lineStarts content /\
  StronglySorted lt (l_lines l) /\
  forall x, In x (l_lines l) <-> x = 0%nat \/ exists i, x = S i /\ nth_error content i = Some LF.
Proof. exact C08_lemma. Qed.
Print Assumptions C08_line_table.

(** The hypotheses are met: a session over a file with white space, a comment,
    a string and two lines reaches EOF. *)
Example session_sample :
  let U := asciiOnly in
  let content := B "@media /*x*/ 'a'" ++ [LF] ++ B "#b{1.5px}" in
  exists ls l, sessions content ls l /\ length ls = 7%nat /\ l_cur l = EOF /\
    noLoneCR content /\ (forall i, ~ stuck (skipn i content)) /\ l_lines l = [0; 17]%nat.
Proof. exact session_sample_lemma. Qed.
