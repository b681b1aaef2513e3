(** C49: the parser accepts every file the grammar plainly describes. *)
From Verif Require Import Bytes Utf8 Source Ast Lexer LexSpec Parser ReadSpec FullSheet FullExamples Samples.

(** ** C49 *)
(** If the tokens of a file have a reading by the grammar of ReadSpec.v that
    takes no liberties, then with enough fuel Parse succeeds and the tree is
    that reading, with its spans. *)
Theorem C49_plain_reading_is_found : forall (U : UnicodeDigits) run content nds, readsPlainly run content nds ->
  exists imps lines n0, forall n, (n0 <= n)%nat -> parse run n content = ParseOk (mkSheet nds imps) lines.
Proof. exact @C49_lemma. Qed.
Print Assumptions C49_plain_reading_is_found.
(** The file "@import 'x' print;a .b{*d:calc(2*i) !important;e:f}". *)
Example C49_sample : @readsPlainly asciiOnly 0 text49 tree49.
Proof. exact C49_sample_lemma. Qed.

(** So a file has at most one plain reading, whatever its flags. *)
Theorem C49_plain_reading_is_unique : forall (U : UnicodeDigits) run content nds nds',
  readsPlainly run content nds -> readsPlainly run content nds' -> nds = nds'.
Proof. exact @C49_unique_lemma. Qed.
Print Assumptions C49_plain_reading_is_unique.
