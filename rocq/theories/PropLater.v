(** Property theorems C66, C67: what comes later in a file. *)
From Verif Require Import Bytes Utf8 Source Lexer Ast Parser ParserSpec LaterSpec LaterProofs Samples LaterExamples.

(** ** C66 *)
(** Two accepted files of any length whose first [k] bytes are the same.  If a
    rule of the first is closed by its own bracket at least 16 bytes before the
    files part, then it and all rules before it are the first rules of the
    other file too, with the same positions.
    Missing: rules that no bracket closes, for which it does not hold (below). *)
Theorem C66_closed_partial : forall (U : UnicodeDigits) run n n' k c c' ss lines ss' lines' pre nd post, alike k c c' ->
  parse run n c = ParseOk ss lines -> parse run n' c' = ParseOk ss' lines' ->
  ss_nodes ss = pre ++ nd :: post -> wellBefore k nd -> closed nd ->
  exists post', ss_nodes ss' = pre ++ nd :: post'.
Proof. exact @C66_closed_lemma. Qed.
Print Assumptions C66_closed_partial.
Example C66_sample : alike 53 file1 file2 /\ (exists l1 l2, @parse asciiOnly 0 100 file1 = ParseOk sheet1 l1 /\ @parse asciiOnly 0 100 file2 = ParseOk sheet2 l2) /\
  ss_nodes sheet1 = [rule1] ++ rule2 :: [rule3] /\ wellBefore 53 rule2 /\ closed rule2 /\ ~ Forall noRawNode [rule1] /\
  nth_error (ss_nodes sheet2) 1 = Some rule2 /\ nth_error (ss_nodes sheet2) 2 <> Some rule3.
Proof. exact C66_sample_lemma. Qed.

(** If the rule is not closed by a bracket, the rules before it are. *)
Theorem C66_before_partial : forall (U : UnicodeDigits) run n n' k c c' ss lines ss' lines' pre nd post, alike k c c' ->
  parse run n c = ParseOk ss lines -> parse run n' c' = ParseOk ss' lines' ->
  ss_nodes ss = pre ++ nd :: post -> wellBefore k nd ->
  exists post', ss_nodes ss' = pre ++ post'.
Proof. exact @C66_before_lemma. Qed.
Print Assumptions C66_before_partial.
Example C66_before_sample : alike 37 file3 file4 /\ (exists l1 l2, @parse asciiOnly 0 100 file3 = ParseOk sheet3 l1 /\ @parse asciiOnly 0 100 file4 = ParseOk sheet4 l2) /\
  ss_nodes sheet3 = [first3] ++ open3 :: [after3] /\ wellBefore 37 open3 /\ nth_error (ss_nodes sheet4) 0 = Some first3.
Proof. exact C66_before_sample_lemma. Qed.

(** If the other file is rejected, the error is placed at or behind the start of
    the rule, and behind its end if it is closed by a bracket. *)
Theorem C66_errors_later_partial : forall (U : UnicodeDigits) run n n' k c c' ss lines sp msg lines' pre nd post, alike k c c' ->
  parse run n c = ParseOk ss lines -> parse run n' c' = ParseErr sp msg lines' ->
  ss_nodes ss = pre ++ nd :: post -> wellBefore k nd ->
  (sp_start (nodeSpan nd) <= sp_start sp)%nat /\ (closed nd -> (sp_end (nodeSpan nd) <= sp_start sp)%nat).
Proof. exact @C66_errors_lemma. Qed.
Print Assumptions C66_errors_later_partial.
Example C66_errors_sample : alike 53 file1 file5 /\ (exists l1, @parse asciiOnly 0 100 file1 = ParseOk sheet1 l1) /\
  ss_nodes sheet1 = [rule1] ++ rule2 :: [rule3] /\ wellBefore 53 rule2 /\ closed rule2 /\
  exists sp msg l2, @parse asciiOnly 0 100 file5 = ParseErr sp msg l2 /\ sp_start sp = 54%nat.
Proof. exact C66_errors_sample_lemma. Qed.

(** An @import without a condition may get one after any number of spaces: that
    a rule has ended is not known before the next token. *)
Theorem C66_open_refuted : exists (U : UnicodeDigits) run n k c c' ss lines ss' lines' pre nd post, alike k c c' /\ parse run n c = ParseOk ss lines /\ parse run n c' = ParseOk ss' lines' /\
  ss_nodes ss = pre ++ nd :: post /\ wellBefore k nd /\ ~ exists post', ss_nodes ss' = pre ++ nd :: post'.
Proof. exact C66_open_lemma. Qed.
Print Assumptions C66_open_refuted.

(** ** C67 *)
(** A rejected file whose error ends at least 16 bytes before the files part:
    every other file with the same first [k] bytes is rejected with the same
    error, at the same place. *)
Theorem C67_same_error : forall (U : UnicodeDigits) run n k c c' sp msg lines, alike k c c' ->
  parse run n c = ParseErr sp msg lines -> (sp_end sp + 16 <= k)%nat ->
  parse run n c' = ParseErr sp msg lines.
Proof. exact @C67_same_error_lemma. Qed.
Print Assumptions C67_same_error.
Example C67_same_error_sample : alike 39 file6 file7 /\ @parse asciiOnly 0 100 file6 = ParseErr (fst (fst place6)) (snd (fst place6)) (snd place6) /\
  (sp_end (fst (fst place6)) + 16 <= 39)%nat /\ (0 < sp_start (fst (fst place6)))%nat /\ snd (fst place6) <> [].
Proof. exact C67_same_error_sample_lemma. Qed.

(** So if a file is accepted, no file with the same first [k] bytes has an error
    that ends well before. *)
Theorem C67_accepted : forall (U : UnicodeDigits) run n n' k c c' ss lines sp msg lines', alike k c c' ->
  parse run n c = ParseOk ss lines -> parse run n' c' = ParseErr sp msg lines' -> (k < sp_end sp + 16)%nat.
Proof. exact @C67_accepted_lemma. Qed.
Print Assumptions C67_accepted.
Example C67_accepted_sample : alike 53 file1 file5 /\ (exists l1, @parse asciiOnly 0 100 file1 = ParseOk sheet1 l1) /\
  exists sp msg l2, @parse asciiOnly 0 100 file5 = ParseErr sp msg l2 /\ sp_start sp = 54%nat.
Proof. exact C67_accepted_sample_lemma. Qed.
