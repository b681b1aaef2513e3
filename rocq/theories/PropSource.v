(** Property theorems C07, C09, C42: positions and error messages. *)
From Verif Require Import Bytes Utf8 Source LexSpec SourceSpec SourceProofs.

(** ** C07 *)
(** [position] walks the file byte by byte.  The table is the one C08 says the
    lexer builds.  Restricted to files below 2 GiB: Go converts to int32. *)
Theorem C07_line_and_column : forall path content loc,
  (sp_start loc <= length content)%nat -> Z.of_nat (length content) < 2147483647 ->
  lineAndCol (mkSource path content (lineStarts content)) loc = Some (position content (sp_start loc)).
Proof. exact C07_lemma. Qed.
Print Assumptions C07_line_and_column.

(** Above that size the column wraps around. *)
Theorem C07_huge_file_refuted :
  exists content loc, (sp_start loc <= length content)%nat /\
    lineAndCol (mkSource [] content (lineStarts content)) loc = Some (1, -2147483647) /\
    position content (sp_start loc) = (1, 2147483649).
Proof. exact C07_huge_lemma. Qed.
Print Assumptions C07_huge_file_refuted.

(** ** C09 *)
(** Never a crash, for any line table that starts with 0. *)
Theorem C09_error_rendering_total : forall s loc inner,
  hd_error (src_lines s) = Some 0%nat ->
  (sp_start loc <= sp_end loc)%nat -> (sp_end loc <= length (src_content s))%nat ->
  Z.of_nat (length (src_content s)) < 2147483647 -> Z.of_nat (length (src_lines s)) < 2147483648 ->
  exists msg, locationErrorString s loc inner = Some msg.
Proof. exact C09_lemma. Qed.
Print Assumptions C09_error_rendering_total.

(** With the right table the message names the position and quotes the line. *)
Theorem C09_error_rendering_content : forall path content loc inner,
  (sp_start loc <= sp_end loc)%nat -> (sp_end loc <= length content)%nat ->
  Z.of_nat (length content) < 2147483647 ->
  let line := lineOf content (sp_start loc) in
  let '(ln, col) := position content (sp_start loc) in
  exists marks,
  locationErrorString (mkSource path content (lineStarts content)) loc inner =
    Some (path ++ B ":" ++ itoa ln ++ B ":" ++ itoa col ++ [LF] ++ inner ++ B ":" ++ [LF] ++
          [TAB] ++ replaceTabs line ++ [LF] ++ [TAB] ++
          repeatB (B " ") (Z.to_nat (col - 1) + countTabs line) ++ marks) /\
    (marks = repeatB (B "~") (sp_end loc - sp_start loc) \/
     exists n, (n < sp_end loc - sp_start loc)%nat /\ marks = repeatB (B "~") n ++ B ">").
Proof. exact C09_content_lemma. Qed.
Print Assumptions C09_error_rendering_content.

(** Beyond the int32 range rendering crashes (negative repeat count). *)
Theorem C09_huge_file_refuted :
  exists s loc, hd_error (src_lines s) = Some 0%nat /\ (sp_start loc <= sp_end loc)%nat /\
    (sp_end loc <= length (src_content s))%nat /\ forall inner, locationErrorString s loc inner = None.
Proof. exact C09_huge_lemma. Qed.
Print Assumptions C09_huge_file_refuted.

(** ** C42 *)
(** The underline begins under the first character of the span exactly when no
    tab follows the start of the span on its line, and ends at the end of the
    span or of the line. *)
Theorem C42_underline_aligned_partial : forall path content loc inner,
  (sp_start loc <= sp_end loc)%nat -> (sp_end loc <= length content)%nat ->
  Z.of_nat (length content) < 2147483647 ->
  let before := lineBefore content (sp_start loc) in
  let after := untilLF (skipn (sp_start loc) content) in
  let '(ln, col) := position content (sp_start loc) in
  exists blanks,
  locationErrorString (mkSource path content (lineStarts content)) loc inner =
    Some (path ++ B ":" ++ itoa ln ++ B ":" ++ itoa col ++ [LF] ++ inner ++ B ":" ++ [LF] ++
          [TAB] ++ shown (before ++ after) ++ [LF] ++ [TAB] ++ repeat " "%byte blanks ++
          repeat "~"%byte (Nat.min (sp_end loc - sp_start loc) (length after)) ++
          if (length after <? sp_end loc - sp_start loc)%nat then B ">" else []) /\
  (blanks = length (shown before) <-> ~ In TAB after).
Proof. exact C42_lemma. Qed.
Print Assumptions C42_underline_aligned_partial.

(** The "x" of "x<TAB>y" is underlined one column too far right. *)
Theorem C42_underline_aligned_refuted :
  exists content loc, (sp_start loc < sp_end loc <= length content)%nat /\
    locationErrorString (mkSource (B "f") content (lineStarts content)) loc (B "bad") =
    Some (B "f:1:1" ++ [LF] ++ B "bad:" ++ [LF] ++ [TAB] ++ B "x  y" ++ [LF] ++ [TAB] ++ B " ~").
Proof. exact C42_refuted_lemma. Qed.
Print Assumptions C42_underline_aligned_refuted.

(** The hypotheses are met by a two-line file and an unsorted table. *)
Example C09_sample :
  let s := mkSource (B "a.css") (B "a{" ++ [LF] ++ B "b:c}") [0; 3; 3; 1]%nat in
  hd_error (src_lines s) = Some 0%nat /\
  locationErrorString s (mkSpan 4 6) (B "oops") =
    Some (B "a.css:4:4" ++ [LF] ++ B "oops:" ++ [LF] ++ [TAB] ++ B "{" ++ [LF] ++ B "b:c}" ++ [LF] ++ [TAB] ++ B "   ~~") /\
  position (src_content s) 4 = (2, 2) /\ lineOf (src_content s) 4 = B "b:c}".
Proof. vm_compute. auto. Qed.
