(** Compiling an output of Compile (C57). *)
From Verif Require Import Bytes Utf8 Source Lexer Ast Parser Printer PrinterSpec Transformer Resolver Compile TwiceSpec.

(** The text has no @import, if it is a stylesheet. *)
Definition importless {U : UnicodeDigits} (out : bytes) : Prop := forall run n ss lines, parse run n out = ParseOk ss lines -> ss_imports ss = [].
(** The two outputs differ only in their source maps. *)
Definition sameText (out out' : bytes) : Prop := exists css map map', out = css ++ mapComment map /\ out' = css ++ mapComment map'.
(** [P'] has the options of [P] and one entry, whose file contains [out]. *)
Definition compiles (P P' : project) (e' p' out : bytes) : Prop :=
  p_opts P' = p_opts P /\ p_entries P' = [e'] /\ p_abs P' e' = Some p' /\ p_read P' p' = Some out.
(** The rules of the file at [f] are settled. *)
Definition settledRules {U : UnicodeDigits} (P : project) (f : bytes) : Prop := forall content run n ss lines,
  p_read P f = Some content -> parse run n content = ParseOk ss lines -> Forall (settledNode (p_opts P)) (ss_nodes ss).
