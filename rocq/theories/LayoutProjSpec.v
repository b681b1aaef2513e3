(** Projects that differ only in layout (C61). *)
From Verif Require Import Bytes Utf8 Source Lexer LexSpec Ast Parser Transformer Resolver Compile CompileSpec ReadSpec LexStreamSpec LayoutSpec.

(** The same entries, paths, resolver and options; every file is the same or
    differs only in white space and comments where they do not count. *)
Definition respacedProject {U : UnicodeDigits} (P P' : project) : Prop :=
  p_entries P' = p_entries P /\ p_opts P' = p_opts P /\ (forall e, p_abs P' e = p_abs P e) /\ (forall s d, p_resolve P' s d = p_resolve P s d) /\
  forall f, p_read P' f = p_read P f \/ exists x y, p_read P f = Some x /\ p_read P' f = Some y /\ respaced 0 x y.
