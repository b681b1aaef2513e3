(** Two files that begin alike. *)
From Verif Require Import Bytes Utf8 Source Ast.

(** The first [k] bytes of both files are the same. *)
Definition alike (k : nat) (c c' : bytes) : Prop := exists a r r', length a = k /\ c = a ++ r /\ c' = a ++ r'.
(** The rule is closed by its own bracket. *)
Definition closed (n : node) : Prop := match n with NRule _ => True | NAt a => ar_block a <> None end.
(** The last byte of the rule comes at least 16 bytes before the files part. *)
Definition wellBefore (k : nat) (n : node) : Prop := (sp_end (nodeSpan n) + 16 <= k)%nat.
