(** C63: the programs in the repository run to their end. *)
From Verif Require Import Bytes Utf8 LexSpec Mains MainsProofs.

(** cli/main.go logs this text, with a source map; none of its panics happens.
    The attribute operators of the stylesheet in it are gone, and so is the white
    space around the minus signs in calc(). *)
Theorem C63_cli : forall (U : UnicodeDigits), exists n0 rest, forall n, (n0 <= n)%nat ->
  cliMain n = Ended (Some (cliText ++ [LF] ++ B "/*# sourceMappingURL=" ++ rest)) None.
Proof. exact @C63_cli_lemma. Qed.
Print Assumptions C63_cli.
(** manualtest/main.go logs and writes this text; it panics only if the file
    cannot be written. *)
Theorem C63_manualtest : forall (U : UnicodeDigits), exists n0 rest, forall n, (n0 <= n)%nat -> let out := manualText ++ [LF] ++ B "/*# sourceMappingURL=" ++ rest in
  manualMain true n = Ended (Some out) (Some out) /\ manualMain false n = BadWrite.
Proof. exact @C63_manual_lemma. Qed.
Print Assumptions C63_manualtest.
