(** Instances used by the non-vacuity examples only. *)
From Verif Require Import Bytes Utf8 Lexer LexSpec.

(** A Unicode table without digits above Latin-1. *)
Definition asciiOnly : UnicodeDigits := fun _ => false.

(** All tokens of a content, white space and comments retained or not. *)
Fixpoint allToks {U : UnicodeDigits} (fuel : nat) (ws com : bool) (l : lexer) : list (token * nat * nat) :=
  match fuel with
  | O => []
  | S f =>
    (l_cur l, l_start l, l_lastPos l) ::
    match l_cur l with
    | EOF => []
    | _ => match next (withFlags l ws com) with Ok l' => allToks f ws com l' | _ => [] end
    end
  end.
