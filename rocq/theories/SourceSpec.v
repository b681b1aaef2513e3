(** What line and column mean: walk the file from its start. *)
From Verif Require Import Bytes LexSpec.

(** Line and column after walking [s] from line [l], column [c]. *)
Fixpoint walk (l c : Z) (s : bytes) : Z * Z :=
  match s with
  | [] => (l, c)
  | b :: r => if Byte.eqb b LF then walk (l + 1) 1 r else walk l (c + 1) r
  end.
(** 1-based line and column of a byte offset. *)
Definition position (content : bytes) (off : nat) : Z * Z := walk 1 1 (firstn off content).

(** The bytes before the first line feed. *)
Fixpoint untilLF (s : bytes) : bytes :=
  match s with
  | [] => []
  | b :: r => if Byte.eqb b LF then [] else b :: untilLF r
  end.
(** The line that contains offset [off], without its line feed. *)
Definition lineOf (content : bytes) (off : nat) : bytes :=
  rev (untilLF (rev (firstn off content))) ++ untilLF (skipn off content).

(** The part of that line before the offset. *)
Definition lineBefore (content : bytes) (off : nat) : bytes :=
  rev (untilLF (rev (firstn off content))).

(** A line as the excerpt shows it: every tab as two blanks. *)
Definition shown (s : bytes) : bytes := flat_map (fun b => if Byte.eqb b TAB then B "  " else [b]) s.
