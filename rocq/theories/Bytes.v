(** Byte strings: the representation of Go [string] values.

    A Go string is an immutable sequence of bytes; it is modelled as
    [list byte] ([Coq.Init.Byte]), so no well-formedness side condition is
    needed.  Offsets are [nat]. *)
From Coq Require Export Strings.Byte String.
From Coq Require Export List Arith ZArith Lia Bool.
Export ListNotations.
Open Scope Z_scope.
Open Scope list_scope.

Definition bytes := list byte.

(** String literals in the model: [B "calc"]. *)
Definition B (s : string) : bytes := list_byte_of_string s.
Arguments B s%string.

(** Numeric value of a byte, 0..255. *)
Definition bz (b : byte) : Z := Z.of_N (Byte.to_N b).

(** Go string equality. *)
Fixpoint beq (a b : bytes) : bool :=
  match a, b with
  | [], [] => true
  | x :: a', y :: b' => Byte.eqb x y && beq a' b'
  | _, _ => false
  end.

(** [s == ""]. *)
Definition isEmpty (a : bytes) : bool := match a with [] => true | _ => false end.

(** strings.HasPrefix(s, p) (Go standard library). *)
Fixpoint hasPrefix (p s : bytes) : bool :=
  match p, s with
  | [], _ => true
  | x :: p', y :: s' => Byte.eqb x y && hasPrefix p' s'
  | _ :: _, [] => false
  end.

(** Go slice expression [s[a:b]]: a run-time panic ([None]) unless
    0 <= a <= b <= len(s). *)
Definition slice (s : bytes) (a b : nat) : option bytes :=
  if (a <=? b)%nat && (b <=? length s)%nat
  then Some (firstn (b - a) (skipn a s))
  else None.

(** Membership of a string in a list of strings (Go [switch] on strings). *)
Definition bmem (x : bytes) (l : list bytes) : bool := existsb (beq x) l.

(** strings.Repeat(s, n) for n >= 0 (Go standard library). *)
Fixpoint repeatB (s : bytes) (n : nat) : bytes :=
  match n with O => [] | S n' => s ++ repeatB s n' end.
