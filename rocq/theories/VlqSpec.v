(** The base64 VLQ format, independent of the code: a decoder that knows no
    int32 and works from the alphabet. *)
From Verif Require Import Bytes.

(** * The specification: source map revision 3, "Base64 VLQ" *)
(** Value of a base64 digit. *)
Definition digitValue (b : byte) : option Z :=
  (fix go (i : nat) (l : bytes) : option Z :=
     match l with
     | [] => None
     | c :: r => if Byte.eqb c b then Some (Z.of_nat i) else go (S i) r
     end) 0%nat (B "ABCDEFGHIJKLMNOPQRSTUVWXYZabcdefghijklmnopqrstuvwxyz0123456789+/").
(** The digits are read little-endian, five bits each; a digit of 32 or more
    says that another one follows.  [None]: not a VLQ. *)
Fixpoint vlqMagnitude (s : bytes) : option (Z * bytes) :=
  match s with
  | [] => None
  | b :: r =>
    match digitValue b with
    | None => None
    | Some d => if d <? 32 then Some (d, r)
                else match vlqMagnitude r with
                     | None => None
                     | Some (m, rest) => Some (d - 32 + 32 * m, rest)
                     end
    end
  end.
(** The lowest bit is the sign. *)
Definition vlqSpec (s : bytes) : option (Z * bytes) :=
  match vlqMagnitude s with
  | None => None
  | Some (m, rest) => Some (if Z.odd m then - (m / 2) else m / 2, rest)
  end.
