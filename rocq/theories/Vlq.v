(** internal/printer/sourcemaps.go: base64 VLQ, on Go int32 arithmetic. *)
From Verif Require Import Bytes Source.

(** base64Forward, sourcemaps.go:4.  Also the alphabet of
    base64.StdEncoding (standard library). *)
Definition base64Forward : bytes :=
  B "ABCDEFGHIJKLMNOPQRSTUVWXYZabcdefghijklmnopqrstuvwxyz0123456789+/".
Definition b64at (i : Z) : byte := nth (Z.to_nat i) base64Forward Byte.x00.

(** base64Reverse, sourcemaps.go:6-71: an array of length 127 indexed by byte;
    unlisted entries are 0; [None] is the index-out-of-range panic. *)
Definition base64Reverse (b : byte) : option Z :=
  let c := bz b in
  if 127 <=? c then None
  else if (65 <=? c) && (c <=? 90) then Some (c - 65)
  else if (97 <=? c) && (c <=? 122) then Some (c - 71)
  else if (48 <=? c) && (c <=? 57) then Some (c + 4)
  else if c =? 43 then Some 62
  else if c =? 47 then Some 63
  else Some 0.

(** Loop of VLQEncode, sourcemaps.go:95-113.  An int32 shifted right by five
    at least six times is 0 or -1, so eight rounds are never exhausted. *)
Fixpoint vlqLoop (fuel : nat) (n : Z) : bytes :=
  match fuel with
  | O => []
  | S f =>
    let cur := Z.land n 31 in
    let n' := Z.shiftr n 5 in
    let cur' := if negb (n' =? 0) then Z.lor cur 32 else cur in
    b64at cur' :: (if n' <=? 0 then [] else vlqLoop f n')
  end.

(** VLQEncode, sourcemaps.go:77-116.  The argument is an int32. *)
Definition vlqEncode (i : Z) : bytes :=
  let n := if i <? 0 then wrap32 (wrap32 (Z.shiftl (wrap32 (- i)) 1) + 1)
           else wrap32 (Z.shiftl i 1) in
  if Z.shiftr n 5 =? 0 then [b64at (Z.land n 31)]
  else vlqLoop 8 n.

(** VLQDecode, sourcemaps.go:122-146.  [None]: index out of range panic. *)
Fixpoint vlqDecLoop (rv shift read : Z) (s : bytes) : option (Z * Z) :=
  match s with
  | [] => Some (rv, read)
  | b :: r =>
    match base64Reverse b with
    | None => None
    | Some cur =>
      let rv' := wrap32 (rv + wrap32 (Z.shiftl (Z.land cur 31) shift)) in
      if Z.land cur 32 =? 0 then Some (rv', wrap32 (read + 1))
      else vlqDecLoop rv' (wrap32 (shift + 5)) (wrap32 (read + 1)) r
    end
  end.
Definition vlqDecode (s : bytes) : option (Z * Z) :=
  match vlqDecLoop 0 0 0 s with
  | None => None
  | Some (rv, read) =>
    Some (if Z.land rv 1 =? 1 then (wrap32 (- Z.shiftr (wrap32 (rv - 1)) 1), read)
          else (Z.shiftr rv 1, read))
  end.
