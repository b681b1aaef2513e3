(** Go's [unicode/utf8.DecodeRuneInString] (standard library), which
    internal/lexer/lexer.go:77,87,114 and the [for range] loops of
    internal/printer/printer.go:96 and internal/sources/source.go:40 rely on. *)
From Verif Require Import Bytes.

(** utf8.RuneError. *)
Definition runeError : Z := 65533.

Definition isCont (b : Z) : bool := (128 <=? b) && (b <=? 191).

(** DecodeRuneInString: the rune and its width in bytes; width 0 exactly on
    the empty string; an invalid encoding gives (RuneError, 1).  The accepted
    ranges for the second byte follow the [first]/[acceptRanges] tables. *)
Definition decodeRune (s : bytes) : Z * nat :=
  match s with
  | [] => (runeError, 0%nat)
  | c0 :: r0 =>
    let b0 := bz c0 in
    if b0 <? 128 then (b0, 1%nat)
    else if (b0 <? 194) || (244 <? b0) then (runeError, 1%nat)
    else
      match r0 with
      | [] => (runeError, 1%nat)
      | c1 :: r1 =>
        let b1 := bz c1 in
        if b0 <? 224 then
          if isCont b1 then ((b0 - 192) * 64 + (b1 - 128), 2%nat) else (runeError, 1%nat)
        else
          let lo := if b0 =? 224 then 160 else if b0 =? 240 then 144 else 128 in
          let hi := if b0 =? 237 then 159 else if b0 =? 244 then 143 else 191 in
          if negb ((lo <=? b1) && (b1 <=? hi)) then (runeError, 1%nat)
          else
            match r1 with
            | [] => (runeError, 1%nat)
            | c2 :: r2 =>
              let b2 := bz c2 in
              if negb (isCont b2) then (runeError, 1%nat)
              else if b0 <? 240 then
                ((b0 - 224) * 4096 + (b1 - 128) * 64 + (b2 - 128), 3%nat)
              else
                match r2 with
                | [] => (runeError, 1%nat)
                | c3 :: _ =>
                  let b3 := bz c3 in
                  if negb (isCont b3) then (runeError, 1%nat)
                  else ((b0 - 240) * 262144 + (b1 - 128) * 4096 + (b2 - 128) * 64 + (b3 - 128), 4%nat)
                end
            end
      end
  end.

(** Careful point: in Go the table entry [sz] is consulted before the second
    byte: a 3- or 4-byte lead with fewer than [sz] bytes left is
    (RuneError, 1) whatever the remaining bytes are; the nested matches above
    return the same value in all those cases. *)

(** Runes of a string, as iterated by Go's [for i, ch := range s]. *)
Fixpoint runesFuel (fuel : nat) (s : bytes) : list Z :=
  match fuel, s with
  | O, _ | _, [] => []
  | S f, _ => let (r, n) := decodeRune s in r :: runesFuel f (skipn n s)
  end.
Definition runes (s : bytes) : list Z := runesFuel (length s) s.

(** utf8.EncodeRune for the runes a [%c] verb is used with
    (internal/lexer/lexer.go:475,482,490); only feeds error text. *)
Definition byteOf (z : Z) : byte :=
  match Byte.of_N (Z.to_N z) with Some b => b | None => Byte.x00 end.
Definition encodeRune (r : Z) : bytes :=
  let r := if (r <? 0) || (1114111 <? r) || ((55296 <=? r) && (r <=? 57343)) then runeError else r in
  if r <? 128 then [byteOf r]
  else if r <? 2048 then [byteOf (192 + r / 64); byteOf (128 + r mod 64)]
  else if r <? 65536 then
    [byteOf (224 + r / 4096); byteOf (128 + (r / 64) mod 64); byteOf (128 + r mod 64)]
  else
    [byteOf (240 + r / 262144); byteOf (128 + (r / 4096) mod 64);
     byteOf (128 + (r / 64) mod 64); byteOf (128 + r mod 64)].

(** [unicode.IsDigit] above Latin-1 consults the Unicode [Nd] table, which
    depends on the Go release.  It is an arbitrary function here; every theorem
    is universally quantified over it. *)
Class UnicodeDigits := unicodeNd : Z -> bool.

(** unicode.IsDigit (standard library): '0'..'9' up to U+00FF, table above. *)
Definition isDigit {U : UnicodeDigits} (r : Z) : bool :=
  if r <=? 255 then (48 <=? r) && (r <=? 57) else unicodeNd r.
