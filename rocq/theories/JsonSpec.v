(** UTF-8 and JSON (RFC 3629, RFC 8259), as far as a source map needs them:
    objects, arrays, strings and unsigned integers; escapes of surrogates are
    left out. *)
From Verif Require Import Bytes Utf8.

(** * UTF-8 *)
Definition scalar (r : Z) : Prop := 0 <= r < 55296 \/ 57343 < r <= 1114111.
Inductive utf8 : bytes -> Prop :=
| utf8Nil : utf8 []
| utf8Cons r t : scalar r -> utf8 t -> utf8 (encodeRune r ++ t).
(** Text with every byte that does not belong to a character replaced. *)
Definition repaired (s : bytes) : bytes := flat_map encodeRune (runes s).

(** * JSON *)
Inductive json :=
| JNum (n : Z) | JStr (s : bytes) | JArr (vs : list json) | JObj (ms : list (bytes * json)).

Definition isSpace (b : byte) : bool := existsb (Z.eqb (bz b)) [32; 9; 10; 13].
Fixpoint skipSpaces (s : bytes) : bytes :=
  match s with b :: r => if isSpace b then skipSpaces r else s | [] => [] end.

Definition hexValue (b : byte) : option Z :=
  let z := bz b in
  if (48 <=? z) && (z <=? 57) then Some (z - 48)
  else if (97 <=? z) && (z <=? 102) then Some (z - 87)
  else if (65 <=? z) && (z <=? 70) then Some (z - 55) else None.
Definition escaped (b : byte) : option byte :=
  let z := bz b in
  if existsb (Z.eqb z) [34; 92; 47] then Some b
  else if z =? 98 then Some Byte.x08 else if z =? 102 then Some Byte.x0c
  else if z =? 110 then Some Byte.x0a else if z =? 114 then Some Byte.x0d
  else if z =? 116 then Some Byte.x09 else None.
Definition before (c : bytes) (r : option (bytes * bytes)) : option (bytes * bytes) :=
  match r with Some (s, rest) => Some (c ++ s, rest) | None => None end.
(** The characters of a string after its opening quote; the string they stand
    for, and what follows the closing quote. *)
Fixpoint readChars (s : bytes) : option (bytes * bytes) :=
  match s with
  | [] => None
  | b :: r =>
    if bz b =? 34 then Some ([], r)
    else if bz b <? 32 then None
    else if bz b =? 92 then
      match r with
      | e :: r1 =>
        if bz e =? 117 then
          match r1 with
          | h1 :: h2 :: h3 :: h4 :: r2 =>
            match hexValue h1, hexValue h2, hexValue h3, hexValue h4 with
            | Some a, Some b, Some c, Some d =>
              let v := a * 4096 + b * 256 + c * 16 + d in
              if (55296 <=? v) && (v <=? 57343) then None else before (encodeRune v) (readChars r2)
            | _, _, _, _ => None
            end
          | _ => None
          end
        else match escaped e with Some c => before [c] (readChars r1) | None => None end
      | [] => None
      end
    else before [b] (readChars r)
  end.

Fixpoint readDigits (acc : Z) (s : bytes) : Z * bytes :=
  match s with
  | b :: r => if (48 <=? bz b) && (bz b <=? 57) then readDigits (acc * 10 + (bz b - 48)) r else (acc, s)
  | [] => (acc, [])
  end.
Definition startsWith (z : Z) (s : bytes) : option bytes :=
  match s with b :: r => if bz b =? z then Some r else None | [] => None end.

(** A value at the start of the text, and the rest of it. *)
Fixpoint readValue (n : nat) (s : bytes) : option (json * bytes) :=
  match n with
  | O => None
  | S n =>
    match skipSpaces s with
    | [] => None
    | b :: r =>
      if bz b =? 34 then match readChars r with Some (t, rest) => Some (JStr t, rest) | None => None end
      else if (48 <=? bz b) && (bz b <=? 57) then let (z, rest) := readDigits 0 (b :: r) in Some (JNum z, rest)
      else if bz b =? 91 then
        match startsWith 93 (skipSpaces r) with
        | Some rest => Some (JArr [], rest)
        | None => match readItems n r with Some (vs, rest) => Some (JArr vs, rest) | None => None end
        end
      else if bz b =? 123 then
        match startsWith 125 (skipSpaces r) with
        | Some rest => Some (JObj [], rest)
        | None => match readMembers n r with Some (ms, rest) => Some (JObj ms, rest) | None => None end
        end
      else None
    end
  end
with readItems (n : nat) (s : bytes) : option (list json * bytes) :=
  match n with
  | O => None
  | S n =>
    match readValue n s with
    | Some (v, s1) =>
      match skipSpaces s1 with
      | b :: r =>
        if bz b =? 93 then Some ([v], r)
        else if bz b =? 44 then match readItems n r with Some (vs, rest) => Some (v :: vs, rest) | None => None end
        else None
      | [] => None
      end
    | None => None
    end
  end
with readMembers (n : nat) (s : bytes) : option (list (bytes * json) * bytes) :=
  match n with
  | O => None
  | S n =>
    match startsWith 34 (skipSpaces s) with
    | None => None
    | Some s0 =>
      match readChars s0 with
      | None => None
      | Some (k, s1) =>
        match startsWith 58 (skipSpaces s1) with
        | None => None
        | Some s2 =>
          match readValue n s2 with
          | None => None
          | Some (v, s3) =>
            match skipSpaces s3 with
            | b :: r =>
              if bz b =? 125 then Some ([(k, v)], r)
              else if bz b =? 44 then match readMembers n r with Some (ms, rest) => Some ((k, v) :: ms, rest) | None => None end
              else None
            | [] => None
            end
          end
        end
      end
    end
  end.
(** The value a text is, if it is one. *)
Definition readJson (s : bytes) : option json :=
  match readValue (length s) s with
  | Some (v, rest) => match skipSpaces rest with [] => Some v | _ => None end
  | None => None
  end.

(** What the map of a stylesheet should say. *)
Definition sourceMap (file content mappings : bytes) : json :=
  JObj [(B "version", JNum 3); (B "file", JStr file); (B "sourceRoot", JStr []);
        (B "sources", JArr [JStr (B "source.css")]); (B "sourcesContent", JArr [JStr content]);
        (B "names", JArr []); (B "mappings", JStr mappings)].

(** A path that needs no escaping. *)
Definition plainPath (s : bytes) : Prop :=
  utf8 s /\ Forall (fun b => 32 <= bz b /\ bz b <> 34 /\ bz b <> 92) s.
