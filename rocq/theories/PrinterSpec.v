(** Source maps, revision 3, written without the code's helpers. *)
From Verif Require Import Bytes Utf8 Source Ast Printer VlqSpec.

(** * Reading a source map *)
(** strings.Split for a one-byte separator. *)
Fixpoint splitAt (c : byte) (s : bytes) : list bytes :=
  match s with
  | [] => [[]]
  | b :: r =>
    if Byte.eqb b c then [] :: splitAt c r
    else match splitAt c r with h :: t => (b :: h) :: t | [] => [[b]] end
  end.

(** The four numbers of a segment: generated column, source, original line,
    original column, each relative to the previous segment. *)
Definition readSegment (s : bytes) : option (Z * Z * Z * Z) :=
  match vlqSpec s with
  | Some (a, s1) =>
    match vlqSpec s1 with
    | Some (b, s2) =>
      match vlqSpec s2 with
      | Some (c, s3) =>
        match vlqSpec s3 with
        | Some (d, []) => Some (a, b, c, d)
        | _ => None
        end
      | None => None
      end
    | None => None
    end
  | None => None
  end.
Fixpoint sequence {A} (l : list (option A)) : option (list A) :=
  match l with
  | [] => Some []
  | Some x :: r => match sequence r with Some y => Some (x :: y) | None => None end
  | None :: _ => None
  end.
(** A line of the mappings: segments separated by commas; possibly empty. *)
Definition readLine (s : bytes) : option (list (Z * Z * Z * Z)) :=
  match s with [] => Some [] | _ => sequence (map readSegment (splitAt ","%byte s)) end.

(** An absolute mapping, all 0-based. *)
Record mapping := mkMapping {
  m_genLine : Z; m_genCol : Z; m_src : Z; m_line : Z; m_col : Z }.
(** The generated column restarts with every line, the other numbers do not. *)
Fixpoint absLine (line gc sr l c : Z) (segs : list (Z * Z * Z * Z)) : list mapping * (Z * Z * Z) :=
  match segs with
  | [] => ([], (sr, l, c))
  | (a, b, x, y) :: r =>
    let '(ms, st) := absLine line (gc + a) (sr + b) (l + x) (c + y) r in
    (mkMapping line (gc + a) (sr + b) (l + x) (c + y) :: ms, st)
  end.
Fixpoint absLines (line sr l c : Z) (ls : list (list (Z * Z * Z * Z))) : list mapping :=
  match ls with
  | [] => []
  | segs :: r =>
    let '(ms, (sr', l', c')) := absLine line 0 sr l c segs in
    ms ++ absLines (line + 1) sr' l' c' r
  end.
Definition readMappings (s : bytes) : option (list mapping) :=
  match sequence (map readLine (splitAt ";"%byte s)) with
  | Some ls => Some (absLines 0 0 0 0 ls)
  | None => None
  end.

(** * Where the rules are *)
(** The text of a node printed alone. *)
Definition text (n : node) : bytes :=
  match print None [n] with Some t => t | None => [] end.
(** The text of an at-rule up to and including its opening brace. *)
Definition headText (a : atrule) : bytes :=
  removelast (text (NAt (mkAt (ar_run a) (ar_sp a) (ar_name a) (ar_preludes a) None))) ++ B "{".
(** The text that precedes each rule in the output, and the rule's span. *)
Fixpoint ruleStarts (before : bytes) (rs : list qrule) : list (bytes * span) :=
  match rs with
  | [] => []
  | r :: rest => (before, r_sp r) :: ruleStarts (before ++ text (NRule r)) rest
  end.
Fixpoint starts (before : bytes) (ns : list node) : list (bytes * span) :=
  match ns with
  | [] => []
  | NRule r :: rest => (before, r_sp r) :: starts (before ++ text (NRule r)) rest
  | NAt a :: rest =>
    (before, ar_sp a)
    :: match ar_block a with
       | Some (BRules _ rs) => ruleStarts (before ++ headText a) rs
       | _ => []
       end
    ++ starts (before ++ text (NAt a)) rest
  end.

(** 0-based line and column (in characters) after a text. *)
Fixpoint walkRunes (l c : Z) (rs : list Z) : Z * Z :=
  match rs with
  | [] => (l, c)
  | r :: rest => if r =? 10 then walkRunes (l + 1) 0 rest else walkRunes l (c + 1) rest
  end.
Definition textEnd (t : bytes) : Z * Z := walkRunes 0 0 (runes t).

(** The mapping the rule at a start should get, 0-based: where it begins in the
    output, and the line and column of its span. *)
Definition expected (s : source) (m : bytes * span) : mapping :=
  let '(gl, gc) := textEnd (fst m) in
  match lineAndCol s (snd m) with
  | Some (l, c) => mkMapping gl gc 0 (l - 1) (c - 1)
  | None => mkMapping gl gc 0 0 0
  end.

(** Sizes below 2^30 and a line table that starts with 0. *)
Definition tableOk (s : source) : Prop :=
  hd_error (src_lines s) = Some 0%nat /\ Z.of_nat (length (src_lines s)) < 1073741824.
Definition spanOk (sp : span) : Prop := Z.of_nat (sp_start sp) < 1073741824.
Definition textOk (t : bytes) : Prop := Z.of_nat (length t) < 1073741824.

(** * Base64 (RFC 4648) *)
Definition b64Byte (z : Z) : byte := byteOf z.
Fixpoint base64Read (s : bytes) : option bytes :=
  match s with
  | [] => Some []
  | a :: b :: c :: d :: r =>
    match digitValue a, digitValue b with
    | Some x, Some y =>
      match r with
      | [] =>
        if Byte.eqb c "="%byte then
          if Byte.eqb d "="%byte then
            if y mod 16 =? 0 then Some [b64Byte (x * 4 + y / 16)] else None
          else None
        else
        match digitValue c with
        | Some z =>
          if Byte.eqb d "="%byte then
            if z mod 4 =? 0 then Some [b64Byte (x * 4 + y / 16); b64Byte (y mod 16 * 16 + z / 4)] else None
          else
          match digitValue d with
          | Some t => Some [b64Byte (x * 4 + y / 16); b64Byte (y mod 16 * 16 + z / 4); b64Byte (z mod 4 * 64 + t)]
          | None => None
          end
        | None => None
        end
      | _ =>
        match digitValue c, digitValue d, base64Read r with
        | Some z, Some t, Some rest =>
          Some (b64Byte (x * 4 + y / 16) :: b64Byte (y mod 16 * 16 + z / 4) :: b64Byte (z mod 4 * 64 + t) :: rest)
        | _, _, _ => None
        end
      end
    | _, _ => None
    end
  | _ => None
  end.

(** The comment that carries the map. *)
Definition mapComment (payload : bytes) : bytes :=
  [Byte.x0a] ++ B "/*# sourceMappingURL=data:application/json;base64," ++ payload ++ B " */" ++ [Byte.x0a].
