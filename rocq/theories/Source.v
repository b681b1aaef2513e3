(** internal/sources/source.go and internal/logging/logging.go. *)
From Verif Require Import Bytes Utf8.
From Coq Require Import DecimalString Strings.Byte.

(** ast.Span, internal/ast/ast.go:9-18. *)
Record span := mkSpan { sp_start : nat; sp_end : nat }.

(** Go int32 conversion / arithmetic: two's complement wrap-around. *)
Definition wrap32 (z : Z) : Z := (z + 2147483648) mod 4294967296 - 2147483648.

(** sources.Source, internal/sources/source.go:10-21. *)
Record source := mkSource { src_path : bytes; src_content : bytes; src_lines : list nat }.

(** sort.Search(n, f) (standard library): binary search with
    [h := int(uint(i+j) >> 1)].  The fuel [S n] always suffices (the interval
    shrinks at every round; proved in SourceProofs.v). *)
Fixpoint searchLoop (fuel : nat) (f : nat -> bool) (i j : nat) : nat :=
  match fuel with
  | O => i
  | S fuel' =>
    if (i <? j)%nat then
      let h := ((i + j) / 2)%nat in
      if negb (f h) then searchLoop fuel' f (h + 1) j
      else searchLoop fuel' f i h
    else i
  end.
Definition sortSearch (n : nat) (f : nat -> bool) : nat := searchLoop (S n) f 0 n.

(** Source.LineAndCol, internal/sources/source.go:25-31.  [None] is the
    run-time panic of [s.Lines[line-1]] with line = 0.  Inside the search the
    index is always below len(s.Lines) so the default of [nth] is never used. *)
Definition lineIndex (lines : list nat) (start : nat) : nat :=
  sortSearch (length lines) (fun i => (start <? nth i lines 0)%nat).
Definition lineAndCol (s : source) (loc : span) : option (Z * Z) :=
  let line := lineIndex (src_lines s) (sp_start loc) in
  match line with
  | O => None
  | S l =>
    match nth_error (src_lines s) l with
    | None => None
    | Some ls => Some (wrap32 (Z.of_nat line),
                       wrap32 (Z.of_nat (sp_start loc) - Z.of_nat ls + 1))
    end
  end.

(** The loop at internal/sources/source.go:40-45: byte offset (relative to the
    slice) of the first rune equal to line feed, iterating runes. *)
Fixpoint findNewlineFuel (fuel : nat) (i : nat) (s : bytes) : option nat :=
  match fuel, s with
  | O, _ | _, [] => None
  | S f, _ =>
    let (r, n) := decodeRune s in
    if r =? 10 then Some i else findNewlineFuel f (i + n) (skipn n s)
  end.
Definition findNewline (s : bytes) : option nat := findNewlineFuel (length s) 0 s.

(** Source.FullLine, internal/sources/source.go:35-48.  [None]: run-time panic. *)
Definition fullLine (s : source) (loc : span) : option span :=
  match lineAndCol s loc with
  | None => None
  | Some (lineNumber, _) =>
    if lineNumber - 1 <? 0 then None else
    match nth_error (src_lines s) (Z.to_nat (lineNumber - 1)) with
    | None => None
    | Some lineStart =>
      if (length (src_content s) <? sp_start loc)%nat then None else
      let lineEnd :=
        match findNewline (skipn (sp_start loc) (src_content s)) with
        | Some i => (i + sp_start loc)%nat
        | None => length (src_content s)
        end in
      Some (mkSpan lineStart lineEnd)
    end
  end.

(** strings.Count(line, "\t") and strings.ReplaceAll(line, "\t", "  "). *)
Definition countTabs (s : bytes) : nat := length (filter (fun b => Byte.eqb b x09) s).
Definition replaceTabs (s : bytes) : bytes :=
  flat_map (fun b => if Byte.eqb b x09 then B "  " else [b]) s.

(** logging.AnnotateSourceSpan, internal/logging/logging.go:83-100.
    [None]: run-time panic (negative repeat count or bad slice). *)
Definition annotateSourceSpan (s : source) (sp : span) : option bytes :=
  match lineAndCol s sp with
  | None => None
  | Some (_, col) =>
    match fullLine s sp with
    | None => None
    | Some lineSpan =>
      match slice (src_content s) (sp_start lineSpan) (sp_end lineSpan) with
      | None => None
      | Some line =>
        let tabCount := countTabs line in
        let withoutTabs := replaceTabs line in
        let indentN := col + Z.of_nat tabCount - 1 in
        if indentN <? 0 then None else
        let indent := repeatB (B " ") (Z.to_nat indentN) in
        if (sp_end sp <? sp_start sp)%nat then None else
        let underline := repeatB (B "~") (sp_end sp - sp_start sp)%nat in
        let excess := Z.of_nat (sp_end sp) - Z.of_nat (sp_end lineSpan) in
        let cut :=
          if 0 <? excess then
            if Z.of_nat (length underline) - excess <? 0 then None
            else Some (firstn (Z.to_nat (Z.of_nat (length underline) - excess)) underline, B ">")
          else Some (underline, []) in
        match cut with
        | None => None
        | Some (u, excessMarker) =>
          Some ([x09] ++ withoutTabs ++ [x0a] ++ [x09] ++ indent ++ u ++ excessMarker)
        end
      end
    end
  end.

(** fmt's [%d]. *)
Definition itoa (z : Z) : bytes := B (NilZero.string_of_int (Z.to_int z)).

(** locationError.Error, internal/logging/logging.go:66-73. *)
Definition locationErrorString (s : source) (sp : span) (inner : bytes) : option bytes :=
  match lineAndCol s sp, annotateSourceSpan s sp with
  | Some (l, c), Some a =>
    Some (src_path s ++ B ":" ++ itoa l ++ B ":" ++ itoa c ++ [x0a] ++ inner ++ B ":" ++ [x0a] ++ a)
  | _, _ => None
  end.
