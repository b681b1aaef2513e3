(** internal/lexer/lexer.go and internal/lexer/tokens.go. *)
From Verif Require Import Bytes Utf8 Source.

(** lexer.Token, internal/lexer/tokens.go:6-39. *)
Inductive token :=
| Illegal | EOF | Whitespace | Comma | Colon | Semicolon | LParen | RParen
| CDO | CDC | LBracket | RBracket | LCurly | RCurly
| Comment | URL | FunctionStart | At | Hash | Number | Percentage | Dimension
| TString | Ident | Delim.

Definition token_eq_dec (a b : token) : {a = b} + {a <> b}.
Proof. decide equality. Defined.
Definition teq (a b : token) : bool := if token_eq_dec a b then true else false.

(** Token.String, internal/lexer/tokens.go:41-80. *)
Definition tokenString (t : token) : bytes :=
  match t with
  | Illegal => B "Illegal" | EOF => B "EOF" | Whitespace => B "WHITESPACE"
  | Comment => B "COMMENT" | Delim => B "DELIMITER" | Hash => B "HASH"
  | Number => B "NUMBER" | Percentage => B "PERCENTAGE" | Dimension => B "DIMENSION"
  | TString => B "STRING" | Ident => B "IDENT" | URL => B "URL"
  | Comma => B "," | Colon => B ":" | Semicolon => B ";" | At => B "@"
  | FunctionStart => B "FUNCTION" | CDO => B "<!--" | CDC => B "-->"
  | LParen => B "(" | RParen => B ")" | LBracket => B "[" | RBracket => B "]"
  | LCurly => B "{" | RCurly => B "}"
  end.

(** What a Go panic carries: a [*lexer.Error] with its location and message
    (internal/lexer/lexer.go:581-593), or a Go run-time error (nil
    dereference, index or slice out of range). *)
Inductive panic :=
| PLex (sp : span) (msg : bytes)
| PRuntime.

(** Outcome of running a piece of code.  A panic keeps the line table of the
    shared [*sources.Source] at the time of the panic, because that table is
    the only state that survives a [recover] (parser.go:129-140).  [Timeout]
    is exhaustion of the model's loop fuel: it is never a result of the code. *)
Inductive res (A : Type) :=
| Ok (a : A)
| Panic (p : panic) (lines : list nat)
| Timeout.
Arguments Ok {A} a. Arguments Panic {A} p lines. Arguments Timeout {A}.

Definition bind {A C} (m : res A) (k : A -> res C) : res C :=
  match m with Ok a => k a | Panic p ln => Panic p ln | Timeout => Timeout end.
Notation "x <- m ;; k" := (bind m (fun x => k))
  (at level 61, m at next level, right associativity).
Notation "' p <- m ;; k" := (bind m (fun x => let p := x in k))
  (at level 61, p pattern, m at next level, right associativity).

(** lexer.Lexer, internal/lexer/lexer.go:17-59.  [source.Content] and
    [source.Lines] of the lexer's source are inlined as fields. *)
Record lexer := mkLexer {
  l_ch : Z;              (* -1 at end of input *)
  l_pos : nat;
  l_lastPos : nat;
  l_start : nat;
  l_content : bytes;     (* source.Content *)
  l_lines : list nat;    (* source.Lines *)
  l_cur : token;
  l_str : bytes;         (* CurrentString *)
  l_num : bytes;         (* CurrentNumeral *)
  l_rws : bool;          (* RetainWhitespace *)
  l_rcom : bool          (* RetainComments *)
}.

Definition setStart (l : lexer) (n : nat) : lexer :=
  mkLexer (l_ch l) (l_pos l) (l_lastPos l) n (l_content l) (l_lines l) (l_cur l) (l_str l) (l_num l) (l_rws l) (l_rcom l).
Definition setCur (l : lexer) (t : token) : lexer :=
  mkLexer (l_ch l) (l_pos l) (l_lastPos l) (l_start l) (l_content l) (l_lines l) t (l_str l) (l_num l) (l_rws l) (l_rcom l).
Definition setStr (l : lexer) (s : bytes) : lexer :=
  mkLexer (l_ch l) (l_pos l) (l_lastPos l) (l_start l) (l_content l) (l_lines l) (l_cur l) s (l_num l) (l_rws l) (l_rcom l).
Definition setNum (l : lexer) (s : bytes) : lexer :=
  mkLexer (l_ch l) (l_pos l) (l_lastPos l) (l_start l) (l_content l) (l_lines l) (l_cur l) (l_str l) s (l_rws l) (l_rcom l).
Definition setRws (l : lexer) (r : bool) : lexer :=
  mkLexer (l_ch l) (l_pos l) (l_lastPos l) (l_start l) (l_content l) (l_lines l) (l_cur l) (l_str l) (l_num l) r (l_rcom l).
Definition setLines (l : lexer) (ls : list nat) : lexer :=
  mkLexer (l_ch l) (l_pos l) (l_lastPos l) (l_start l) (l_content l) ls (l_cur l) (l_str l) (l_num l) (l_rws l) (l_rcom l).
(** The cursor fields written by [step]. *)
Definition setCursor (l : lexer) (c : Z) (p lp : nat) (ls : list nat) : lexer :=
  mkLexer c p lp (l_start l) (l_content l) ls (l_cur l) (l_str l) (l_num l) (l_rws l) (l_rcom l).

(** Lexer.step, internal/lexer/lexer.go:72-105.  [Content[l.pos:]] cannot
    panic because l.pos <= len(Content) always holds ([LexInv], LexerProofs.v),
    so [skipn] is the slice expression. *)
Definition step (l : lexer) : lexer :=
  let lines0 := if (l_pos l =? 0)%nat then l_lines l ++ [l_pos l] else l_lines l in
  let '(cp, size) := decodeRune (skipn (l_pos l) (l_content l)) in
  if (size =? 0)%nat then setCursor l (-1) (l_pos l) (l_pos l) lines0
  else if cp =? 13 (* '\r' *) then
    let '(nxt, nextSize) := decodeRune (skipn (l_pos l + size) (l_content l)) in
    let lines1 := if nxt =? 10 then lines0 ++ [(l_pos l + size + nextSize)%nat] else lines0 in
    setCursor l nxt (l_pos l + size + nextSize)%nat (l_pos l) lines1
  else
    let lines1 := if cp =? 10 then lines0 ++ [(l_pos l + size)%nat] else lines0 in
    setCursor l cp (l_pos l + size)%nat (l_pos l) lines1.

(** Lexer.peek, internal/lexer/lexer.go:109-119.  Note that [i] is a byte
    offset, not a rune count. *)
Definition peek (l : lexer) (i : nat) : Z :=
  if (length (l_content l) <? l_pos l + i)%nat then -1
  else
    let '(cp, size) := decodeRune (skipn (l_pos l + i) (l_content l)) in
    if (size =? 0)%nat then -1 else cp.

(** Lexer.TokenSpan / TokenEnd, internal/lexer/lexer.go:122-130. *)
Definition tokenSpan (l : lexer) : span := mkSpan (l_start l) (l_lastPos l).
Definition tokenEnd (l : lexer) : nat := l_lastPos l.

(** Lexer.Errorf, internal/lexer/lexer.go:586-588. *)
Definition errorf {A} (l : lexer) (msg : bytes) : res A :=
  Panic (PLex (tokenSpan l) msg) (l_lines l).
(** A Go run-time panic. *)
Definition crash {A} (l : lexer) : res A := Panic PRuntime (l_lines l).

(** [l.source.Content[a:b]]. *)
Definition contentSlice (l : lexer) (a b : nat) : res bytes :=
  match slice (l_content l) a b with Some s => Ok s | None => crash l end.

(** Character classes, internal/lexer/tokens.go:82-105. *)
Definition isWhitespace (r : Z) : bool := (r =? 10) || (r =? 9) || (r =? 32).
Definition isNameStartCodePoint (r : Z) : bool :=
  ((65 <=? r) && (r <=? 90)) || ((97 <=? r) && (r <=? 122)) || (128 <=? r) || (r =? 95).
Definition isNonPrintable (r : Z) : bool :=
  ((0 <=? r) && (r <=? 8)) || (r =? 11) || ((14 <=? r) && (r <=? 31)) || (r =? 127).
Definition isNameCodePoint (r : Z) : bool :=
  isNameStartCodePoint r || ((r <=? 57) && (48 <=? r)) || (r =? 45).

(** startsEscape, internal/lexer/lexer.go:386-396. *)
Definition startsEscape (p0 p1 : Z) : bool :=
  if negb (p0 =? 92) then false else if p1 =? 10 then false else true.

(** startsIdentifier, internal/lexer/lexer.go:374-383. *)
Definition startsIdentifier (p0 p1 p2 : Z) : bool :=
  if p0 =? 45 then (p1 =? 45) || isNameCodePoint p1 || startsEscape p1 p2
  else if p0 =? 10 then false
  else isNameCodePoint p0.

(** isURLString, internal/lexer/lexer.go:440-442. *)
Definition isURLString (s : bytes) : bool :=
  match s with
  | [a; b; c] =>
    ((bz a =? 117) || (bz a =? 85)) && ((bz b =? 114) || (bz b =? 82)) && ((bz c =? 108) || (bz c =? 76))
  | _ => false
  end.

(** Bound on the iterations of the lexer's inner loops: each of them consumes
    input (proved: [Timeout] never happens, LexerProofs.v). *)
Definition lfuel (l : lexer) : nat := S (S (length (l_content l))).

(** [for p(l.ch) { l.step() }]. *)
Fixpoint stepWhile (p : Z -> bool) (fuel : nat) (l : lexer) : res lexer :=
  match fuel with
  | O => Timeout
  | S f => if p (l_ch l) then stepWhile p f (step l) else Ok l
  end.

Section WithUnicode.
Context {U : UnicodeDigits}.

(** isHexDigit, internal/lexer/tokens.go:83-85. *)
Definition isHexDigit (r : Z) : bool :=
  isDigit r || ((65 <=? r) && (r <=? 70)) || ((97 <=? r) && (r <=? 102)).

(** startsNumber, internal/lexer/lexer.go:399-417. *)
Definition startsNumber (p0 p1 p2 : Z) : bool :=
  if (p0 =? 43) || (p0 =? 45) then
    if isDigit p1 then true
    else if (p1 =? 46) && isDigit p2 then true else false
  else if (p0 =? 46) && isDigit p1 then true
  else isDigit p0.

(** nextEscaped, internal/lexer/lexer.go:570-578. *)
Fixpoint escapedLoop (n : nat) (l : lexer) : lexer :=
  match n with
  | O => l
  | S n' =>
    if isHexDigit (l_ch l) then
      let l1 := step l in
      let l2 := if isWhitespace (l_ch l1) then step l1 else l1 in
      escapedLoop n' l2
    else l
  end.
Definition nextEscaped (l : lexer) : lexer := escapedLoop 5 (step l).

(** nextName, internal/lexer/lexer.go:553-563. *)
Fixpoint nextNameLoop (fuel : nat) (l : lexer) : res lexer :=
  match fuel with
  | O => Timeout
  | S f =>
    if isNameCodePoint (l_ch l) then nextNameLoop f (step l)
    else if startsEscape (l_ch l) (peek l 0) then nextNameLoop f (nextEscaped l)
    else Ok l
  end.
Definition nextName (l : lexer) : res lexer := nextNameLoop (lfuel l) l.

(** nextDelimToken, internal/lexer/lexer.go:544-549. *)
Definition nextDelimToken (l : lexer) : res lexer :=
  let start := l_lastPos l in
  let l1 := setCur (step l) Delim in
  s <- contentSlice l1 start (l_lastPos l1) ;;
  Ok (setStr l1 s).

(** nextNumber, internal/lexer/lexer.go:512-541. *)
Definition nextNumber (l0 : lexer) : res lexer :=
  let l1 := if (l_ch l0 =? 43) || (l_ch l0 =? 45) then step l0 else l0 in
  l2 <- stepWhile isDigit (lfuel l1) l1 ;;
  l3 <- (if (l_ch l2 =? 46) && isDigit (peek l2 0)
         then stepWhile isDigit (lfuel l2) (step (step l2)) else Ok l2) ;;
  let p0 := peek l3 0 in
  let p1 := peek l3 1 in
  if ((l_ch l3 =? 101) || (l_ch l3 =? 69)) &&
     (isDigit p0 || (((p0 =? 43) || (p0 =? 45)) && isDigit p1))
  then
    let l4 := step l3 in
    let l5 := if (l_ch l4 =? 43) || (l_ch l4 =? 45) then step l4 else l4 in
    stepWhile isDigit (lfuel l5) l5
  else Ok l3.

(** nextNumericToken, internal/lexer/lexer.go:421-437. *)
Definition nextNumericToken (l0 : lexer) : res lexer :=
  let start := l_lastPos l0 in
  l1 <- nextNumber l0 ;;
  num <- contentSlice l1 start (l_lastPos l1) ;;
  let l2 := setNum l1 num in
  if startsIdentifier (l_ch l2) (peek l2 0) (peek l2 1) then
    let dimenStart := l_lastPos l2 in
    l3 <- nextName l2 ;;
    u <- contentSlice l3 dimenStart (l_lastPos l3) ;;
    Ok (setCur (setStr l3 u) Dimension)
  else if l_ch l2 =? 37 (* % *) then Ok (step (setCur l2 Percentage))
  else Ok (setCur l2 Number).

(** The whitespace loop of nextIdentLikeToken, internal/lexer/lexer.go:455-457. *)
Fixpoint urlSkipWs (fuel : nat) (i : nat) (l : lexer) : res lexer :=
  match fuel with
  | O => Timeout
  | S f =>
    if (i <? length (l_content l))%nat && isWhitespace (l_ch l)
    then urlSkipWs f (i + 1) (step l) else Ok l
  end.

(** The unquoted-url loop, internal/lexer/lexer.go:466-495. *)
Definition unexpectedCh (c : Z) : bytes := B "unexpected token: " ++ encodeRune c.
Fixpoint urlLoop (fuel : nat) (urlStart : nat) (l : lexer) : res lexer :=
  match fuel with
  | O => Timeout
  | S f =>
    let c := l_ch l in
    if c =? 41 (* ')' *) then
      s <- contentSlice l urlStart (l_lastPos l) ;;
      Ok (step (setStr l s))
    else if c =? -1 then errorf l (B "unexpected EOF")
    else if (c =? 34) || (c =? 39) || (c =? 40) then errorf l (unexpectedCh c)
    else if c =? 92 then
      if startsEscape c (peek l 0) then urlLoop f urlStart (nextEscaped l)
      else errorf l (unexpectedCh c)
    else if isWhitespace c then urlLoop f urlStart (step l)
    else if isNonPrintable c then errorf l (unexpectedCh c)
    else urlLoop f urlStart (step l)
  end.

(** nextIdentLikeToken, internal/lexer/lexer.go:447-507. *)
Definition nextIdentLikeToken (l0 : lexer) : res lexer :=
  let start := l_lastPos l0 in
  l1 <- nextName l0 ;;
  s <- contentSlice l1 start (l_lastPos l1) ;;
  let l2 := setStr l1 s in
  if isURLString s && (l_ch l2 =? 40) then
    let l3 := step l2 in
    l4 <- urlSkipWs (lfuel l3) (l_lastPos l3) l3 ;;
    if (l_ch l4 =? 39) || (l_ch l4 =? 34) then Ok (setCur l4 FunctionStart)
    else
      let l5 := setCur l4 URL in
      urlLoop (lfuel l5) (l_lastPos l5) l5
  else if l_ch l2 =? 40 then Ok (setCur (step l2) FunctionStart)
  else Ok (setCur l2 Ident).

(** Comment loop, internal/lexer/lexer.go:275-291: returns the offset of the
    closing star and the lexer after the closing slash. *)
Fixpoint commentLoop (fuel : nat) (l : lexer) : res (nat * lexer) :=
  match fuel with
  | O => Timeout
  | S f =>
    if l_ch l =? 42 (* '*' *) then
      let maybeEnd := l_lastPos l in
      let l1 := step l in
      if l_ch l1 =? 47 (* '/' *) then Ok (maybeEnd, step l1)
      else commentLoop f l1
    else if l_ch l =? -1 then errorf l (B "unexpected EOF")
    else commentLoop f (step l)
  end.

(** String loop, internal/lexer/lexer.go:305-332: returns the offset of the
    closing quote and the lexer after it. *)
Fixpoint stringLoop (fuel : nat) (mark : Z) (l : lexer) : res (nat * lexer) :=
  match fuel with
  | O => Timeout
  | S f =>
    if l_ch l =? mark then Ok (l_lastPos l, step l)
    else if l_ch l =? 10 then errorf l (B "unclosed string: unexpected newline")
    else if l_ch l =? 92 then
      let l1 := step l in
      if l_ch l1 =? 10 then stringLoop f mark (step l1)
      else if l_ch l1 =? -1 then errorf l1 (B "unexpected EOF")
      else if startsEscape (l_ch l1) (peek l1 0) then stringLoop f mark (nextEscaped l1)
      else stringLoop f mark l1
    else if l_ch l =? -1 then errorf l (B "unexpected EOF")
    else stringLoop f mark (step l)
  end.

(** [@] and [#] tokens, internal/lexer/lexer.go:199-205 and 212-218: one step
    over the sigil, then a name. *)
Definition nextSigilName (t : token) (l : lexer) : res lexer :=
  let l1 := setCur (step l) t in
  let start := l_lastPos l1 in
  l2 <- nextName l1 ;;
  s <- contentSlice l2 start (l_lastPos l2) ;;
  Ok (setStr l2 s).

(** Single-character tokens. *)
Definition single (t : token) (l : lexer) : res lexer := Ok (step (setCur l t)).

(** Lexer.Next, internal/lexer/lexer.go:142-371.  One unfolding of the fixpoint
    is one iteration of the Go [for] loop; [continue] is the recursive call. *)
Fixpoint nextLoop (fuel : nat) (l0 : lexer) : res lexer :=
  match fuel with
  | O => Timeout
  | S f =>
    let l := setStart l0 (l_lastPos l0) in
    let c := l_ch l in
    if c =? -1 then Ok (setCur l EOF)
    else if c =? 59 (* ; *) then single Semicolon l
    else if c =? 58 (* : *) then single Colon l
    else if c =? 43 (* + *) then
      if startsNumber c (peek l 0) (peek l 1) then nextNumericToken l
      else nextDelimToken l
    else if c =? 45 (* - *) then
      if startsNumber c (peek l 0) (peek l 1) then nextNumericToken l
      else if (peek l 0 =? 45) && (peek l 1 =? 62) then Ok (setCur l CDC)
      else if startsIdentifier (peek l 0) (peek l 1) (peek l 2) then nextIdentLikeToken l
      else nextDelimToken l
    else if c =? 60 (* < *) then
      if (peek l 0 =? 33) && (peek l 1 =? 45) && (peek l 2 =? 45) then Ok (setCur l CDO)
      else nextDelimToken l
    else if c =? 64 (* @ *) then
      if startsIdentifier (peek l 0) (peek l 1) (peek l 2) then nextSigilName At l
      else nextDelimToken l
    else if c =? 35 (* # *) then
      if isNameCodePoint (peek l 0) || startsEscape (peek l 0) (peek l 1) then nextSigilName Hash l
      else nextDelimToken l
    else if c =? 44 (* , *) then single Comma l
    else if c =? 40 then single LParen l
    else if c =? 41 then single RParen l
    else if c =? 91 then single LBracket l
    else if c =? 93 then single RBracket l
    else if c =? 123 then single LCurly l
    else if c =? 125 then single RCurly l
    else if c =? 46 (* . *) then
      if startsNumber (peek l 0) (peek l 1) (peek l 2) then nextNumericToken l
      else nextDelimToken l
    else if c =? 92 (* \ *) then
      if negb (startsEscape c (peek l 0)) then errorf l (B "parse error")
      else nextIdentLikeToken l
    else if c =? 47 (* / *) then
      if negb (peek l 0 =? 42) then nextDelimToken l
      else
        let l1 := step (step l) in
        let start := l_lastPos l1 in
        '(e, l2) <- commentLoop (lfuel l1) l1 ;;
        let l3 := setCur l2 Comment in
        s <- contentSlice l3 start e ;;
        let l4 := setStr l3 s in
        if negb (l_rcom l4) then nextLoop f l4 else Ok l4
    else if (c =? 34) || (c =? 39) then
      let l1 := step l in
      let start := l_lastPos l1 in
      '(e, l2) <- stringLoop (lfuel l1) c l1 ;;
      let l3 := setCur l2 TString in
      s <- contentSlice l3 start e ;;
      Ok (setStr l3 s)
    else if isWhitespace c then
      if negb (l_rws l) then nextLoop f (step l)
      else
        l1 <- stepWhile isWhitespace (lfuel l) l ;;
        Ok (setCur l1 Whitespace)
    else if isDigit c then nextNumericToken l
    else if isNameStartCodePoint c then nextIdentLikeToken l
    else nextDelimToken l
  end.
Definition next (l : lexer) : res lexer := nextLoop (lfuel l) l.

(** Lexer.Expect, internal/lexer/lexer.go:134-139. *)
Definition expect (t : token) (l : lexer) : res lexer :=
  if negb (teq (l_cur l) t) then
    errorf l (B "expected " ++ tokenString t ++ B ", but got " ++ tokenString (l_cur l) ++ B " instead")
  else next l.

(** NewLexer, internal/lexer/lexer.go:62-69. *)
Definition zeroLexer (content : bytes) (lines : list nat) : lexer :=
  mkLexer 0 0 0 0 content lines Illegal [] [] false false.
Definition newLexer (content : bytes) (lines : list nat) : res lexer :=
  next (step (zeroLexer content lines)).

End WithUnicode.
