(** internal/parser/parser.go and internal/parser/selectors.go.

    Every loop and recursive call of the parser consumes one unit of fuel.
    [Timeout] means the fuel ran out; the code has no counterpart to it.
    Loops that append to a list are written as recursive functions returning
    the list of remaining elements; the appended prefix is discarded on a
    panic, exactly as the Go value is. *)
From Verif Require Import Bytes Utf8 Source Lexer Ast.

Section WithUnicode.
Context {U : UnicodeDigits}.

Definition lower_upper (b : byte) (lo up : Z) : bool := (bz b =? lo) || (bz b =? up).

(** isImportantString, internal/parser/parser.go:68-79. *)
Definition isImportantString (s : bytes) : bool :=
  match s with
  | [b0; b1; b2; b3; b4; b5; b6; b7; b8] =>
    lower_upper b0 105 73 && lower_upper b1 109 77 && lower_upper b2 112 80 &&
    lower_upper b3 111 79 && lower_upper b4 114 82 && lower_upper b5 116 84 &&
    lower_upper b6 97 65 && lower_upper b7 110 78 && lower_upper b8 116 84
  | _ => false
  end.

(** [lhs.Location()] and [rhs.Location().End] of parser.go:285-286,308-309. *)
Definition joinSpan (l : lexer) (lhs rhs : value) : res span :=
  match valueSpan lhs with
  | None => crash l
  | Some a => match valueSpan rhs with
              | None => crash l
              | Some b => Ok (mkSpan (sp_start a) (sp_end b))
              end
  end.

Definition curDelim (l : lexer) (ops : list bytes) : bool :=
  teq (l_cur l) Delim && bmem (l_str l) ops.

(** parseValue (parser.go:341-457) with its bracket loop (358-373) and argument
    loop (426-451), and the math expression parser (parser.go:272-336). *)
Fixpoint parseValue (n : nat) (l : lexer) {struct n} : res (value * lexer) :=
  match n with
  | O => Timeout
  | S n =>
    let sp := tokenSpan l in
    match l_cur l with
    | Dimension => l1 <- next l ;; Ok (VDim sp (l_num l) (l_str l), l1)
    | LBracket =>
      l1 <- next l ;;
      '(vs, e, l2) <- bracketLoop n l1 ;;
      Ok (VBrackets (mkSpan (sp_start sp) e) vs, l2)
    | Percentage => l1 <- next l ;; Ok (VDim sp (l_num l) (B "%"), l1)
    | Number => l1 <- next l ;; Ok (VDim sp (l_num l) [], l1)
    | Ident => l1 <- next l ;; Ok (VIdent sp (l_str l), l1)
    | Hash => l1 <- next l ;; Ok (VHex sp (l_str l), l1)
    | TString => l1 <- next l ;; Ok (VString sp (l_str l), l1)
    | URL => l1 <- next l ;; Ok (VFunc sp (B "url") [VIdent (mkSpan 0 0) (l_str l)], l1)
    | FunctionStart =>
      let name := l_str l in
      l1 <- next l ;;
      '(vs, e, l2) <- argsLoop n name l1 ;;
      let endd := match e with Some e => e | None => sp_end sp end in
      Ok (VFunc (mkSpan (sp_start sp) endd) name vs, l2)
    | _ => Ok (VNil, l)
    end
  end
with bracketLoop (n : nat) (l : lexer) {struct n} : res (list value * nat * lexer) :=
  match n with
  | O => Timeout
  | S n =>
    if teq (l_cur l) RBracket then
      let e := tokenEnd l in
      l1 <- next l ;; Ok ([], e, l1)
    else
      '(v, l1) <- parseValue n l ;;
      if isNil v then errorf l1 (B "expected value")
      else '(vs, e, l2) <- bracketLoop n l1 ;; Ok (v :: vs, e, l2)
  end
with argsLoop (n : nat) (name : bytes) (l : lexer) {struct n} : res (list value * option nat * lexer) :=
  match n with
  | O => Timeout
  | S n =>
    if teq (l_cur l) RParen then
      let e := tokenEnd l in
      l1 <- next l ;; Ok ([], Some e, l1)
    else if teq (l_cur l) Comma then
      let v := VComma (tokenSpan l) in
      l1 <- next l ;;
      '(vs, e, l2) <- argsLoop n name l1 ;; Ok (v :: vs, e, l2)
    else if isMathName name then
      '(v, l1) <- mathSum n l ;;
      '(vs, e, l2) <- argsLoop n name l1 ;; Ok (v :: vs, e, l2)
    else
      '(v, l1) <- parseValue n l ;;
      if isNil v then Ok ([], None, l1)
      else '(vs, e, l2) <- argsLoop n name l1 ;; Ok (v :: vs, e, l2)
  end
with mathSum (n : nat) (l : lexer) {struct n} : res (value * lexer) :=
  match n with
  | O => Timeout
  | S n => '(lhs, l1) <- mathProduct n l ;; mathSumLoop n lhs l1
  end
with mathSumLoop (n : nat) (lhs : value) (l : lexer) {struct n} : res (value * lexer) :=
  match n with
  | O => Timeout
  | S n =>
    if curDelim l [B "+"; B "-"] then
      let op := l_str l in
      l1 <- expect Delim l ;;
      '(rhs, l2) <- mathProduct n l1 ;;
      sp <- joinSpan l2 lhs rhs ;;
      mathSumLoop n (VMath sp op lhs rhs) l2
    else Ok (lhs, l)
  end
with mathProduct (n : nat) (l : lexer) {struct n} : res (value * lexer) :=
  match n with
  | O => Timeout
  | S n => '(lhs, l1) <- mathParen n l ;; mathProductLoop n lhs l1
  end
with mathProductLoop (n : nat) (lhs : value) (l : lexer) {struct n} : res (value * lexer) :=
  match n with
  | O => Timeout
  | S n =>
    if curDelim l [B "*"; B "/"] then
      let op := l_str l in
      l1 <- expect Delim l ;;
      '(rhs, l2) <- mathParen n l1 ;;
      sp <- joinSpan l2 lhs rhs ;;
      mathProductLoop n (VMath sp op lhs rhs) l2
    else Ok (lhs, l)
  end
with mathParen (n : nat) (l : lexer) {struct n} : res (value * lexer) :=
  match n with
  | O => Timeout
  | S n =>
    if negb (teq (l_cur l) LParen) then parseValue n l
    else
      let loc := tokenSpan l in
      l1 <- expect LParen l ;;
      '(v, l2) <- mathSum n l1 ;;
      let e := tokenEnd l2 in
      l3 <- expect RParen l2 ;;
      Ok (VMathParen (mkSpan (sp_start loc) e) v, l3)
  end.

(** The loop of parseDeclaration, parser.go:181-220.  [lastEnd] is
    [decl.Values[len-1].Location().End] of the values collected so far ([None]
    when there are none), [dEnd] is decl.End, [imp] is decl.Important. *)
Fixpoint declLoop (n : nat) (lastEnd : option nat) (dEnd : nat) (imp : bool) (l : lexer)
  : res (list value * nat * bool * lexer) :=
  match n with
  | O => Timeout
  | S n =>
    match l_cur l with
    | EOF => errorf l (B "unexpected EOF")
    | Comma =>
      let sp := tokenSpan l in
      l1 <- next l ;;
      '(vs, e, im, l2) <- declLoop n (Some (sp_end sp)) dEnd imp l1 ;;
      Ok (VComma sp :: vs, e, im, l2)
    | Delim =>
      if negb (beq (l_str l) (B "!")) then
        let sp := tokenSpan l in
        l1 <- next l ;;
        '(vs, e, im, l2) <- declLoop n (Some (sp_end sp)) dEnd imp l1 ;;
        Ok (VRaw sp (l_str l) :: vs, e, im, l2)
      else
        l1 <- next l ;;
        if negb (isImportantString (l_str l1)) then
          errorf l1 (B "expected !important, unexpected token: " ++ l_str l1)
        else
          let e := tokenEnd l1 in
          l2 <- next l1 ;; declLoop n lastEnd e true l2
    | _ =>
      '(v, l1) <- parseValue n l ;;
      match valueSpan v with
      | None =>
        match lastEnd with
        | None => errorf l1 (B "declaration must have a value")
        | Some e => Ok ([], (if (dEnd <? e)%nat then e else dEnd), imp, l1)
        end
      | Some sp =>
        '(vs, e, im, l2) <- declLoop n (Some (sp_end sp)) dEnd imp l1 ;;
        Ok (v :: vs, e, im, l2)
      end
    end
  end.

(** parseDeclaration, parser.go:158-221. *)
Definition parseDeclaration (n : nat) (l : lexer) : res (decl * lexer) :=
  '(prefix, l0) <-
    (if teq (l_cur l) Delim && beq (l_str l) (B "*")
     then l1 <- next l ;; Ok (l_str l, l1) else Ok ([], l)) ;;
  let property := prefix ++ l_str l0 in
  let sp := tokenSpan l0 in
  l1 <- expect Ident l0 ;;
  l2 <- expect Colon l1 ;;
  '(vs, e, imp, l3) <- declLoop n None (sp_end sp) false l2 ;;
  Ok (DDecl (mkSpan (sp_start sp) e) property vs imp, l3).

(** parseRaw, parser.go:142-156. *)
Fixpoint rawLoop (n : nat) (l : lexer) : res lexer :=
  match n with
  | O => Timeout
  | S n => if teq (l_cur l) Semicolon then Ok l else l1 <- next l ;; rawLoop n l1
  end.
Definition parseRaw (n : nat) (l : lexer) : res (decl * lexer) :=
  let start := sp_start (tokenSpan l) in
  l1 <- rawLoop n l ;;
  let e := tokenEnd l1 in
  l2 <- next l1 ;;
  s <- contentSlice l2 start e ;;
  Ok (DRaw (mkSpan start e) s, l2).

(** parseDeclarationOrFallback, parser.go:129-140.  The saved lexer is a copy
    of the struct; the line table lives in the shared Source and keeps what
    the failed attempt appended. *)
Definition parseDeclarationOrFallback (n : nat) (l : lexer) : res (decl * lexer) :=
  match parseDeclaration n l with
  | Ok r => Ok r
  | Panic _ lines => parseRaw n (setLines l lines)
  | Timeout => Timeout
  end.

(** parseDeclarationBlock, parser.go:112-127. *)
Fixpoint declBlockLoop (n : nat) (l : lexer) : res (list decl * nat * lexer) :=
  match n with
  | O => Timeout
  | S n =>
    if teq (l_cur l) RCurly then
      let e := tokenEnd l in
      l1 <- next l ;; Ok ([], e, l1)
    else
      '(d, l1) <- parseDeclarationOrFallback n l ;;
      l2 <- (if teq (l_cur l1) Semicolon then next l1 else Ok l1) ;;
      '(ds, e, l3) <- declBlockLoop n l2 ;;
      Ok (d :: ds, e, l3)
  end.
Definition parseDeclarationBlock (n : nat) (l : lexer) : res (span * list decl * lexer) :=
  let sp := tokenSpan l in
  l1 <- next l ;;
  '(ds, e, l2) <- declBlockLoop n l1 ;;
  Ok (mkSpan (sp_start sp) e, ds, l2).

(** parseKeyframeSelectorList, parser.go:223-268. *)
Fixpoint keyLoop (n : nat) (l : lexer) : res (list keysel * lexer) :=
  match n with
  | O => Timeout
  | S n =>
    if teq (l_cur l) EOF then errorf l (B "unexpected EOF") else
    k <- match l_cur l with
         | Percentage => Ok (KPercent (tokenSpan l) (l_num l))
         | Ident =>
           if negb (beq (l_str l) (B "from")) && negb (beq (l_str l) (B "to")) then
             errorf l (B "unexpected string: " ++ l_str l ++ B ". keyframe selector can only be from, to, or a percentage")
           else Ok (KIdent (tokenSpan l) (l_str l))
         | _ => errorf l (B "unexepected token: " ++ tokenString (l_cur l) ++ B ". keyframe selector can only be from, to, or a percentage")
         end ;;
    l1 <- next l ;;
    if teq (l_cur l1) Comma then
      l2 <- next l1 ;;
      '(ks, l3) <- keyLoop n l2 ;; Ok (k :: ks, l3)
    else Ok ([k], l1)
  end.
(** End of the last element of a list of spans (the code indexes len-1). *)
Definition lastEndOf (d : nat) (l : list span) : nat := sp_end (last l (mkSpan d d)).
Definition parseKeyframeSelectorList (n : nat) (l : lexer) : res (prelude * lexer) :=
  let start := sp_start (tokenSpan l) in
  '(ks, l1) <- keyLoop n l ;;
  Ok (PrKey (mkSpan start (lastEndOf start (map keySpan ks))) ks, l1).

(** parseANPlusB, selectors.go:234-311. *)
Definition parseANPlusB (l0 : lexer) : res (pargs selpart * lexer) :=
  let prev := l_rws l0 in
  let l := setRws l0 false in
  let sp := tokenSpan l in
  '(a, op, b, e, l1) <-
    (if teq (l_cur l) Dimension && beq (l_str l) (B "n") then
       l1 <- next l ;; Ok (l_num l, [], [], tokenEnd l, l1)
     else if teq (l_cur l) Dimension && hasPrefix (B "n") (l_str l) then
       let numeral := skipn 1 (l_str l) in
       op <- (if hasPrefix (B "-") numeral then Ok (B "-")
              else if hasPrefix (B "+") numeral then Ok (B "+")
              else errorf l (B "expected +/- as part of An+B")) ;;
       let b := skipn 1 numeral in
       if isEmpty b then errorf l (B "expected number after operator")
       else l1 <- next l ;; Ok (l_num l, op, b, tokenEnd l, l1)
     else if teq (l_cur l) Ident && beq (l_str l) (B "n") then
       l1 <- expect Ident l ;; Ok ([], [], [], tokenEnd l, l1)
     else if teq (l_cur l) Ident && beq (l_str l) (B "-n") then
       l1 <- expect Ident l ;; Ok (B "-1", [], [], tokenEnd l, l1)
     else if teq (l_cur l) Number then
       let '(op, b) :=
         if hasPrefix (B "-") (l_num l) then (B "-", skipn 1 (l_num l))
         else if hasPrefix (B "+") (l_num l) then (B "+", skipn 1 (l_num l))
         else ([], l_num l) in
       l1 <- expect Number l ;; Ok (B "0", op, b, tokenEnd l, l1)
     else Ok ([], [], [], sp_end sp, l)) ;;
  '(op2, b2, e2, l2) <-
    (if teq (l_cur l1) Number then
       op2 <- (if hasPrefix (B "-") (l_num l1) then Ok (B "-")
               else if hasPrefix (B "+") (l_num l1) then Ok (B "+")
               else errorf l1 (B "expected +/- as part of An+B")) ;;
       l2 <- expect Number l1 ;; Ok (op2, skipn 1 (l_num l1), tokenEnd l1, l2)
     else if curDelim l1 [B "+"; B "-"] then
       l2 <- next l1 ;;
       l3 <- expect Number l2 ;; Ok (l_str l1, l_num l2, tokenEnd l2, l3)
     else Ok (op, b, e, l1)) ;;
  Ok (PAAnb (mkSpan (sp_start sp) e2) a op2 b2, setRws l2 prev).

(** parseAttributeSelector, selectors.go:183-232. *)
Definition parseAttributeSelector (n : nat) (l0 : lexer) : res (selpart * lexer) :=
  let prev := l_rws l0 in
  let l := setRws l0 false in
  let start := sp_start (tokenSpan l) in
  l1 <- next l ;;
  let prop := l_str l1 in
  l2 <- expect Ident l1 ;;
  if teq (l_cur l2) RBracket then
    let e := tokenEnd l2 in
    l3 <- next l2 ;;
    Ok (SAttr (mkSpan start e) prop [] VNil [], setRws l3 prev)
  else
    '(preop, l3) <-
      (if bmem (l_str l2) [B "^"; B "~"; B "$"; B "*"; B "|"] then
         let pre := l_str l2 in
         l3 <- next l2 ;;
         if negb (beq (l_str l3) (B "=")) then
           errorf l3 (B "expected =, got " ++ l_str l3 ++ B ": ")
         else l4 <- expect Delim l3 ;; Ok (pre, l4)
       else l3 <- expect Delim l2 ;; Ok ([], l3)) ;;
    '(v, l4) <- parseValue n l3 ;;
    if isNil v then errorf l4 (B "value must be specified")
    else
      let e := tokenEnd l4 in
      if teq (l_cur l4) Ident && (beq (l_str l4) (B "s") || beq (l_str l4) (B "i")) then
        l5 <- next l4 ;;
        l6 <- expect RBracket l5 ;;
        Ok (SAttr (mkSpan start e) prop preop v (l_str l4), setRws l6 prev)
      else
        l5 <- expect RBracket l4 ;;
        Ok (SAttr (mkSpan start e) prop preop v [], setRws l5 prev).

Definition isNthName (n : bytes) : bool :=
  bmem n [B "nth-child"; B "nth-last-child"; B "nth-of-type"; B "nth-last-of-type"].

(** parseSelectorList (selectors.go:10-35), parseSelector (selectors.go:37-181)
    and the pseudo-class part of the latter (102-168). *)
Fixpoint parseSelectorList (n : nat) (l : lexer) {struct n} : res (sellist * lexer) :=
  match n with
  | O => Timeout
  | S n =>
    let start := sp_start (tokenSpan l) in
    '(sels, l1) <- selListLoop n l ;;
    Ok ((mkSpan start (lastEndOf start (map fst sels)), sels), l1)
  end
with selListLoop (n : nat) (l : lexer) {struct n} : res (list selector * lexer) :=
  match n with
  | O => Timeout
  | S n =>
    if teq (l_cur l) EOF then errorf l (B "unexpected EOF") else
    '(s, l1) <- parseSelector n l ;;
    if teq (l_cur l1) Comma then
      l2 <- next l1 ;;
      '(ss, l3) <- selListLoop n l2 ;; Ok (s :: ss, l3)
    else Ok ([s], l1)
  end
with parseSelector (n : nat) (l0 : lexer) {struct n} : res (selector * lexer) :=
  match n with
  | O => Timeout
  | S n =>
    let start := sp_start (tokenSpan l0) in
    let prev := l_rws l0 in
    '(parts, e, l1) <- partsLoop n None (setRws l0 true) ;;
    Ok ((mkSpan start e, parts), setRws l1 prev)
  end
(** [lastEnd]: End of the last part collected so far, [None] if none. *)
with partsLoop (n : nat) (lastEnd : option nat) (l : lexer) {struct n} : res (list selpart * nat * lexer) :=
  match n with
  | O => Timeout
  | S n =>
    let sp := tokenSpan l in
    let continue p l1 :=
      '(ps, e, l2) <- partsLoop n (Some (sp_end (partSpan p))) l1 ;; Ok (p :: ps, e, l2) in
    match l_cur l with
    | EOF => errorf l (B "unexpected EOF")
    | Whitespace => l1 <- next l ;; continue (SWhitespace sp) l1
    | Ident => l1 <- next l ;; continue (SType sp (l_str l)) l1
    | Hash => l1 <- next l ;; continue (SId sp (l_str l)) l1
    | Delim =>
      if beq (l_str l) (B ".") then
        l1 <- next l ;;
        let p := SClass (mkSpan (sp_start sp) (tokenEnd l1)) (l_str l1) in
        l2 <- expect Ident l1 ;; continue p l2
      else if bmem (l_str l) [B "+"; B ">"; B "~"; B "|"] then
        l1 <- next l ;; continue (SComb sp (l_str l)) l1
      else if beq (l_str l) (B "*") then
        l1 <- next l ;; continue (SType sp (l_str l)) l1
      else errorf l (B "unexpected delimeter: " ++ l_str l)
    | Colon =>
      l1 <- next l ;;
      let wrapper := teq (l_cur l1) Colon in
      let pstart := if wrapper then sp_start (tokenSpan l1) else sp_start sp in
      l2 <- (if wrapper then next l1 else Ok l1) ;;
      let name := l_str l2 in
      '(args, e, l3) <-
        match l_cur l2 with
        | Ident => l3 <- next l2 ;; Ok (PANone, tokenEnd l2, l3)
        | FunctionStart =>
          l3 <- next l2 ;;
          '(args, l4) <-
            (if isNthName name then
               match l_cur l3 with
               | Number | Dimension => parseANPlusB l3
               | Ident =>
                 if beq (l_str l3) (B "n") || beq (l_str l3) (B "-n") then parseANPlusB l3
                 else if negb (beq (l_str l3) (B "even")) && negb (beq (l_str l3) (B "odd")) then
                   errorf l3 (B "expected even, odd, or an+b syntax")
                 else l4 <- next l3 ;; Ok (PAIdent (tokenSpan l3) (l_str l3), l4)
               | _ => Ok (PANone, l3)
               end
             else
               '((slsp, sels), l4) <- parseSelectorList n l3 ;; Ok (PASel slsp sels, l4)) ;;
          let e := tokenEnd l4 in
          l5 <- expect RParen l4 ;; Ok (args, e, l5)
        | _ => errorf l2 (B "unexpected token: " ++ tokenString (l_cur l2))
        end ;;
      let isp := mkSpan pstart e in
      continue (if wrapper then SPseudoEl (mkSpan (sp_start sp) e) isp name args
                else SPseudo isp name args) l3
    | LBracket =>
      '(p, l1) <- parseAttributeSelector n l ;; continue p l1
    | _ =>
      match lastEnd with
      | None => errorf l (B "expected selector")
      | Some e => Ok ([], e, l)
      end
    end
  end.

Section Run.
(** Identifies the parse run that allocates the nodes (pointer identity). *)
Variable run : nat.

(** parseQualifiedRule, parser.go:84-108. *)
Fixpoint qruleLoop (n : nat) (isKeyframes : bool) (start : nat) (pr : prelude) (l : lexer)
  : res (qrule * lexer) :=
  match n with
  | O => Timeout
  | S n =>
    match l_cur l with
    | EOF => errorf l (B "unexpected EOF")
    | LCurly =>
      '(bsp, ds, l1) <- parseDeclarationBlock n l ;;
      Ok (mkRule run (mkSpan start (sp_end bsp)) pr bsp ds, l1)
    | _ =>
      if isKeyframes then
        '(pr1, l1) <- parseKeyframeSelectorList n l ;; qruleLoop n isKeyframes start pr1 l1
      else
        '(sl, l1) <- parseSelectorList n l ;; qruleLoop n isKeyframes start (PrSel sl) l1
    end
  end.
Definition parseQualifiedRule (n : nat) (isKeyframes : bool) (l : lexer) : res (qrule * lexer) :=
  qruleLoop n isKeyframes (sp_start (tokenSpan l)) PrNil l.

(** The rule loop shared by parseKeyframes (parser.go:571-586) and
    parseMediaAtRule (parser.go:605-620). *)
Fixpoint rulesLoop (n : nat) (isKeyframes : bool) (l : lexer) : res (list qrule * nat * lexer) :=
  match n with
  | O => Timeout
  | S n =>
    match l_cur l with
    | EOF => errorf l (B "unexpected EOF")
    | RCurly => let e := tokenEnd l in l1 <- next l ;; Ok ([], e, l1)
    | _ =>
      '(r, l1) <- parseQualifiedRule n isKeyframes l ;;
      '(rs, e, l2) <- rulesLoop n isKeyframes l1 ;;
      Ok (r :: rs, e, l2)
    end
  end.

(** parseMediaRangeOperator, parser.go:777-807. *)
Definition parseMediaRangeOperator (l : lexer) : res (bytes * lexer) :=
  let operator := l_str l in
  l1 <- next l ;;
  let isLtGt := beq operator (B "<") || beq operator (B ">") in
  if teq (l_cur l1) Delim then
    if negb (beq (l_str l1) (B "=")) || negb isLtGt then
      errorf l1 (B "unexpected token: " ++ tokenString (l_cur l1))
    else
      l2 <- next l1 ;;
      if beq operator (B "<") then Ok (B "<=", l2) else Ok (B ">=", l2)
  else if beq operator (B "<") then Ok (B "<", l1)
  else if beq operator (B ">") then Ok (B ">", l1)
  else errorf l1 (B "unknown operator: " ++ operator).

(** parseMediaFeature, parser.go:681-768. *)
Definition parseMediaFeature (n : nat) (l : lexer) : res (mqpart * lexer) :=
  let start := sp_start (tokenSpan l) in
  l1 <- expect LParen l ;;
  '(first, l2) <- parseValue n l1 ;;
  match l_cur l2 with
  | RParen =>
    let e := tokenEnd l2 in
    l3 <- next l2 ;;
    match first with
    | VIdent isp prop => Ok (MPlain (mkSpan start e) isp prop VNil, l3)
    | _ => errorf l3 (B "expected identifier in media feature with no value")
    end
  | Colon =>
    l3 <- next l2 ;;
    match first with
    | VIdent isp prop =>
      '(second, l4) <- parseValue n l3 ;;
      let e := tokenEnd l4 in
      l5 <- expect RParen l4 ;;
      Ok (MPlain (mkSpan start e) isp prop second, l5)
    | _ => errorf l3 (B "expected identifier in non-range media feature")
    end
  | Delim =>
    '(op, l3) <- parseMediaRangeOperator l2 ;;
    '(second, l4) <- parseValue n l3 ;;
    match second with
    | VIdent isp prop =>
      '(rhs, l6) <-
        (if teq (l_cur l4) Delim then
           '(op2, l5) <- parseMediaRangeOperator l4 ;;
           if negb (beq op2 op) then errorf l5 (B "operators in a range must be the same")
           else parseValue n l5
         else Ok (VNil, l4)) ;;
      let e := tokenEnd l6 in
      l7 <- expect RParen l6 ;;
      Ok (MRange (mkSpan start e) isp prop first op rhs, l7)
    | _ =>
      match first with
      | VIdent isp prop =>
        let e := tokenEnd l4 in
        l5 <- expect RParen l4 ;;
        Ok (MRange (mkSpan start e) isp prop VNil op second, l5)
      | _ => errorf l4 (B "expected identifier")
      end
    end
  | _ => errorf l2 (B "unexpected token: " ++ tokenString (l_cur l2))
  end.

(** parseMediaQuery, parser.go:654-679; an empty part list stands for the nil
    *MediaQuery.  The type assertion of line 668 cannot fail: parseValue on an
    Ident token returns an Identifier. *)
Fixpoint mqPartsLoop (n : nat) (l : lexer) : res (list mqpart * lexer) :=
  match n with
  | O => Timeout
  | S n =>
    match l_cur l with
    | EOF => errorf l (B "unexpected EOF")
    | LParen =>
      '(p, l1) <- parseMediaFeature n l ;;
      '(ps, l2) <- mqPartsLoop n l1 ;; Ok (p :: ps, l2)
    | Ident =>
      l1 <- next l ;;
      '(ps, l2) <- mqPartsLoop n l1 ;; Ok (MIdent (tokenSpan l) (l_str l) :: ps, l2)
    | _ => Ok ([], l)
    end
  end.

(** parseMediaQueryList, parser.go:623-652; [None] is the nil list. *)
Fixpoint mqListLoop (n : nat) (l : lexer) : res (list mquery * lexer) :=
  match n with
  | O => Timeout
  | S n =>
    if teq (l_cur l) EOF then errorf l (B "unexpected EOF") else
    let start := sp_start (tokenSpan l) in
    '(parts, l1) <- mqPartsLoop n l ;;
    let here :=
      match parts with
      | [] => []
      | _ => [(mkSpan start (lastEndOf start (map mqpartSpan parts)), parts)]
      end in
    if teq (l_cur l1) Comma then
      l2 <- next l1 ;;
      '(qs, l3) <- mqListLoop n l2 ;; Ok (here ++ qs, l3)
    else Ok (here, l1)
  end.
Definition parseMediaQueryList (n : nat) (l : lexer) : res (option mqlist * lexer) :=
  let start := sp_start (tokenSpan l) in
  '(qs, l1) <- mqListLoop n l ;;
  match qs with
  | [] => Ok (None, l1)
  | _ => Ok (Some (mkSpan start (lastEndOf start (map fst qs)), qs), l1)
  end.

(** parseImportAtRule, parser.go:480-537: the rule and the appended import. *)
Definition parseImportAtRule (n : nat) (l : lexer) : res (atrule * (bytes * ptr) * lexer) :=
  let sp := tokenSpan l in
  let name := l_str l in
  l1 <- next l ;;
  '(psp, target, l2) <-
    match l_cur l1 with
    | URL => l2 <- next l1 ;; Ok (tokenSpan l1, l_str l1, l2)
    | FunctionStart =>
      if negb (beq (l_str l1) (B "url")) then errorf l1 (B "@import target must be a url or string")
      else
        l2 <- next l1 ;;
        let target := l_str l2 in
        l3 <- expect TString l2 ;;
        let e := tokenEnd l3 in
        l4 <- expect RParen l3 ;;
        Ok (mkSpan (sp_start (tokenSpan l1)) e, target, l4)
    | TString => l2 <- expect TString l1 ;; Ok (tokenSpan l1, l_str l1, l2)
    | _ => errorf l1 (B "unexpected import specifier")
    end ;;
  '(mq, l3) <- parseMediaQueryList n l2 ;;
  let '(pres, e) :=
    match mq with
    | None => ([APString psp target], sp_end psp)
    | Some q => ([APString psp target; APMql q], sp_end (fst q))
    end in
  let a := mkAt run (mkSpan (sp_start sp) e) name pres None in
  Ok (a, (target, atRuleId a), l3).

(** parseKeyframes, parser.go:541-587. *)
Definition parseKeyframes (n : nat) (l : lexer) : res (atrule * lexer) :=
  let sp := tokenSpan l in
  let name := l_str l in
  l1 <- next l ;;
  pre <- match l_cur l1 with
         | TString => Ok (APString (tokenSpan l1) (l_str l1))
         | Ident => Ok (APIdent (tokenSpan l1) (l_str l1))
         | _ => errorf l1 (B "unexpected token " ++ tokenString (l_cur l1) ++ B ", expected string or identifier for keyframes")
         end ;;
  l2 <- next l1 ;;
  let bstart := sp_start (tokenSpan l2) in
  l3 <- expect LCurly l2 ;;
  '(rs, e, l4) <- rulesLoop n true l3 ;;
  Ok (mkAt run (mkSpan (sp_start sp) e) name [pre] (Some (BRules (mkSpan bstart e) rs)), l4).

(** parseMediaAtRule, parser.go:591-621. *)
Definition parseMediaAtRule (n : nat) (l : lexer) : res (atrule * lexer) :=
  let sp := tokenSpan l in
  let name := l_str l in
  l1 <- next l ;;
  '(mq, l2) <- parseMediaQueryList n l1 ;;
  let pre := match mq with None => APNilMql | Some q => APMql q end in
  let bstart := sp_start (tokenSpan l2) in
  l3 <- expect LCurly l2 ;;
  '(rs, e, l4) <- rulesLoop n false l3 ;;
  Ok (mkAt run (mkSpan (sp_start sp) e) name [pre] (Some (BRules (mkSpan bstart e) rs)), l4).

(** parseCustomMediaAtRule, parser.go:811-834. *)
Definition parseCustomMediaAtRule (n : nat) (l : lexer) : res (atrule * lexer) :=
  let sp := tokenSpan l in
  let rname := l_str l in
  l1 <- next l ;;
  '(maybeName, l2) <- parseValue n l1 ;;
  match maybeName with
  | VIdent isp name =>
    '(queries, l3) <- parseMediaQueryList n l2 ;;
    match queries with
    | None => crash l3    (* queries.Queries on a nil pointer, parser.go:827 *)
    | Some (_, [q]) =>
      Ok (mkAt run (mkSpan (sp_start sp) (sp_end (fst q))) rname [APIdent isp name; APMq q] None, l3)
    | Some _ => errorf l3 (B "@custom-media rule requires a single media query argument")
    end
  | _ => errorf l2 (B "expected identifier")
  end.

(** parseGenericAtRule, parser.go:837-848. *)
Definition parseGenericAtRule (n : nat) (l : lexer) : res (atrule * lexer) :=
  let sp := tokenSpan l in
  let name := l_str l in
  l1 <- next l ;;
  '(bsp, ds, l2) <- parseDeclarationBlock n l1 ;;
  Ok (mkAt run (mkSpan (sp_start sp) (sp_end bsp)) name [] (Some (BDecls bsp ds)), l2).

(** parseAtRule, parser.go:459-476: the node and the import specifiers it adds. *)
Definition parseAtRule (n : nat) (l : lexer) : res (node * list (bytes * ptr) * lexer) :=
  if beq (l_str l) (B "import") then
    '(a, i, l1) <- parseImportAtRule n l ;; Ok (NAt a, [i], l1)
  else if beq (l_str l) (B "media") then
    '(a, l1) <- parseMediaAtRule n l ;; Ok (NAt a, [], l1)
  else if bmem (l_str l) [B "keyframes"; B "-webkit-keyframes"; B "-o-keyframes"] then
    '(a, l1) <- parseKeyframes n l ;; Ok (NAt a, [], l1)
  else if beq (l_str l) (B "custom-media") then
    '(a, l1) <- parseCustomMediaAtRule n l ;; Ok (NAt a, [], l1)
  else
    '(a, l1) <- parseGenericAtRule n l ;; Ok (NAt a, [], l1).

(** parse, parser.go:47-66: the nodes and imports appended to the stylesheet. *)
Fixpoint parseLoop (n : nat) (l : lexer) : res (list node * list (bytes * ptr) * lexer) :=
  match n with
  | O => Timeout
  | S n =>
    match l_cur l with
    | EOF => Ok ([], [], l)
    | At =>
      '(nd, is, l1) <- parseAtRule n l ;;
      '(nds, iss, l2) <- parseLoop n l1 ;;
      Ok (nd :: nds, is ++ iss, l2)
    | Semicolon | CDO | CDC => l1 <- next l ;; parseLoop n l1
    | _ =>
      '(r, l1) <- parseQualifiedRule n false l ;;
      '(nds, iss, l2) <- parseLoop n l1 ;;
      Ok (NRule r :: nds, iss, l2)
    end
  end.

(** Parse, parser.go:11-31.  [newParser] runs before the deferred recover is
    installed, so a lexing error in the first token escapes as a panic
    ([ParseCrash]); so does any Go run-time error (re-panicked at line 21). *)
Inductive parseOutcome :=
| ParseOk (ss : stylesheet) (lines : list nat)
| ParseErr (sp : span) (msg : bytes) (lines : list nat)
| ParseCrash
| ParseTimeout.
Definition parse (n : nat) (content : bytes) : parseOutcome :=
  match newLexer content [] with
  | Timeout => ParseTimeout
  | Panic _ _ => ParseCrash
  | Ok l =>
    match parseLoop n l with
    | Ok (nds, imps, l1) => ParseOk (mkSheet nds imps) (l_lines l1)
    | Panic (PLex sp msg) lines => ParseErr sp msg lines
    | Panic PRuntime _ => ParseCrash
    | Timeout => ParseTimeout
    end
  end.
End Run.
End WithUnicode.
