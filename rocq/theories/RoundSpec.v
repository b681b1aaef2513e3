(** Which stylesheets survive printing and parsing again (C16, C17): a
    description by their parts, without reference to the code. *)
From Verif Require Import Bytes Utf8 Source Ast.

(** * Words *)
Definition isUpper (b : byte) : bool := (65 <=? bz b) && (bz b <=? 90).
Definition isLower (b : byte) : bool := (97 <=? bz b) && (bz b <=? 122).
Definition isLetter (b : byte) : bool := isUpper b || isLower b.
Definition isNumeric (b : byte) : bool := (48 <=? bz b) && (bz b <=? 57).
(** Letters, digits, "_", "-" and everything beyond ASCII. *)
Definition nameByte (b : byte) : bool :=
  isLetter b || isNumeric b || (bz b =? 95) || (bz b =? 45) || (128 <=? bz b).
Definition startByte (b : byte) : bool := isLetter b || (bz b =? 95).
(** A CSS identifier without escapes that does not begin beyond ASCII. *)
Definition identifier (s : bytes) : bool :=
  match s with
  | [] => false
  | c :: r =>
    forallb nameByte r &&
    (startByte c ||
     ((bz c =? 45) && match r with
                      | d :: r' => startByte d || ((bz d =? 45) && negb (isEmpty r'))
                      | [] => false
                      end))
  end.
Definition word (s : bytes) : bool := forallb nameByte s && negb (isEmpty s).
(** The text between the quotes of a string: no quote, backslash, line break. *)
Definition quotable (s : bytes) : bool :=
  forallb (fun b => negb ((bz b =? 34) || (bz b =? 92) || (bz b =? 10) || (bz b =? 13))) s.
(** The text between the parentheses of an unquoted url. *)
Definition urlByte (b : byte) : bool :=
  negb ((bz b <=? 32) || (bz b =? 34) || (bz b =? 39) || (bz b =? 40) || (bz b =? 41) || (bz b =? 92) || (bz b =? 127)).
Definition urlName (n : bytes) : bool :=
  match n with
  | [a; b; c] => ((bz a =? 117) || (bz a =? 85)) && ((bz b =? 114) || (bz b =? 82)) && ((bz c =? 108) || (bz c =? 76))
  | _ => false
  end.

(** * Numbers *)
Definition digits (s : bytes) : bool := forallb isNumeric s && negb (isEmpty s).
(** digits, .digits or digits.digits *)
Fixpoint decimal (s : bytes) : bool :=
  match s with
  | [] => false
  | c :: r => if bz c =? 46 then digits r
              else isNumeric c && (isEmpty r || decimal r)
  end.
(** A decimal number with an optional sign. *)
Definition numeral (s : bytes) : bool :=
  match s with
  | c :: r => if (bz c =? 43) || (bz c =? 45) then decimal r else decimal s
  | [] => false
  end.
(** A unit begins with a letter, and with two if the first is an e. *)
Definition unitName (u : bytes) : bool :=
  match u with
  | c :: r =>
    startByte c && forallb nameByte r &&
    (if (bz c =? 101) || (bz c =? 69) then match r with d :: _ => isLetter d | [] => false end else true)
  | [] => false
  end.

(** * Values *)
Definition firstByte (s : bytes) (p : byte -> bool) : bool := match s with c :: _ => p c | [] => false end.
Definition lastByte (s : bytes) (p : byte -> bool) : bool := firstByte (rev s) p.

(** How a value begins and ends: whether a "+" or "-" may touch it. *)
Fixpoint beginsNumber (v : value) : bool :=
  match v with
  | VDim _ n _ => firstByte n (fun c => isNumeric c || (bz c =? 46))
  | VMath _ _ l _ => beginsNumber l
  | _ => false
  end.
Fixpoint beginsParen (v : value) : bool :=
  match v with VMathParen _ _ => true | VMath _ _ l _ => beginsParen l | _ => false end.
Fixpoint endsClosed (v : value) : bool :=
  match v with
  | VMathParen _ _ | VFunc _ _ _ | VBrackets _ _ | VString _ _ => true
  | VDim _ _ u => beq u (B "%")
  | VMath _ _ _ r => endsClosed r
  | _ => false
  end.
Definition isCommaV (v : value) : bool := match v with VComma _ => true | _ => false end.
(** No two neighbours without a comma between them. *)
Fixpoint separated (vs : list value) : bool :=
  match vs with
  | v :: ((w :: _) as r) => (isCommaV v || isCommaV w) && separated r
  | _ => true
  end.

(** Where a value stands: in a sum, in a product, as an operand, or outside a
    math function.  Sums are printed without spaces, so most of them are read
    back differently: "+" must not touch a number, "-" not a word. *)
Inductive place := Sum | Product | Operand | Outside.
Definition isPlace (p q : place) : bool :=
  match p, q with
  | Sum, Sum | Product, Product | Operand, Operand | Outside, Outside => true
  | _, _ => false
  end.
Fixpoint okAt (p : place) (v : value) : bool :=
  match v with
  | VDim _ n u => numeral n && (isEmpty u || beq u (B "%") || unitName u)
  | VString _ s => quotable s
  | VIdent _ s => identifier s
  | VHex _ s => word s
  | VBrackets _ vs => forallb (okAt Outside) vs
  | VFunc _ n args =>
    if urlName n then
      match args with
      | [VIdent _ s] => beq n (B "url") && forallb urlByte s
      | [VString _ s] => quotable s
      | _ => false
      end
    else
      identifier n && separated args &&
      forallb (fun a => isCommaV a || okAt (if isMathName n then Sum else Outside) a) args
  | VMathParen _ v => negb (isPlace p Outside) && okAt Sum v
  | VMath _ op l r =>
    if beq op (B "+") then isPlace p Sum && okAt Sum l && okAt Product r && negb (beginsNumber r)
    else if beq op (B "-") then isPlace p Sum && okAt Sum l && okAt Product r && endsClosed l && beginsParen r
    else if beq op (B "*") || beq op (B "/") then
      (isPlace p Sum || isPlace p Product) && okAt Product l && okAt Operand r
    else false
  | VNil | VComma _ | VRaw _ _ => false
  end.
Definition okValue : value -> bool := okAt Outside.

(** * Declarations *)
(** A delimiter standing alone among the values. *)
Definition loneDelims : list bytes := map (fun b => [b]) (B "/*+-><=~|^$&?%.#@").
Definition okDeclValue (v : value) : bool :=
  match v with
  | VComma _ => true
  | VRaw _ s => bmem s loneDelims
  | _ => okValue v
  end.
Definition okProperty (s : bytes) : bool :=
  identifier s || (firstByte s (fun c => bz c =? 42) && identifier (skipn 1 s)).
Definition okDecl (d : decl) : bool :=
  match d with
  | DDecl _ prop vs _ => okProperty prop && negb (match vs with [] => true | _ => false end) && forallb okDeclValue vs
  | DRaw _ _ => false
  end.

(** * Selectors *)
Definition isSpace (p : selpart) : bool := match p with SWhitespace _ => true | _ => false end.
(** A trailing white space part is not printed. *)
Definition trimParts (ps : list selpart) : list selpart :=
  match rev ps with
  | SWhitespace _ :: r => rev r
  | _ => ps
  end.
Definition nthName (n : bytes) : bool :=
  bmem n [B "nth-child"; B "nth-last-child"; B "nth-of-type"; B "nth-last-of-type"].
(** Forms of an+b that are printed as they were read. *)
Definition okAnb (a op b : bytes) : bool :=
  if beq a (B "0") then isEmpty op && digits b && negb (beq b (B "0"))
  else
    let tail := (isEmpty op && isEmpty b)
                || (bmem op [B "+"; B "-"] && digits b && negb (beq b (B "0"))) in
    if isEmpty a || beq a (B "-1") then tail && negb (beq op (B "-"))
    else
      negb (beq a (B "1")) && tail &&
      (digits a || (firstByte a (fun c => bz c =? 45) && digits (skipn 1 a))).
(** [q] may directly follow [p]. *)
Definition isWord (p : selpart) : bool :=
  match p with
  | SType _ n => negb (beq n (B "*"))
  | SClass _ _ | SId _ _ | SPseudo _ _ PANone | SPseudoEl _ _ _ PANone => true
  | _ => false
  end.
Definition touches (p q : selpart) : bool :=
  match p, q with
  | (SWhitespace _ | SAttr _ _ _ _ _), SWhitespace _ => false
  | _, SType _ n => negb (isWord p) || beq n (B "*")
  | _, _ => true
  end.
Fixpoint touching (ps : list selpart) : bool :=
  match ps with
  | p :: ((q :: _) as r) => touches p q && touching r
  | _ => true
  end.
Fixpoint okPart (p : selpart) : bool :=
  let okArgs n (a : pargs selpart) :=
    match a with
    | PANone => true
    | PAIdent _ v => nthName n && bmem v [B "even"; B "odd"]
    | PAAnb _ a op b => nthName n && okAnb a op b
    | PASel _ sels =>
      negb (nthName n) && negb (urlName n) && negb (match sels with [] => true | _ => false end) &&
      forallb (fun s => negb (match trimParts (snd s) with [] => true | _ => false end) &&
                        forallb okPart (snd s) && touching (snd s)) sels
    end in
  match p with
  | SWhitespace _ => true
  | SType _ n => beq n (B "*") || identifier n
  | SClass _ n => identifier n
  | SId _ n => word n
  | SComb _ op => bmem op [B "+"; B ">"; B "~"; B "|"]
  | SPseudo _ n a | SPseudoEl _ _ n a => identifier n && okArgs n a
  | SAttr _ prop preop v modifier =>
    identifier prop && isEmpty preop && isEmpty modifier && (isNil v || okValue v)
  end.
Definition okSelector (s : selector) : bool :=
  match snd s with p :: _ => negb (isSpace p) | [] => false end &&
  forallb okPart (snd s) && touching (snd s).

(** * Rules *)
Definition okRule (r : qrule) : bool :=
  match r_prelude r with
  | PrSel (_, sels) => negb (match sels with [] => true | _ => false end) && forallb okSelector sels
  | _ => false
  end && forallb okDecl (r_decls r).
(** Keyframe selectors are printed without a separator: one only. *)
Definition okFrame (r : qrule) : bool :=
  match r_prelude r with
  | PrKey _ [KPercent _ v] => numeral v
  | PrKey _ [KIdent _ v] => bmem v [B "from"; B "to"]
  | _ => false
  end && forallb okDecl (r_decls r).

(** * Media queries *)
Definition isIdent (v : value) : bool := match v with VIdent _ _ => true | _ => false end.
Definition okQueryPart (p : mqpart) : bool :=
  match p with
  | MIdent _ v => identifier v
  | MPlain _ _ prop v => identifier prop && (isNil v || okValue v)
  | MRange _ _ prop l op r =>
    identifier prop && bmem op [B "<"; B ">"; B "<="; B ">="] &&
    if isNil l then okValue r && negb (isIdent r) else okValue l && (isNil r || okValue r)
  end.
Definition okQuery (q : mquery) : bool :=
  negb (match snd q with [] => true | _ => false end) && forallb okQueryPart (snd q).
Definition okQueries (l : mqlist) : bool :=
  negb (match snd l with [] => true | _ => false end) && forallb okQuery (snd l).

(** * Stylesheets *)
Definition keyframesName (n : bytes) : bool := bmem n [B "keyframes"; B "-webkit-keyframes"; B "-o-keyframes"].
Definition okAtRule (a : atrule) : bool :=
  let n := ar_name a in
  if beq n (B "import") then
    match ar_preludes a, ar_block a with
    | [APString _ s], None => quotable s
    | [APString _ s; APMql q], None => quotable s && okQueries q
    | _, _ => false
    end
  else if beq n (B "media") then
    match ar_preludes a, ar_block a with
    | [APMql q], Some (BRules _ rs) => okQueries q && forallb okRule rs
    | _, _ => false
    end
  else if keyframesName n then
    match ar_preludes a, ar_block a with
    | [APString _ s], Some (BRules _ rs) => quotable s && forallb okFrame rs
    | [APIdent _ s], Some (BRules _ rs) => identifier s && forallb okFrame rs
    | _, _ => false
    end
  else if beq n (B "custom-media") then
    match ar_preludes a, ar_block a with
    | [APIdent _ s; APMq q], None => identifier s && okQuery q
    | _, _ => false
    end
  else
    match ar_preludes a, ar_block a with
    | [], Some (BDecls _ ds) => identifier n && forallb okDecl ds
    | _, _ => false
    end.
Definition writable (n : node) : bool :=
  match n with NRule r => okRule r | NAt a => okAtRule a end.

(** * What is read back *)
(** Everything but trailing white space in selectors. *)
Fixpoint tidyPart (p : selpart) : selpart :=
  let tidyArgs (a : pargs selpart) :=
    match a with
    | PASel sp sels => PASel sp (map (fun s => (fst s, trimParts (map tidyPart (snd s)))) sels)
    | a => a
    end in
  match p with
  | SPseudo sp n a => SPseudo sp n (tidyArgs a)
  | SPseudoEl sp isp n a => SPseudoEl sp isp n (tidyArgs a)
  | p => p
  end.
Definition tidySelector (s : selector) : selector := (fst s, trimParts (map tidyPart (snd s))).
Definition tidyRule (r : qrule) : qrule :=
  mkRule (r_run r) (r_sp r)
    (match r_prelude r with PrSel (sp, sels) => PrSel (sp, map tidySelector sels) | p => p end)
    (r_bsp r) (r_decls r).
Definition tidyNode (n : node) : node :=
  match n with
  | NRule r => NRule (tidyRule r)
  | NAt a => NAt (mkAt (ar_run a) (ar_sp a) (ar_name a) (ar_preludes a)
                    (option_map (fun b => match b with BRules sp rs => BRules sp (map tidyRule rs) | b => b end) (ar_block a)))
  end.
Definition tidy (ns : list node) : list node := map tidyNode ns.
