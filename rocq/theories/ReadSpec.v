(** The grammar of the files the parser accepts, as relations between a list
    of tokens and a tree: which tokens a construct consists of, in which order,
    and what name, operator, flag and span the tree gets from them.  Nothing
    here mentions the parser. *)
From Verif Require Import Bytes Utf8 Source Lexer LexSpec Ast.

(** * Tokens *)
(** A token: its kind, the string and the numeral it carries, its span, and
    whether white space before it was kept (then it is a token of its own)
    rather than skipped. *)
Record tk := mkTk { k_tok : token; k_str : bytes; k_num : bytes; k_sp : span; k_kept : bool }.

Section WithUnicode.
Context {U : UnicodeDigits}.

(** The token a lexer is at. *)
Definition tkOf (kept : bool) (l : lexer) : tk := mkTk (l_cur l) (l_str l) (l_num l) (tokenSpan l) kept.
(** [path k l ts k1 l1]: from [l], whose token was read with white space kept
    or not ([k]), calls of Next deliver the tokens [ts] up to [l1]; between the
    calls the white space flag and the line table may be set. *)
Inductive path : bool -> lexer -> list tk -> bool -> lexer -> Prop :=
| pathNil k l : path k l [] k l
| pathFlag k l b ts k1 l1 : path k (setRws l b) ts k1 l1 -> path k l ts k1 l1
| pathLines k l ls ts k1 l1 : path k (setLines l ls) ts k1 l1 -> path k l ts k1 l1
| pathTok k l l1 ts k1 l2 : next l = Ok l1 -> path (l_rws l) l1 ts k1 l2 -> path k l (tkOf k l :: ts) k1 l2.
(** The tokens of a file, up to its end. *)
Definition tokensOf (content : bytes) (ts : list tk) : Prop :=
  exists l l1, newLexer content [] = Ok l /\ path false l ts false l1 /\ l_cur l1 = EOF.
End WithUnicode.

(** * The text of the tokens *)
(** [laidOut content a ts b]: from offset [a] to [b] the file consists of the
    texts of the tokens [ts], in this order, with nothing but skipped white
    space and comments before each of them; only comments where white space is
    kept. *)
Inductive laidOut (content : bytes) : nat -> list tk -> nat -> Prop :=
| loNil a : laidOut content a [] a
| loCons a x ts b : (a <= sp_start (k_sp x) <= sp_end (k_sp x))%nat -> (sp_end (k_sp x) <= length content)%nat ->
    skipped (k_kept x) false (sub content a (sp_start (k_sp x))) ->
    tokenText (k_tok x) (k_str x) (k_num x) (sub content (sp_start (k_sp x)) (sp_end (k_sp x))) ->
    laidOut content (sp_end (k_sp x)) ts b -> laidOut content a (x :: ts) b.

Definition isK (kept : bool) (t : token) (x : tk) : Prop := k_tok x = t /\ k_kept x = kept.
(** Outside selectors white space is always skipped. *)
Definition is (t : token) (x : tk) : Prop := isK false t x.
Definition from (x : tk) : nat := sp_start (k_sp x).
Definition upto (x : tk) : nat := sp_end (k_sp x).
Definition across (x y : tk) : span := mkSpan (from x) (upto y).
(** From the start of the first to the end of the last. *)
Definition spanning (sps : list span) : span :=
  mkSpan (sp_start (hd (mkSpan 0 0) sps)) (sp_end (last sps (mkSpan 0 0))).
Definition firstFrom (ts : list tk) : nat := match ts with x :: _ => from x | [] => 0%nat end.

(** * Liberties *)
(** Where the grammar is not a matter of looking at the next token, the parser
    takes liberties: functions left open, declarations kept as text, missing
    separators.  A reading is plain if it does without them. *)
Class Liberties := liberties : bool.
Section WithLiberties.
Context {L : Liberties}.

(** * Values *)
Definition mathFunction (name : bytes) : Prop := In name [B "calc"; B "min"; B "max"; B "clamp"].
Inductive gValue : list tk -> value -> Prop :=
| gDim x : is Dimension x -> gValue [x] (VDim (k_sp x) (k_num x) (k_str x))
| gPercent x : is Percentage x -> gValue [x] (VDim (k_sp x) (k_num x) (B "%"))
| gNumber x : is Number x -> gValue [x] (VDim (k_sp x) (k_num x) [])
| gIdent x : is Ident x -> gValue [x] (VIdent (k_sp x) (k_str x))
| gHex x : is Hash x -> gValue [x] (VHex (k_sp x) (k_str x))
| gString x : is TString x -> gValue [x] (VString (k_sp x) (k_str x))
| gUrl x : is URL x -> gValue [x] (VFunc (k_sp x) (B "url") [VIdent (mkSpan 0 0) (k_str x)])
| gBrackets x ts vs y : is LBracket x -> gValues ts vs -> is RBracket y ->
    gValue (x :: ts ++ [y]) (VBrackets (across x y) vs)
| gMath x ts vs y : is FunctionStart x -> mathFunction (k_str x) -> gMathArgs ts vs -> is RParen y ->
    gValue (x :: ts ++ [y]) (VFunc (across x y) (k_str x) vs)
| gFunc x ts vs y : is FunctionStart x -> ~ mathFunction (k_str x) -> gArgs ts vs -> is RParen y ->
    gValue (x :: ts ++ [y]) (VFunc (across x y) (k_str x) vs)
  (** A function whose arguments end at a token that is neither a value nor a
      parenthesis: the parser takes it as closed (parser.go:444-448). *)
| gFuncOpen x ts vs : liberties = true -> is FunctionStart x -> ~ mathFunction (k_str x) -> gArgs ts vs ->
    gValue (x :: ts) (VFunc (k_sp x) (k_str x) vs)
with gValues : list tk -> list value -> Prop :=
| gvNil : gValues [] []
| gvCons ts v ts2 vs : gValue ts v -> gValues ts2 vs -> gValues (ts ++ ts2) (v :: vs)
with gArgs : list tk -> list value -> Prop :=
| gaNil : gArgs [] []
| gaComma x ts vs : is Comma x -> gArgs ts vs -> gArgs (x :: ts) (VComma (k_sp x) :: vs)
| gaCons ts v ts2 vs : gValue ts v -> gArgs ts2 vs -> gArgs (ts ++ ts2) (v :: vs)
with gMathArgs : list tk -> list value -> Prop :=
| gmNil : gMathArgs [] []
| gmComma x ts vs : is Comma x -> gMathArgs ts vs -> gMathArgs (x :: ts) (VComma (k_sp x) :: vs)
| gmCons ts v ts2 vs : gSum ts v -> gMathArgs ts2 vs -> gMathArgs (ts ++ ts2) (v :: vs)
  (** Sums and products associate to the left; products bind tighter. *)
with gSum : list tk -> value -> Prop :=
| gsProduct ts v : gProduct ts v -> gSum ts v
| gsOp ts a x ts2 b spa spb : gSum ts a -> is Delim x -> In (k_str x) [B "+"; B "-"] -> gProduct ts2 b ->
    valueSpan a = Some spa -> valueSpan b = Some spb ->
    gSum (ts ++ x :: ts2) (VMath (mkSpan (sp_start spa) (sp_end spb)) (k_str x) a b)
with gProduct : list tk -> value -> Prop :=
| gpOperand ts v : gOperand ts v -> gProduct ts v
| gpOp ts a x ts2 b spa spb : gProduct ts a -> is Delim x -> In (k_str x) [B "*"; B "/"] -> gOperand ts2 b ->
    valueSpan a = Some spa -> valueSpan b = Some spb ->
    gProduct (ts ++ x :: ts2) (VMath (mkSpan (sp_start spa) (sp_end spb)) (k_str x) a b)
with gOperand : list tk -> value -> Prop :=
| goValue ts v : gValue ts v -> gOperand ts v
| goParen x ts v y : is LParen x -> gSum ts v -> is RParen y -> gOperand (x :: ts ++ [y]) (VMathParen (across x y) v)
  (** "()" is accepted, with nothing inside. *)
| goEmpty x y : is LParen x -> is RParen y -> gOperand [x; y] (VMathParen (across x y) VNil).
(** A value that may be missing. *)
Definition gOpt (ts : list tk) (v : value) : Prop := ts = [] /\ v = VNil \/ gValue ts v.

(** * Declarations *)
Definition lowerByte (b : byte) : Z := let z := bz b in if (65 <=? z) && (z <=? 90) then z + 32 else z.
Definition saysImportant (s : bytes) : Prop := map lowerByte s = map bz (B "important").
(** What follows the colon: the values, and where the last "!important" ends.
    The token after the exclamation mark is only looked at for its string; if
    it carries none the last string read before counts, even a comment's. *)
Inductive gItems : list tk -> list value -> option nat -> Prop :=
| giNil : gItems [] [] None
| giValue ts v ts2 vs i : gValue ts v -> gItems ts2 vs i -> gItems (ts ++ ts2) (v :: vs) i
| giComma x ts vs i : is Comma x -> gItems ts vs i -> gItems (x :: ts) (VComma (k_sp x) :: vs) i
| giDelim x ts vs i : is Delim x -> k_str x <> B "!" -> gItems ts vs i ->
    gItems (x :: ts) (VRaw (k_sp x) (k_str x) :: vs) i
| giImportant x y ts vs i : is Delim x -> k_str x = B "!" -> k_kept y = false -> saysImportant (k_str y) ->
    gItems ts vs i -> gItems (x :: y :: ts) vs (Some (match i with Some e => e | None => upto y end)).
(** End of the last value with a span. *)
Definition valuesEnd (vs : list value) : nat :=
  match valueSpan (last vs VNil) with Some sp => sp_end sp | None => 0%nat end.
Definition isSome {A} (o : option A) : bool := match o with Some _ => true | None => false end.

Section Content.
Variable content : bytes.
Inductive gDecl : list tk -> decl -> Prop :=
| gdDecl star p c ts vs i :
    star = [] \/ (exists s, star = [s] /\ is Delim s /\ k_str s = B "*") ->
    is Ident p -> is Colon c -> gItems ts vs i -> vs <> [] ->
    gDecl (star ++ p :: c :: ts)
      (DDecl (mkSpan (from p) (Nat.max (valuesEnd vs) (match i with Some e => e | None => upto p end)))
             (concat (map k_str star) ++ k_str p) vs (isSome i))
  (** Kept as text: everything up to and including the first semicolon. *)
| gdRaw ts s : liberties = true -> Forall (fun x => k_kept x = false /\ k_tok x <> Semicolon) ts -> is Semicolon s ->
    gDecl (ts ++ [s])
      (DRaw (mkSpan (firstFrom (ts ++ [s])) (upto s)) (sub content (firstFrom (ts ++ [s])) (upto s))).
(** A semicolon after a declaration may be missing; plainly, only after the
    last. *)
Inductive gDecls : list tk -> list decl -> Prop :=
| gdNil : gDecls [] []
| gdCons ts d ts2 ds : liberties = true \/ ts2 = [] -> gDecl ts d -> gDecls ts2 ds -> gDecls (ts ++ ts2) (d :: ds)
| gdSemi ts d x ts2 ds : gDecl ts d -> is Semicolon x -> gDecls ts2 ds -> gDecls (ts ++ x :: ts2) (d :: ds).
(** A block; the opening token [o] is given. *)
Definition gBody (o : tk) (ts : list tk) (sp : span) (ds : list decl) : Prop :=
  exists ts1 y, ts = ts1 ++ [y] /\ gDecls ts1 ds /\ is RCurly y /\ sp = across o y.

(** * Selectors *)
Definition nthFunction (name : bytes) : Prop :=
  In name [B "nth-child"; B "nth-last-child"; B "nth-of-type"; B "nth-last-of-type"].
Definition sign (s : bytes) : Prop := s = B "+" \/ s = B "-".
Definition unsigned (num : bytes) : Prop := forall s r, sign s -> num <> s ++ r.
(** The first token of An+B: A, the sign and B. *)
Inductive gAnb1 (x : tk) : bytes -> bytes -> bytes -> Prop :=
| anbDim : k_tok x = Dimension -> k_str x = B "n" -> gAnb1 x (k_num x) [] []
| anbDimB s b : k_tok x = Dimension -> k_str x = B "n" ++ s ++ b -> sign s -> b <> [] -> gAnb1 x (k_num x) s b
| anbN : k_tok x = Ident -> k_str x = B "n" -> gAnb1 x [] [] []
| anbMinusN : k_tok x = Ident -> k_str x = B "-n" -> gAnb1 x (B "-1") [] []
| anbB s b : k_tok x = Number -> k_num x = s ++ b -> sign s -> gAnb1 x (B "0") s b
| anbB0 : k_tok x = Number -> unsigned (k_num x) -> gAnb1 x (B "0") [] (k_num x).
(** What may follow it: the sign and B again. *)
Inductive gAnb2 : list tk -> bytes -> bytes -> nat -> Prop :=
| anbSigned y s b : is Number y -> k_num y = s ++ b -> sign s -> gAnb2 [y] s b (upto y)
| anbApart y z : is Delim y -> sign (k_str y) -> is Number z -> gAnb2 [y; z] (k_str y) (k_num z) (upto z).
(** The arguments of an nth function; the flag is that of the next token. *)
Inductive gNth : list tk -> pargs selpart -> bool -> Prop :=
| gnNone : gNth [] PANone true
| gnWord x : isK true Ident x -> k_str x = B "even" \/ k_str x = B "odd" ->
    gNth [x] (PAIdent (k_sp x) (k_str x)) true
| gnAnb1 x a s b : k_kept x = true -> gAnb1 x a s b -> gNth [x] (PAAnb (k_sp x) a s b) false
| gnAnb2 x a s b ts s2 b2 e : k_kept x = true -> gAnb1 x a s b -> gAnb2 ts s2 b2 e ->
    gNth (x :: ts) (PAAnb (mkSpan (from x) e) a s2 b2) false.
(** The operator of an attribute selector.  The token before "=" is only
    looked at for its string; any delimiter passes for a lone "=". *)
Inductive gAttrOp : list tk -> bytes -> Prop :=
| gaPlain x : is Delim x -> ~ In (k_str x) [B "^"; B "~"; B "$"; B "*"; B "|"] -> gAttrOp [x] []
| gaPre x y : k_kept x = false -> k_tok x <> RBracket -> In (k_str x) [B "^"; B "~"; B "$"; B "*"; B "|"] ->
    is Delim y -> k_str y = B "=" -> gAttrOp [x; y] (k_str x).

(** [gPart k ts p k1]: the first token of the part has flag [k], the token
    after the part has flag [k1]: inside a selector white space is kept, except
    in and after an attribute selector. *)
Inductive gPart : bool -> list tk -> selpart -> bool -> Prop :=
| gpSpace k x : isK k Whitespace x -> gPart k [x] (SWhitespace (k_sp x)) true
| gpType k x : isK k Ident x -> gPart k [x] (SType (k_sp x) (k_str x)) true
| gpAny k x : isK k Delim x -> k_str x = B "*" -> gPart k [x] (SType (k_sp x) (k_str x)) true
| gpId k x : isK k Hash x -> gPart k [x] (SId (k_sp x) (k_str x)) true
| gpClass k x y : isK k Delim x -> k_str x = B "." -> isK true Ident y ->
    gPart k [x; y] (SClass (across x y) (k_str y)) true
| gpComb k x : isK k Delim x -> In (k_str x) [B "+"; B ">"; B "~"; B "|"] -> gPart k [x] (SComb (k_sp x) (k_str x)) true
| gpPseudo k x ts name args e : isK k Colon x -> gPseudo ts name args e ->
    gPart k (x :: ts) (SPseudo (mkSpan (from x) e) name args) true
| gpPseudoEl k x y ts name args e : isK k Colon x -> isK true Colon y -> gPseudo ts name args e ->
    gPart k (x :: y :: ts) (SPseudoEl (mkSpan (from x) e) (mkSpan (from y) e) name args) true
| gpAttr k x y z : isK k LBracket x -> is Ident y -> is RBracket z ->
    gPart k [x; y; z] (SAttr (across x z) (k_str y) [] VNil []) false
| gpAttrOp k x y op pre ts v z : isK k LBracket x -> is Ident y -> gAttrOp op pre -> gValue ts v -> is RBracket z ->
    gPart k (x :: y :: op ++ ts ++ [z]) (SAttr (across x z) (k_str y) pre v []) false
| gpAttrMod k x y op pre ts v m z : isK k LBracket x -> is Ident y -> gAttrOp op pre -> gValue ts v ->
    is Ident m -> k_str m = B "s" \/ k_str m = B "i" -> is RBracket z ->
    gPart k (x :: y :: op ++ ts ++ [m; z]) (SAttr (across x m) (k_str y) pre v (k_str m)) false
(** After the colons: name, arguments and end. *)
with gPseudo : list tk -> bytes -> pargs selpart -> nat -> Prop :=
| gpsName x : isK true Ident x -> gPseudo [x] (k_str x) PANone (upto x)
| gpsNth x ts args k y : isK true FunctionStart x -> nthFunction (k_str x) -> gNth ts args k -> isK k RParen y ->
    gPseudo (x :: ts ++ [y]) (k_str x) args (upto y)
| gpsSel x ts sels k y : isK true FunctionStart x -> ~ nthFunction (k_str x) -> gSelectors true ts sels k ->
    isK k RParen y ->
    gPseudo (x :: ts ++ [y]) (k_str x) (PASel (spanning (map fst sels)) sels) (upto y)
with gParts : bool -> list tk -> list selpart -> bool -> Prop :=
| gpsNil k : gParts k [] [] k
| gpsCons k ts p k1 ts2 ps k2 : gPart k ts p k1 -> gParts k1 ts2 ps k2 -> gParts k (ts ++ ts2) (p :: ps) k2
(** [gSelectors k]: [k] is the flag of the first token of each selector, true
    inside a pseudo-class. *)
with gSelectors : bool -> list tk -> list selector -> bool -> Prop :=
| gsOne k ts ps k1 : gParts k ts ps k1 -> ps <> [] -> gSelectors k ts [(spanning (map partSpan ps), ps)] k1
| gsMore k ts ps k1 c ts2 sels k2 : gParts k ts ps k1 -> ps <> [] -> isK k1 Comma c -> gSelectors k ts2 sels k2 ->
    gSelectors k (ts ++ c :: ts2) ((spanning (map partSpan ps), ps) :: sels) k2.

(** * Rules *)
Inductive gKey (x : tk) : keysel -> Prop :=
| gkPercent : is Percentage x -> gKey x (KPercent (k_sp x) (k_num x))
| gkIdent : is Ident x -> k_str x = B "from" \/ k_str x = B "to" -> gKey x (KIdent (k_sp x) (k_str x)).
Inductive gKeys : list tk -> list keysel -> Prop :=
| gksOne x key : gKey x key -> gKeys [x] [key]
| gksMore x key c ts ks : gKey x key -> is Comma c -> gKeys ts ks -> gKeys (x :: c :: ts) (key :: ks).
(** Several lists without a comma between them: only the last is kept. *)
Inductive gKeyLists : list tk -> list keysel -> Prop :=
| gklLast ts ks : gKeys ts ks -> gKeyLists ts ks
| gklSkip ts ks ts2 ks2 : liberties = true -> gKeys ts ks -> gKeyLists ts2 ks2 -> gKeyLists (ts ++ ts2) ks2.

Variable run : nat.
(** [gRule keyframes ts r]. *)
Inductive gRule : bool -> list tk -> qrule -> Prop :=
| grBare kf o ts sp ds : is LCurly o -> gBody o ts sp ds -> gRule kf (o :: ts) (mkRule run sp PrNil sp ds)
| grSel ts sels k o ts2 sp ds : gSelectors false ts sels k -> isK k LCurly o -> gBody o ts2 sp ds ->
    gRule false (ts ++ o :: ts2)
      (mkRule run (mkSpan (firstFrom ts) (sp_end sp)) (PrSel (spanning (map fst sels), sels)) sp ds)
| grKey ts ks o ts2 sp ds : gKeyLists ts ks -> is LCurly o -> gBody o ts2 sp ds ->
    gRule true (ts ++ o :: ts2)
      (mkRule run (mkSpan (firstFrom ts) (sp_end sp)) (PrKey (spanning (map keySpan ks)) ks) sp ds).
Inductive gRules : bool -> list tk -> list qrule -> Prop :=
| grNil kf : gRules kf [] []
| grCons kf ts r ts2 rs : gRule kf ts r -> gRules kf ts2 rs -> gRules kf (ts ++ ts2) (r :: rs).
(** Rules in braces; the opening brace [o] is given. *)
Definition gRuleBody (kf : bool) (o : tk) (ts : list tk) (sp : span) (rs : list qrule) : Prop :=
  exists ts1 y, ts = ts1 ++ [y] /\ gRules kf ts1 rs /\ is RCurly y /\ sp = across o y.

(** * Media queries *)
Inductive gRangeOp : list tk -> bytes -> Prop :=
| groLt x : is Delim x -> k_str x = B "<" \/ k_str x = B ">" -> gRangeOp [x] (k_str x)
| groLe x y : is Delim x -> k_str x = B "<" \/ k_str x = B ">" -> is Delim y -> k_str y = B "=" ->
    gRangeOp [x; y] (k_str x ++ k_str y).
Inductive gQueryPart : list tk -> mqpart -> Prop :=
| gqIdent x : is Ident x -> gQueryPart [x] (MIdent (k_sp x) (k_str x))
| gqName x p y : is LParen x -> is Ident p -> is RParen y ->
    gQueryPart [x; p; y] (MPlain (across x y) (k_sp p) (k_str p) VNil)
| gqPlain x p c ts v y : is LParen x -> is Ident p -> is Colon c -> gOpt ts v -> is RParen y ->
    gQueryPart (x :: p :: c :: ts ++ [y]) (MPlain (across x y) (k_sp p) (k_str p) v)
  (** (value op name), perhaps with "op value" once more *)
| gqRange1 x ts v o op p y : is LParen x -> gOpt ts v -> gRangeOp o op -> is Ident p -> is RParen y ->
    gQueryPart (x :: ts ++ o ++ [p; y]) (MRange (across x y) (k_sp p) (k_str p) v op VNil)
| gqRange2 x ts v o op p o2 ts2 v2 y : is LParen x -> gOpt ts v -> gRangeOp o op -> is Ident p ->
    gRangeOp o2 op -> gOpt ts2 v2 -> is RParen y ->
    gQueryPart (x :: ts ++ o ++ p :: o2 ++ ts2 ++ [y]) (MRange (across x y) (k_sp p) (k_str p) v op v2)
  (** (name op value) *)
| gqRange3 x p o op ts v y : is LParen x -> is Ident p -> gRangeOp o op -> gOpt ts v ->
    (forall sp s, v <> VIdent sp s) -> is RParen y ->
    gQueryPart (x :: p :: o ++ ts ++ [y]) (MRange (across x y) (k_sp p) (k_str p) VNil op v).
Inductive gQuery : list tk -> list mqpart -> Prop :=
| gqNil : gQuery [] []
| gqCons ts p ts2 ps : gQueryPart ts p -> gQuery ts2 ps -> gQuery (ts ++ ts2) (p :: ps).
(** Between commas there may be nothing; it is left out. *)
Definition asQuery (ps : list mqpart) : list mquery :=
  match ps with [] => [] | _ => [(spanning (map mqpartSpan ps), ps)] end.
Inductive gQueries : list tk -> list mquery -> Prop :=
| gqsOne ts ps : gQuery ts ps -> gQueries ts (asQuery ps)
| gqsMore ts ps c ts2 qs : gQuery ts ps -> is Comma c -> gQueries ts2 qs -> gQueries (ts ++ c :: ts2) (asQuery ps ++ qs).
Definition queriesSpan (ts : list tk) (qs : list mquery) : span :=
  mkSpan (firstFrom ts) (sp_end (last (map fst qs) (mkSpan 0 0))).

(** * At-rules and the whole file *)
(** The target of an import: its span and text. *)
Inductive gTarget : list tk -> span -> bytes -> Prop :=
| gtUrl x : is URL x -> gTarget [x] (k_sp x) (k_str x)
| gtString x : is TString x -> gTarget [x] (k_sp x) (k_str x)
| gtUrlString x y z : is FunctionStart x -> k_str x = B "url" -> is TString y -> is RParen z ->
    gTarget [x; y; z] (across x z) (k_str y).
Definition keyframesRule (name : bytes) : Prop := In name [B "keyframes"; B "-webkit-keyframes"; B "-o-keyframes"].
Inductive gAt : list tk -> atrule -> Prop :=
| gaImport x ts sp s : is At x -> k_str x = B "import" -> gTarget ts sp s ->
    forall ts2, gQueries ts2 [] ->
    gAt (x :: ts ++ ts2) (mkAt run (mkSpan (from x) (sp_end sp)) (k_str x) [APString sp s] None)
| gaImportMedia x ts sp s ts2 qs : is At x -> k_str x = B "import" -> gTarget ts sp s -> gQueries ts2 qs -> qs <> [] ->
    gAt (x :: ts ++ ts2) (mkAt run (mkSpan (from x) (sp_end (queriesSpan ts2 qs))) (k_str x)
                            [APString sp s; APMql (queriesSpan ts2 qs, qs)] None)
| gaMedia x ts qs o ts2 sp rs : is At x -> k_str x = B "media" -> gQueries ts qs -> is LCurly o ->
    gRuleBody false o ts2 sp rs ->
    gAt (x :: ts ++ o :: ts2) (mkAt run (mkSpan (from x) (sp_end sp)) (k_str x)
      [match qs with [] => APNilMql | _ => APMql (queriesSpan ts qs, qs) end] (Some (BRules sp rs)))
| gaKeyframes x y pre o ts sp rs : is At x -> keyframesRule (k_str x) ->
    (is TString y /\ pre = APString (k_sp y) (k_str y) \/ is Ident y /\ pre = APIdent (k_sp y) (k_str y)) ->
    is LCurly o -> gRuleBody true o ts sp rs ->
    gAt (x :: y :: o :: ts) (mkAt run (mkSpan (from x) (sp_end sp)) (k_str x) [pre] (Some (BRules sp rs)))
| gaCustomMedia x y ts q : is At x -> k_str x = B "custom-media" -> is Ident y -> gQueries ts [q] ->
    gAt (x :: y :: ts) (mkAt run (mkSpan (from x) (sp_end (fst q))) (k_str x) [APIdent (k_sp y) (k_str y); APMq q] None)
  (** Any other at-rule: one token, whatever it is, then declarations. *)
| gaOther x o ts sp ds : is At x -> ~ In (k_str x) [B "import"; B "media"; B "custom-media"] -> ~ keyframesRule (k_str x) ->
    k_kept o = false -> gBody o ts sp ds ->
    gAt (x :: o :: ts) (mkAt run (mkSpan (from x) (sp_end sp)) (k_str x) [] (Some (BDecls sp ds))).
Inductive gNodes : list tk -> list node -> Prop :=
| gnNil : gNodes [] []
| gnSkip x ts nds : is Semicolon x \/ is CDO x \/ is CDC x -> gNodes ts nds -> gNodes (x :: ts) nds
| gnRule ts r ts2 nds : gRule false ts r -> gNodes ts2 nds -> gNodes (ts ++ ts2) (NRule r :: nds)
  (** An at-rule without a block plainly ends at a semicolon. *)
| gnAt ts a ts2 nds : gAt ts a -> gNodes ts2 nds ->
    liberties = true \/ ar_block a <> None \/ (exists x ts3, ts2 = x :: ts3 /\ is Semicolon x) ->
    gNodes (ts ++ ts2) (NAt a :: nds).
End Content.
End WithLiberties.

(** [nds] is a reading of the file [content]. *)
Definition reads {U : UnicodeDigits} (run : nat) (content : bytes) (nds : list node) : Prop :=
  exists ts, tokensOf content ts /\ gNodes (L := true) content run ts nds.
(** ... and a plain one. *)
Definition readsPlainly {U : UnicodeDigits} (run : nat) (content : bytes) (nds : list node) : Prop :=
  exists ts, tokensOf content ts /\ gNodes (L := false) content run ts nds.
