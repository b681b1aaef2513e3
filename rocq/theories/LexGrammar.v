(** The lexical grammar that internal/lexer implements, written down without
    the lexer: how a file is cut into characters, what may open each kind of
    token, how far the token extends and what it delivers.  The only things
    shared with the model are the token names, Go's UTF-8 decoding and Go's
    [unicode.IsDigit]. *)
From Verif Require Import Bytes Utf8 Lexer LexSpec.

(** A character: the code point read and the bytes it takes. *)
Definition char : Type := (Z * bytes)%type.
Definition flat (cs : list char) : bytes := concat (map snd cs).

(** How a file is cut into characters.  A carriage return is swallowed by the
    character that follows it (CR LF is one character, a line feed); a final
    one counts as an invalid character. *)
Inductive cuts : bytes -> list char -> Prop :=
| cutEnd : cuts [] []
| cutPlain s c n cs : s <> [] -> decodeRune s = (c, n) -> c <> 13 -> cuts (skipn n s) cs ->
    cuts s ((c, firstn n s) :: cs)
| cutFold s c n cs : decodeRune s = (c, n) -> cuts (skipn n s) cs ->
    cuts (CR :: s) ((c, CR :: firstn n s) :: cs).

(** * Characters *)
(** The character read is [b]. *)
Definition is (b : byte) (c : char) : Prop := fst c = bz b.
(** A character that is looked at without being read: there a carriage return
    is not swallowed, so CR LF is not seen as a line feed. *)
Definition raw (c : char) : Prop := forall u, snd c <> CR :: u.
Definition sees (b : byte) (c : char) : Prop := is b c /\ raw c.

Definition within (a b : byte) (c : char) : Prop := bz a <= fst c <= bz b.
Definition blank (c : char) : Prop := is SP c \/ is TAB c \/ is LF c.
Definition quote (c : char) : Prop := is """" c \/ is "'" c.
Definition sign (c : char) : Prop := is "+" c \/ is "-" c.
Definition nameStart (c : char) : Prop :=
  within "A" "Z" c \/ within "a" "z" c \/ is "_" c \/ 128 <= fst c.
Definition nameChar (c : char) : Prop := nameStart c \/ within "0" "9" c \/ is "-" c.
Definition nonPrintable (c : char) : Prop :=
  within Byte.x00 Byte.x08 c \/ is Byte.x0b c \/ within Byte.x0e Byte.x1f c \/ is Byte.x7f c.

Definition starts (P : char -> Prop) (r : list char) : Prop := exists c t, r = c :: t /\ P c.
Definition urlName (s : bytes) : Prop :=
  exists a b c, s = [a; b; c] /\ (a = "u" \/ a = "U")%byte /\ (b = "r" \/ b = "R")%byte /\ (c = "l" \/ c = "L")%byte.

Section WithUnicode.
Context {U : UnicodeDigits}.

Definition digit (c : char) : Prop := isDigit (fst c) = true.
Definition hex (c : char) : Prop := digit c \/ within "A" "F" c \/ within "a" "f" c.

(** * Names *)
(** What follows the backslash of an escape: at most [k] hexadecimal digits,
    each with one optional white space character. *)
Inductive hexRun : nat -> list char -> list char -> Prop :=
| hrFull r : hexRun 0 [] r
| hrStop k r : ~ starts hex r -> hexRun k [] r
| hrHex k h t r : hex h -> ~ starts blank (t ++ r) -> hexRun k t r -> hexRun (S k) (h :: t) r
| hrBlank k h b t r : hex h -> blank b -> hexRun k t r -> hexRun (S k) (h :: b :: t) r.

(** [escape e r]: an escape [e] followed by [r]. *)
Definition escape (e r : list char) : Prop :=
  exists c h, e = c :: h /\ is "\" c /\ ~ starts (sees LF) (h ++ r) /\ hexRun 5 h r.
(** An escape starts here: seen from its first character, and seen from one
    character before. *)
Definition opensEscape (r : list char) : Prop :=
  exists c t, r = c :: t /\ is "\" c /\ ~ starts (sees LF) t.
Definition seesEscape (r : list char) : Prop := opensEscape r /\ starts raw r.

(** [word n r]: the longest name at the front of [n ++ r] is [n]. *)
Inductive word : list char -> list char -> Prop :=
| wdStop r : ~ starts nameChar r -> ~ opensEscape r -> word [] r
| wdChar c n r : nameChar c -> word n r -> word (c :: n) r
| wdEscape e n r : escape e (n ++ r) -> word n r -> word (e ++ n) r.

(** The next characters would start a name. *)
Definition opensName (r : list char) : Prop :=
  exists c t, r = c :: t /\
    ((is "-" c /\ (starts (fun d => nameChar d /\ raw d) t \/ seesEscape t)) \/ (nameChar c /\ ~ is "-" c)).
Definition seesName (r : list char) : Prop := opensName r /\ starts raw r.

(** * Numbers *)
Definition rawDigit (c : char) : Prop := digit c /\ raw c.
(** A digit, or a dot and a digit. *)
Definition seesUnsigned (r : list char) : Prop :=
  starts rawDigit r \/ exists p d t, r = p :: d :: t /\ sees "." p /\ rawDigit d.
Definition seesNumber (r : list char) : Prop :=
  seesUnsigned r \/ exists s t, r = s :: t /\ (sees "+" s \/ sees "-" s) /\ seesUnsigned t.

(** [digits ds r]: all the digits at the front. *)
Definition digits (ds r : list char) : Prop := Forall digit ds /\ ~ starts digit r.
Definition opensFraction (r : list char) : Prop :=
  exists p d t, r = p :: d :: t /\ is "." p /\ rawDigit d.
Definition opensExponent (r : list char) : Prop :=
  exists m t, r = m :: t /\ (is "e" m \/ is "E" m) /\
    (starts rawDigit t \/ exists s d t', t = s :: d :: t' /\ (sees "+" s \/ sees "-" s) /\ rawDigit d).

(** [numeral n r]: an optional sign, digits, an optional fraction, an optional
    exponent, each as long as possible. *)
Definition optSign (s r : list char) : Prop :=
  (exists c, s = [c] /\ sign c) \/ (s = [] /\ ~ starts sign r).
Definition optFraction (f r : list char) : Prop :=
  (exists p d ds, f = p :: d :: ds /\ is "." p /\ rawDigit d /\ digits ds r) \/ (f = [] /\ ~ opensFraction r).
Definition optExponent (e r : list char) : Prop :=
  (exists m s ds, e = m :: s ++ ds /\ opensExponent (e ++ r) /\ optSign s (ds ++ r) /\ digits ds r) \/
  (e = [] /\ ~ opensExponent r).
Definition numeral (n r : list char) : Prop :=
  exists s i f e, n = s ++ i ++ f ++ e /\
    optSign s (i ++ f ++ e ++ r) /\ digits i (f ++ e ++ r) /\ optFraction f (e ++ r) /\ optExponent e r.

(** * Strings, urls and comments *)
(** [inString q b r]: [b] is read inside a string closed by [q], [r] comes next. *)
Inductive inString (q : byte) : list char -> list char -> Prop :=
| isNil r : inString q [] r
| isChar c b r : ~ is q c -> ~ is LF c -> ~ is "\" c -> inString q b r -> inString q (c :: b) r
| isBreak c d b r : is "\" c -> is LF d -> inString q b r -> inString q (c :: d :: b) r
| isEscape c e b r : is "\" c -> escape e (b ++ r) -> inString q b r -> inString q (c :: e ++ b) r
| isSkip c b r : is "\" c -> b ++ r <> [] -> ~ starts (is LF) (b ++ r) -> ~ opensEscape (b ++ r) ->
    inString q b r -> inString q (c :: b) r.

(** [inUrl b r]: the same inside the parentheses of an unquoted url. *)
Inductive inUrl : list char -> list char -> Prop :=
| iuNil r : inUrl [] r
| iuChar c b r : ~ is ")" c -> ~ quote c -> ~ is "(" c -> ~ is "\" c -> ~ nonPrintable c ->
    inUrl b r -> inUrl (c :: b) r
| iuEscape e b r : escape e (b ++ r) -> inUrl b r -> inUrl (e ++ b) r.

(** The star and slash that close a comment occur in [t]. *)
Definition closes (t : list char) : Prop :=
  exists a x y b, t = a ++ x :: y :: b /\ is "*" x /\ is "/" y.

(** * What opens what *)
Inductive family :=
| FEnd | FSingle (t : token) | FBlank | FComment | FString (q : byte) | FNumber | FCDO | FCDC
| FAt | FHash | FWord | FDelim | FBad.

Definition singles : list (byte * token) :=
  [(";", Semicolon); (":", Colon); (",", Comma); ("(", LParen); (")", RParen);
   ("[", LBracket); ("]", RBracket); ("{", LCurly); ("}", RCurly)]%byte.

Definition closesCDC (t : list char) : Prop := exists a b r, t = a :: b :: r /\ sees "-" a /\ sees ">" b.
Definition opensCDO (t : list char) : Prop :=
  exists a b c r, t = a :: b :: c :: r /\ sees "!" a /\ sees "-" b /\ sees "-" c.
Definition seesHash (t : list char) : Prop := starts (fun c => nameChar c /\ raw c) t \/ seesEscape t.

(** A character that stands for itself. *)
Definition delimiter (c : char) (t : list char) : Prop :=
  ~ (exists b k, In (b, k) singles /\ is b c) /\ ~ blank c /\ ~ quote c /\ ~ is "\" c /\
  ~ digit c /\ ~ nameStart c /\
  (is "/" c -> ~ starts (sees "*") t) /\ (sign c -> ~ seesUnsigned t) /\ (is "." c -> ~ seesNumber t) /\
  (is "-" c -> ~ seesName t /\ ~ closesCDC t) /\ (is "<" c -> ~ opensCDO t) /\
  (is "@" c -> ~ seesName t) /\ (is "#" c -> ~ seesHash t).

Inductive opens : list char -> family -> Prop :=
| opEnd : opens [] FEnd
| opSingle c t b k : In (b, k) singles -> is b c -> opens (c :: t) (FSingle k)
| opBlank c t : blank c -> opens (c :: t) FBlank
| opComment c t : is "/" c -> starts (sees "*") t -> opens (c :: t) FComment
| opString q c t : (q = """" \/ q = "'")%byte -> is q c -> opens (c :: t) (FString q)
| opDigit c t : digit c -> opens (c :: t) FNumber
| opSigned c t : sign c -> seesUnsigned t -> opens (c :: t) FNumber
| opDot c t : is "." c -> seesNumber t -> opens (c :: t) FNumber
| opCDC c t : is "-" c -> closesCDC t -> opens (c :: t) FCDC
| opCDO c t : is "<" c -> opensCDO t -> opens (c :: t) FCDO
| opAt c t : is "@" c -> seesName t -> opens (c :: t) FAt
| opHash c t : is "#" c -> seesHash t -> opens (c :: t) FHash
| opName c t : nameStart c -> ~ digit c -> opens (c :: t) FWord
| opDash c t : is "-" c -> seesName t -> ~ seesUnsigned t -> opens (c :: t) FWord
| opEscape c t : is "\" c -> ~ starts (sees LF) t -> opens (c :: t) FWord
| opBad c t : is "\" c -> starts (sees LF) t -> opens (c :: t) FBad
| opDelim c t : delimiter c t -> opens (c :: t) FDelim.

(** * Tokens *)
(** What a token delivers besides its kind. *)
Inductive payload := PlNone | PlStr (s : bytes) | PlNum (n : bytes) | PlBoth (n s : bytes).

(** [lexed t r k p]: at the front of [t ++ r] is the token [t] of kind [k]
    delivering [p]. *)
Inductive lexed : list char -> list char -> token -> payload -> Prop :=
| lxEnd : lexed [] [] EOF PlNone
| lxSingle c r k : opens (c :: r) (FSingle k) -> lexed [c] r k PlNone
| lxBlank c t r : opens (c :: t ++ r) FBlank -> Forall blank t -> ~ starts blank r ->
    lexed (c :: t) r Whitespace PlNone
| lxComment c d b x y r : opens (c :: d :: b ++ x :: y :: r) FComment -> is "*" x -> is "/" y ->
    ~ closes (b ++ [x]) -> lexed (c :: d :: b ++ [x; y]) r Comment (PlStr (flat b))
| lxString q c b e r : opens (c :: b ++ e :: r) (FString q) -> inString q b (e :: r) -> is q e ->
    lexed (c :: b ++ [e]) r TString (PlStr (flat b))
| lxNumber n r : opens (n ++ r) FNumber -> numeral n r -> ~ opensName r -> ~ starts (is "%") r ->
    lexed n r Number (PlNum (flat n))
| lxPercentage n p r : opens (n ++ p :: r) FNumber -> numeral n (p :: r) -> is "%" p ->
    lexed (n ++ [p]) r Percentage (PlNum (flat n))
| lxDimension n u r : opens (n ++ u ++ r) FNumber -> numeral n (u ++ r) -> opensName (u ++ r) -> word u r ->
    lexed (n ++ u) r Dimension (PlBoth (flat n) (flat u))
| lxCDO r : opens r FCDO -> lexed [] r CDO PlNone
| lxCDC r : opens r FCDC -> lexed [] r CDC PlNone
| lxAt c n r : opens (c :: n ++ r) FAt -> word n r -> lexed (c :: n) r At (PlStr (flat n))
| lxHash c n r : opens (c :: n ++ r) FHash -> word n r -> lexed (c :: n) r Hash (PlStr (flat n))
| lxIdent n r : opens (n ++ r) FWord -> word n r -> ~ starts (is "(") r -> lexed n r Ident (PlStr (flat n))
| lxFunction n p r : opens (n ++ p :: r) FWord -> word n (p :: r) -> is "(" p -> ~ urlName (flat n) ->
    lexed (n ++ [p]) r FunctionStart (PlStr (flat n))
| lxUrlFunction n p s r : opens (n ++ p :: s ++ r) FWord -> word n (p :: s ++ r) -> is "(" p -> urlName (flat n) ->
    Forall blank s -> starts quote r -> lexed (n ++ p :: s) r FunctionStart (PlStr (flat n))
| lxUrl n p s b e r : opens (n ++ p :: s ++ b ++ e :: r) FWord -> word n (p :: s ++ b ++ e :: r) ->
    is "(" p -> urlName (flat n) -> Forall blank s -> ~ starts blank (b ++ e :: r) ->
    ~ starts quote (b ++ e :: r) -> inUrl b (e :: r) -> is ")" e ->
    lexed (n ++ p :: s ++ b ++ [e]) r URL (PlStr (flat b))
| lxDelim c r : opens (c :: r) FDelim -> lexed [c] r Delim (PlStr (snd c)).

(** [broken t r m]: no token is at the front of [t ++ r]; reading stops after
    [t] with the message [m]. *)
Inductive broken : list char -> list char -> bytes -> Prop :=
| brEscape r : opens r FBad -> broken [] r (B "parse error")
| brComment c d b : opens (c :: d :: b) FComment -> ~ closes b -> broken (c :: d :: b) [] (B "unexpected EOF")
| brStringLine q c b r : opens (c :: b ++ r) (FString q) -> inString q b r -> starts (is LF) r ->
    broken (c :: b) r (B "unclosed string: unexpected newline")
| brStringEnd q c b : opens (c :: b) (FString q) -> inString q b [] -> broken (c :: b) [] (B "unexpected EOF")
| brStringEscape q c b d : opens (c :: b ++ [d]) (FString q) -> inString q b [d] -> is "\" d ->
    broken (c :: b ++ [d]) [] (B "unexpected EOF")
| brUrlEnd n p s b : opens (n ++ p :: s ++ b) FWord -> word n (p :: s ++ b) -> is "(" p -> urlName (flat n) ->
    Forall blank s -> ~ starts blank b -> ~ starts quote b -> inUrl b [] ->
    broken (n ++ p :: s ++ b) [] (B "unexpected EOF")
| brUrlChar n p s b c r : opens (n ++ p :: s ++ b ++ c :: r) FWord -> word n (p :: s ++ b ++ c :: r) -> is "(" p ->
    urlName (flat n) -> Forall blank s -> ~ starts blank (b ++ c :: r) -> ~ starts quote (b ++ c :: r) ->
    inUrl b (c :: r) -> (quote c \/ is "(" c \/ nonPrintable c \/ (is "\" c /\ starts (sees LF) r)) ->
    broken (n ++ p :: s ++ b) (c :: r) (B "unexpected token: " ++ encodeRune (fst c)).

(** White space and comments that a call skips, depending on what it keeps; and
    the text of the last comment among them. *)
Inductive skips (ws com : bool) : list char -> list char -> option bytes -> Prop :=
| spNil r : skips ws com [] r None
| spBlank c t r o : ws = false -> blank c -> skips ws com t r o -> skips ws com (c :: t) r o
| spComment c b t r o : com = false -> lexed c (t ++ r) Comment (PlStr b) -> skips ws com t r o ->
    skips ws com (c ++ t) r (Some (match o with Some b' => b' | None => b end)).

(** The string and the numeral last delivered stay until a token delivers
    another; a comment that is skipped counts as well. *)
Definition heard (o : option bytes) (s : bytes) : bytes := match o with Some b => b | None => s end.
Definition strAfter (p : payload) (s : bytes) : bytes := match p with PlStr x | PlBoth _ x => x | _ => s end.
Definition numAfter (p : payload) (n : bytes) : bytes := match p with PlNum x | PlBoth x _ => x | _ => n end.

(** The kinds of token a call delivers. *)
Definition delivered (ws com : bool) (k : token) : Prop :=
  (k = Whitespace -> ws = true) /\ (k = Comment -> com = true).
End WithUnicode.
