(** Specification vocabulary for the lexer theorems, independent of the model
    of the lexer: what white space, comments and the texts of tokens are. *)
From Verif Require Import Bytes Utf8 Lexer.

Definition CR : byte := Byte.x0d.
Definition LF : byte := Byte.x0a.
Definition TAB : byte := Byte.x09.
Definition SP : byte := Byte.x20.

(** The ASCII character [c] as the lexer reads it: itself, or preceded by a
    carriage return that the lexer folds into it (lexer.go:86-96). *)
Definition achar (c : byte) (u : bytes) : Prop := u = [c] \/ u = [CR; c].

(** A run of white space: space, tab, line feed, CR LF (and, because of the
    folding above, CR space and CR tab). *)
Inductive wsRun : bytes -> Prop :=
| wsNil : wsRun []
| wsCons c u r : (c = SP \/ c = TAB \/ c = LF) -> achar c u -> wsRun r -> wsRun (u ++ r).

(** [body] followed by its closing star contains no earlier "*/". *)
Definition noClose (body : bytes) : Prop :=
  forall a b, body ++ B "*" <> a ++ B "*/" ++ b.

(** A closed comment with the given body. *)
Definition commentText (body t : bytes) : Prop :=
  exists u1 u2 u3, achar "/"%byte u1 /\ achar "*"%byte u2 /\ achar "/"%byte u3 /\
    t = u1 ++ B "*" ++ body ++ u2 ++ u3 /\ noClose body.

(** What may be skipped between two tokens. *)
Inductive gap : bytes -> Prop :=
| gapNil : gap []
| gapWs t r : wsRun t -> gap r -> gap (t ++ r)
| gapComment body t r : commentText body t -> gap r -> gap (t ++ r).

(** What a call that keeps white space ([ws]) or comments ([com]) skips. *)
Inductive skipped (ws com : bool) : bytes -> Prop :=
| skNil : skipped ws com []
| skWs t r : ws = false -> wsRun t -> skipped ws com r -> skipped ws com (t ++ r)
| skComment body t r : com = false -> commentText body t -> skipped ws com r -> skipped ws com (t ++ r).

(** The same without the folding of carriage returns: white space is space,
    tab, LF or CR LF; a comment is "/*" body "*/". *)
Inductive gapStrict : bytes -> Prop :=
| gsNil : gapStrict []
| gsSp r : gapStrict r -> gapStrict (SP :: r)
| gsTab r : gapStrict r -> gapStrict (TAB :: r)
| gsLf r : gapStrict r -> gapStrict (LF :: r)
| gsCrLf r : gapStrict r -> gapStrict (CR :: LF :: r)
| gsComment body r : noClose body -> gapStrict r -> gapStrict (B "/*" ++ body ++ B "*/" ++ r).

(** Every carriage return is followed by a line feed. *)
Definition noLoneCR (s : bytes) : Prop :=
  forall a r, s = a ++ CR :: r -> exists r', r = LF :: r'.

(** The text of a token of kind [t] that delivers the string [str] and the
    numeral [num]. *)
Definition tokenText (t : token) (str num text : bytes) : Prop :=
  match t with
  | Illegal => False
  | EOF | CDO | CDC => text = []
  | Semicolon => achar ";"%byte text
  | Colon => achar ":"%byte text
  | Comma => achar ","%byte text
  | LParen => achar "("%byte text
  | RParen => achar ")"%byte text
  | LBracket => achar "["%byte text
  | RBracket => achar "]"%byte text
  | LCurly => achar "{"%byte text
  | RCurly => achar "}"%byte text
  | Whitespace => wsRun text
  | Comment => commentText str text
  | Ident | Delim => text = str
  | Number => text = num
  | Percentage => exists u, achar "%"%byte u /\ text = num ++ u
  | Dimension => text = num ++ str
  | At => exists u, achar "@"%byte u /\ text = u ++ str
  | Hash => exists u, achar "#"%byte u /\ text = u ++ str
  | TString => exists q u1 u2, (q = """"%byte \/ q = "'"%byte) /\ achar q u1 /\ achar q u2 /\
                 text = u1 ++ str ++ u2
  | FunctionStart => exists u s, achar "("%byte u /\ wsRun s /\ text = str ++ u ++ s
  | URL => exists name u1 s u2, isURLString name = true /\ achar "("%byte u1 /\ wsRun s /\
             achar ")"%byte u2 /\ text = name ++ u1 ++ s ++ str ++ u2
  end.

(** Offsets just after each line feed of [s], where [s] starts at [off]. *)
Fixpoint linesIn (off : nat) (s : bytes) : list nat :=
  match s with
  | [] => []
  | c :: r => if Byte.eqb c LF then S off :: linesIn (S off) r else linesIn (S off) r
  end.
(** The line starts of a file. *)
Definition lineStarts (s : bytes) : list nat := 0%nat :: linesIn 0 s.

(** [s] starts with a decimal digit. *)
Definition digitFirst {U : UnicodeDigits} (s : bytes) : Prop :=
  s <> [] /\ isDigit (fst (decodeRune s)) = true.

(** Input on which the next token is empty: a "-->" or "<!--", or a dot
    followed by something that starts a number but is not a digit. *)
Definition stuck {U : UnicodeDigits} (r : bytes) : Prop :=
  exists u t, r = u ++ t /\
    ((achar "-"%byte u /\ exists t', t = B "->" ++ t') \/
     (achar "<"%byte u /\ exists t', t = B "!--" ++ t') \/
     (achar "."%byte u /\ exists t',
        (t = B "." ++ t' \/ t = B "+" ++ t' \/ t = B "-" ++ t' \/
         t = B "+." ++ t' \/ t = B "-." ++ t') /\ digitFirst t')).

(** * Using the lexer *)
(** The two exported flags of Lexer, internal/lexer/lexer.go:51-58, which the
    caller may set before any call. *)
Definition withFlags (l : lexer) (ws com : bool) : lexer :=
  mkLexer (l_ch l) (l_pos l) (l_lastPos l) (l_start l) (l_content l) (l_lines l) (l_cur l) (l_str l) (l_num l) ws com.

(** [session content l]: [l] is the lexer after NewLexer on a fresh source with
    this content and any number of successful calls of Next. *)
Inductive session {U : UnicodeDigits} (content : bytes) : lexer -> Prop :=
| sNew l : newLexer content [] = Ok l -> session content l
| sNext l ws com l' : session content l -> next (withFlags l ws com) = Ok l' -> session content l'.

(** The same with the list of the lexer states in order, oldest first. *)
Inductive sessions {U : UnicodeDigits} (content : bytes) : list lexer -> lexer -> Prop :=
| ssNew l : newLexer content [] = Ok l -> sessions content [l] l
| ssNext ls l ws com l' : sessions content ls l -> next (withFlags l ws com) = Ok l' ->
    sessions content (ls ++ [l']) l'.

(** The bytes from offset [a] to offset [b]. *)
Definition sub (s : bytes) (a b : nat) : bytes := firstn (b - a) (skipn a s).

(** [tokenText] when no carriage return is folded away. *)
Definition tokenTextStrict (t : token) (str num text : bytes) : Prop :=
  match t with
  | Illegal => False
  | EOF | CDO | CDC => text = []
  | Semicolon => text = B ";" | Colon => text = B ":" | Comma => text = B ","
  | LParen => text = B "(" | RParen => text = B ")"
  | LBracket => text = B "[" | RBracket => text = B "]"
  | LCurly => text = B "{" | RCurly => text = B "}"
  | Whitespace => wsRun text
  | Comment => text = B "/*" ++ str ++ B "*/" /\ noClose str
  | Ident | Delim => text = str
  | Number => text = num
  | Percentage => text = num ++ B "%"
  | Dimension => text = num ++ str
  | At => text = B "@" ++ str
  | Hash => text = B "#" ++ str
  | TString => exists q, (q = """"%byte \/ q = "'"%byte) /\ text = [q] ++ str ++ [q]
  | FunctionStart => exists s, wsRun s /\ text = str ++ B "(" ++ s
  | URL => exists name s, isURLString name = true /\ wsRun s /\
             text = name ++ B "(" ++ s ++ str ++ B ")"
  end.
