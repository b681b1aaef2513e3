(** The token at an offset of a file, and the tokens of a whole file, by the
    lexical grammar. *)
From Verif Require Import Bytes Utf8 Source Lexer LexSpec LexGrammar ReadSpec.

Section WithUnicode.
Context {U : UnicodeDigits}.

(** [tokenAt content ws com a k p b e o]: reading from offset [a], with white
    space kept or not ([ws]) and comments kept or not ([com]), the next token
    is of kind [k], delivers [p] and extends from [b] to [e]; [o] is the text
    of the last comment skipped. *)
Definition tokenAt (content : bytes) (ws com : bool) (a : nat) (k : token) (p : payload) (b e : nat)
    (o : option bytes) : Prop :=
  exists g t r, cuts (skipn a content) (g ++ t ++ r) /\ skips ws com g (t ++ r) o /\ lexed t r k p /\
    delivered ws com k /\ b = (a + length (flat g))%nat /\ e = (b + length (flat t))%nat.
(** [errorAt content ws com a m b e]: there is none; the message is [m] and the
    text it is about extends from [b] to [e]. *)
Definition errorAt (content : bytes) (ws com : bool) (a : nat) (m : bytes) (b e : nat) : Prop :=
  exists g t r o, cuts (skipn a content) (g ++ t ++ r) /\ skips ws com g (t ++ r) o /\ broken t r m /\
    b = (a + length (flat g))%nat /\ e = (b + length (flat t))%nat.

(** [scanned content a s n ts]: from offset [a], where the string and the
    numeral last delivered are [s] and [n], to the end the tokens are [ts].
    After the last one white space is skipped. *)
Inductive scanned (content : bytes) : nat -> bytes -> bytes -> list tk -> Prop :=
| scEnd a s n b e o : tokenAt content false false a EOF PlNone b e o -> scanned content a s n []
| scTok a s n x ts p o : tokenAt content (k_kept x) false a (k_tok x) p (from x) (upto x) o ->
    k_str x = strAfter p (heard o s) -> k_num x = numAfter p n ->
    scanned content (upto x) (k_str x) (k_num x) ts -> scanned content a s n (x :: ts).
(** White space before the first token is skipped. *)
Definition tokenized (content : bytes) (ts : list tk) : Prop :=
  scanned content 0 [] [] ts /\ match ts with x :: _ => k_kept x = false | [] => True end.

(** [nds] is a reading of the file [content], and a plain one: from the bytes
    of the file, by the lexical grammar and the grammar of ReadSpec.v alone. *)
Definition readsBytes (run : nat) (content : bytes) (nds : list Ast.node) : Prop :=
  exists ts, tokenized content ts /\ gNodes (L := true) content run ts nds.
Definition readsBytesPlainly (run : nat) (content : bytes) (nds : list Ast.node) : Prop :=
  exists ts, tokenized content ts /\ gNodes (L := false) content run ts nds.
End WithUnicode.
