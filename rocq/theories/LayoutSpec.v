(** White space and comments that are added to a file, or taken away (C61). *)
From Verif Require Import Bytes Utf8 Source Lexer LexSpec Ast ReadSpec LexStreamSpec.

(** White space and comments.  A comment that is closed by a star, a carriage
    return and a slash (the lexer closes it there) is left out, with all others
    that contain a carriage return. *)
Inductive layout : bytes -> Prop :=
| loEmpty : layout []
| loBlank b w : b = SP \/ b = TAB \/ b = LF -> layout w -> layout (b :: w)
| loBreak w : layout w -> layout (CR :: LF :: w)
| loComment body w : noClose body -> ~ In CR body -> layout w -> layout (B "/*" ++ body ++ B "*/" ++ w).

Definition punctuation (k : token) : Prop :=
  In k [Semicolon; Colon; Comma; LParen; RParen; LBracket; RBracket; LCurly; RCurly].
Section WithUnicode.
Context {U : UnicodeDigits}.
(** The text starts with white space, a slash or a punctuation mark: every token
    before it ends there. *)
Definition apart (v : bytes) : Prop :=
  (exists b r, v = b :: r /\ In b [SP; TAB; LF; "/"; ";"; ":"; ","; "("; ")"; "["; "]"; "{"; "}"]%byte) \/ (exists r, v = CR :: LF :: r).
(** There is room between [u] and [v]: before the next token, if any, white space
    is skipped; and the file starts there, or a punctuation mark ends there, or
    any other token whose end can be seen.  In the last case the token has no
    escapes or carriage returns, and the next token is not one that the parser
    takes for a sign or a word without looking at its kind. *)
Definition room (u v : bytes) (ts : list tk) : Prop := exists ts1 ts2, ts = ts1 ++ ts2 /\
  match ts2 with y :: _ => k_kept y = false | [] => True end /\
  ((u = [] /\ ts1 = []) \/ exists ts0 x, ts1 = ts0 ++ [x] /\ upto x = length u /\
    (punctuation (k_tok x) \/
     (k_tok x <> Whitespace /\ ~ In "\"%byte (skipn (from x) u) /\ ~ In CR (skipn (from x) u) /\ apart v /\
      match ts2 with
      | y :: _ => In (k_tok y) [Delim; Ident] \/ ~ (k_tok x = Delim /\ saysImportant (k_str y) \/ k_tok x = Ident /\ In (k_str y) [B "^"; B "~"; B "$"; B "*"; B "|"])
      | [] => True
      end))).
(** [nds] is the plain reading of [u ++ v], and there is room after [u]. *)
Definition roomy (run : nat) (u v : bytes) (nds : list node) : Prop := exists ts,
  tokenized (u ++ v) ts /\ gNodes (L := false) (u ++ v) run ts nds /\ room u v ts.
(** Files that differ only in white space and comments, added or taken away any
    number of times where there is room or at the end. *)
Inductive respaced (run : nat) : bytes -> bytes -> Prop :=
| rsSame x nds : readsBytesPlainly run x nds -> respaced run x x
| rsAdd u w v nds : roomy run u v nds -> layout w -> v <> [] -> respaced run (u ++ v) (u ++ w ++ v)
| rsEnd x w nds : readsBytesPlainly run x nds -> layout w -> respaced run x (x ++ w)
| rsBack x y : respaced run x y -> respaced run y x
| rsMore x y z : respaced run x y -> respaced run y z -> respaced run x z.
End WithUnicode.
