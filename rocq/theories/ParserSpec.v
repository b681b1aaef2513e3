(** Specification vocabulary for the parser theorems. *)
From Verif Require Import Bytes Utf8 Source Lexer LexSpec Ast Parser.

Section WithUnicode.
Context {U : UnicodeDigits}.

(** * Lexer states of a parse *)
(** [pstate content l]: [l] is a state of a lexer reading [content] after some
    calls of Next.  Between the calls the flags may be set, and the line table
    of the shared Source may be anything. *)
Inductive pstate (content : bytes) : lexer -> Prop :=
| pNew l : newLexer content [] = Ok l -> pstate content l
| pFlags l ws com : pstate content l -> pstate content (withFlags l ws com)
| pLines l ls : pstate content l -> pstate content (setLines l ls)
| pNext l l' : pstate content l -> next l = Ok l' -> pstate content l'.

(** * Math functions *)
(** Parentheses open after reading token [t] with [d] open before. *)
Definition depthAfter (d : nat) (t : token) : nat :=
  match t with FunctionStart | LParen => S d | RParen => pred d | _ => d end.
(** [inCall l0 d l]: [l0] is at the function token that opens a call, and [l]
    is reached from it by calls of Next with [d > 0] parentheses still open. *)
Inductive inCall (l0 : lexer) : nat -> lexer -> Prop :=
| icOpen l1 : next l0 = Ok l1 -> inCall l0 1 l1
| icNext d l l1 : inCall l0 d l -> next l = Ok l1 -> (0 < depthAfter d (l_cur l))%nat ->
    inCall l0 (depthAfter d (l_cur l)) l1.
(** [l] is inside the parentheses of a math function. *)
Definition inMath (content : bytes) (l : lexer) : Prop :=
  exists l0 d, pstate content l0 /\ l_cur l0 = FunctionStart /\ isMathName (l_str l0) = true /\ inCall l0 d l.

Definition isOperator (l : lexer) : Prop :=
  l_cur l = Delim /\ In (l_str l) [B "+"; B "-"; B "*"; B "/"].
(** The token can begin an operand. *)
Definition startsOperand (t : token) : bool :=
  match t with
  | Dimension | LBracket | Percentage | Number | Ident | Hash | TString | URL | FunctionStart | LParen => true
  | _ => false
  end.
(** A token with no place inside a math function. *)
Definition strayToken (l : lexer) : Prop :=
  startsOperand (l_cur l) = false /\ l_cur l <> RParen /\ l_cur l <> Comma /\ ~ isOperator l.
(** An operator without an operand on one side. *)
Definition danglingOperator (l l' : lexer) : Prop :=
  next l = Ok l' /\
  ((isOperator l' /\ (l_cur l = FunctionStart \/ l_cur l = LParen \/ l_cur l = Comma)) \/
   (isOperator l /\ startsOperand (l_cur l') = false)).
(** Somewhere in the file a math function is malformed. *)
Definition badMath (content : bytes) : Prop :=
  exists l, (inMath content l /\ (strayToken l \/ exists l', danglingOperator l l')) \/
            (exists l', pstate content l /\ l_cur l = FunctionStart /\ isMathName (l_str l) = true /\ danglingOperator l l').

(** A @custom-media rule whose name is not followed by a query. *)
Definition badCustomMedia (content : bytes) : Prop :=
  exists l l1 l2, pstate content l /\ l_cur l = At /\ l_str l = B "custom-media" /\
    next l = Ok l1 /\ l_cur l1 = Ident /\ next l1 = Ok l2 /\
    l_cur l2 <> LParen /\ l_cur l2 <> Ident.

(** * Where the parser is *)
(** The loops of the parser: top level, rules of a block (of keyframes?),
    prelude of a rule (of keyframes?), declarations of a block. *)
Inductive place := Top | InRules (k : bool) | InPrelude (k : bool) | InDecls.
Definition knownAtRule (s : bytes) : Prop :=
  In s [B "import"; B "media"; B "keyframes"; B "-webkit-keyframes"; B "-o-keyframes"; B "custom-media"].
Definition plainTop (t : token) : bool :=
  match t with EOF | At | Semicolon | CDO | CDC => false | _ => true end.

(** [visits run content p l]: the parser comes to the loop [p] with its lexer
    at [l]. *)
Inductive visits (run : nat) (content : bytes) : place -> lexer -> Prop :=
| vStart l : newLexer content [] = Ok l -> visits run content Top l
| vSkip l l1 : visits run content Top l -> In (l_cur l) [Semicolon; CDO; CDC] ->
    next l = Ok l1 -> visits run content Top l1
| vAt l n nd is l1 : visits run content Top l -> l_cur l = At ->
    parseAtRule run n l = Ok (nd, is, l1) -> visits run content Top l1
| vRule l n r l1 : visits run content Top l -> plainTop (l_cur l) = true ->
    parseQualifiedRule run n false l = Ok (r, l1) -> visits run content Top l1
| vTopPrelude l : visits run content Top l -> plainTop (l_cur l) = true ->
    visits run content (InPrelude false) l
| vMedia l l1 n q l2 l3 : visits run content Top l -> l_cur l = At -> l_str l = B "media" ->
    next l = Ok l1 -> parseMediaQueryList n l1 = Ok (q, l2) -> expect LCurly l2 = Ok l3 ->
    visits run content (InRules false) l3
| vKeyframes l l1 l2 l3 : visits run content Top l -> l_cur l = At ->
    In (l_str l) [B "keyframes"; B "-webkit-keyframes"; B "-o-keyframes"] ->
    next l = Ok l1 -> l_cur l1 = TString \/ l_cur l1 = Ident -> next l1 = Ok l2 -> expect LCurly l2 = Ok l3 ->
    visits run content (InRules true) l3
| vGeneric l l1 l2 : visits run content Top l -> l_cur l = At -> ~ knownAtRule (l_str l) ->
    next l = Ok l1 -> next l1 = Ok l2 -> visits run content InDecls l2
| vInner k l n r l1 : visits run content (InRules k) l -> l_cur l <> RCurly ->
    parseQualifiedRule run n k l = Ok (r, l1) -> visits run content (InRules k) l1
| vInnerPrelude k l : visits run content (InRules k) l -> l_cur l <> RCurly ->
    visits run content (InPrelude k) l
| vSelectors l n s l1 : visits run content (InPrelude false) l -> l_cur l <> LCurly ->
    parseSelectorList n l = Ok (s, l1) -> visits run content (InPrelude false) l1
| vKeySelectors l n s l1 : visits run content (InPrelude true) l -> l_cur l <> LCurly ->
    parseKeyframeSelectorList n l = Ok (s, l1) -> visits run content (InPrelude true) l1
| vBlock k l l1 : visits run content (InPrelude k) l -> l_cur l = LCurly ->
    next l = Ok l1 -> visits run content InDecls l1
| vDecl l n d l1 l2 : visits run content InDecls l -> l_cur l <> RCurly ->
    parseDeclarationOrFallback n l = Ok (d, l1) ->
    (if teq (l_cur l1) Semicolon then next l1 else Ok l1) = Ok l2 ->
    visits run content InDecls l2.

(** Reading on from [l], the end of the file comes before any semicolon. *)
Inductive noSemicolon : lexer -> Prop :=
| nsEnd l : l_cur l = EOF -> noSemicolon l
| nsNext l l1 : l_cur l <> Semicolon -> next l = Ok l1 -> noSemicolon l1 -> noSemicolon l.

(** Reading on from [l], the first semicolon is the token of [ls]. *)
Inductive toSemicolon : lexer -> lexer -> Prop :=
| tsHere l : l_cur l = Semicolon -> toSemicolon l l
| tsNext l l1 ls : l_cur l <> Semicolon -> next l = Ok l1 -> toSemicolon l1 ls -> toSemicolon l ls.

(** The declaration that starts at [l] does not parse, and no semicolon
    follows it in the file. *)
Definition lostDeclaration (l : lexer) : Prop :=
  l_cur l <> RCurly /\
  exists n p lines, parseDeclaration n l = Panic p lines /\ noSemicolon (setLines l lines).
End WithUnicode.

(** * Sound stylesheets *)
(** A math expression occurs only inside a math function (or inside
    parentheses there). *)
Definition isMathExpr (v : value) : bool := match v with VMath _ _ _ _ | VMathParen _ _ => true | _ => false end.
(** No value is missing, except possibly between the parentheses of "()". *)
Fixpoint soundValue (v : value) : Prop :=
  match v with
  | VNil => False
  | VFunc _ name args =>
    (isMathName name = false -> Forall (fun a => isMathExpr a = false) args) /\
    (fix all (l : list value) : Prop := match l with [] => True | a :: r => soundValue a /\ all r end) args
  | VBrackets _ vs =>
    Forall (fun a => isMathExpr a = false) vs /\
    (fix all (l : list value) : Prop := match l with [] => True | a :: r => soundValue a /\ all r end) vs
  | VMath _ op l r => In op [B "+"; B "-"; B "*"; B "/"] /\ soundValue l /\ soundValue r
  | VMathParen _ v => v = VNil \/ soundValue v
  | _ => True
  end.
(** A value as it stands in a declaration, an attribute selector or a media
    feature. *)
Definition plainValue (v : value) : Prop := soundValue v /\ isMathExpr v = false.
Definition optValue (v : value) : Prop := v = VNil \/ plainValue v.

Fixpoint soundPart (p : selpart) : Prop :=
  let args (a : pargs selpart) : Prop :=
    match a with
    | PASel _ sels => sels <> [] /\
        (fix each (l : list (span * list selpart)) : Prop :=
           match l with
           | [] => True
           | s :: r => snd s <> [] /\
               (fix all (ps : list selpart) : Prop :=
                  match ps with [] => True | p :: r => soundPart p /\ all r end) (snd s) /\ each r
           end) sels
    | _ => True
    end in
  match p with
  | SPseudo _ _ a | SPseudoEl _ _ _ a => args a
  | SAttr _ _ preop v modifier => optValue v /\ In preop [[]; B "^"; B "~"; B "$"; B "*"; B "|"] /\
      In modifier [[]; B "s"; B "i"]
  | SComb _ op => In op [B "+"; B ">"; B "~"; B "|"]
  | _ => True
  end.
Definition soundSelector (s : selector) : Prop := snd s <> [] /\ Forall soundPart (snd s).
Definition soundList (l : sellist) : Prop := snd l <> [] /\ Forall soundSelector (snd l).

Definition soundDecl (d : decl) : Prop :=
  match d with
  | DDecl _ _ vals _ => vals <> [] /\ Forall plainValue vals
  | DRaw _ _ => True    (* see C13 *)
  end.
Definition soundKey (k : keysel) : Prop :=
  match k with KPercent _ _ => True | KIdent _ s => In s [B "from"; B "to"] end.
(** [k]: the rule belongs to @keyframes.  The prelude is missing only if the
    rule begins with its block. *)
Definition soundRule (k : bool) (r : qrule) : Prop :=
  match r_prelude r with
  | PrSel l => k = false /\ soundList l
  | PrKey _ ks => k = true /\ ks <> [] /\ Forall soundKey ks
  | PrNil => sp_start (r_sp r) = sp_start (r_bsp r)
  end /\ Forall soundDecl (r_decls r).
Definition soundQueryPart (p : mqpart) : Prop :=
  match p with
  | MIdent _ _ => True
  | MPlain _ _ _ v => optValue v
  | MRange _ _ _ lhs op rhs => In op [B "<"; B "<="; B ">"; B ">="] /\ optValue lhs /\ optValue rhs
  end.
Definition soundQuery (q : mquery) : Prop := snd q <> [] /\ Forall soundQueryPart (snd q).
Definition soundQueries (l : mqlist) : Prop := snd l <> [] /\ Forall soundQuery (snd l).

(** The at-rules: what follows the name and which block it has. *)
Definition soundAt (a : atrule) : Prop :=
  let kf := In (ar_name a) [B "keyframes"; B "-webkit-keyframes"; B "-o-keyframes"] in
  (ar_name a = B "import" -> ar_block a = None /\ exists sp t rest, ar_preludes a = APString sp t :: rest /\
     (rest = [] \/ exists q, rest = [APMql q] /\ soundQueries q)) /\
  (ar_name a = B "custom-media" -> ar_block a = None /\ exists sp n q, ar_preludes a = [APIdent sp n; APMq q] /\ soundQuery q) /\
  (ar_name a = B "media" ->
     (ar_preludes a = [APNilMql] \/ exists q, ar_preludes a = [APMql q] /\ soundQueries q) /\
     exists bsp rs, ar_block a = Some (BRules bsp rs) /\ Forall (soundRule false) rs) /\
  (kf -> (exists sp s, ar_preludes a = [APString sp s] \/ ar_preludes a = [APIdent sp s]) /\
     exists bsp rs, ar_block a = Some (BRules bsp rs) /\ Forall (soundRule true) rs) /\
  (~ knownAtRule (ar_name a) -> ar_preludes a = [] /\ exists bsp ds, ar_block a = Some (BDecls bsp ds) /\ Forall soundDecl ds).
Definition soundNode (n : node) : Prop :=
  match n with NRule r => soundRule false r | NAt a => soundAt a end.

(** * Imports *)
(** The target of an @import rule and the rule itself. *)
Definition importOf (n : node) : list (bytes * ptr) :=
  match n with
  | NAt a => if beq (ar_name a) (B "import") then
               match ar_preludes a with APString _ t :: _ => [(t, atRuleId a)] | _ => [] end
             else []
  | NRule _ => []
  end.

(** * What the printer and the transformer cannot handle *)
(** "()" inside a math function. *)
Fixpoint emptyParens (v : value) : Prop :=
  match v with
  | VMathParen _ v => v = VNil \/ emptyParens v
  | VFunc _ _ vs | VBrackets _ vs =>
    (fix any (l : list value) : Prop := match l with [] => False | a :: r => emptyParens a \/ any r end) vs
  | VMath _ _ l r => emptyParens l \/ emptyParens r
  | _ => False
  end.
(** All values in a tree. *)
Definition declValues (d : decl) : list value := match d with DDecl _ _ vs _ => vs | DRaw _ _ => [] end.
Fixpoint partValues (p : selpart) : list value :=
  match p with
  | SAttr _ _ _ v _ => [v]
  | SPseudo _ _ (PASel _ sels) | SPseudoEl _ _ _ (PASel _ sels) =>
    flat_map (fun s => flat_map partValues (snd s)) sels
  | _ => []
  end.
Definition ruleValues (r : qrule) : list value :=
  match r_prelude r with PrSel (_, sels) => flat_map (fun s => flat_map partValues (snd s)) sels | _ => [] end
  ++ flat_map declValues (r_decls r).
Definition queryValues (q : mquery) : list value :=
  flat_map (fun p => match p with MIdent _ _ => [] | MPlain _ _ _ v => [v] | MRange _ _ _ a _ b => [a; b] end) (snd q).
Definition preludeValues (p : atprelude) : list value :=
  match p with APMql l => flat_map queryValues (snd l) | APMq q => queryValues q | _ => [] end.
Definition blockRules (b : option block) : list qrule := match b with Some (BRules _ rs) => rs | _ => [] end.
Definition blockDecls (b : option block) : list decl := match b with Some (BDecls _ ds) => ds | _ => [] end.
Definition nodeRules (n : node) : list qrule := match n with NRule r => [r] | NAt a => blockRules (ar_block a) end.
Definition nodeDecls (n : node) : list decl :=
  flat_map r_decls (nodeRules n) ++ match n with NAt a => blockDecls (ar_block a) | NRule _ => [] end.
Definition nodeValues (n : node) : list value :=
  flat_map ruleValues (nodeRules n)
  ++ match n with
     | NRule _ => []
     | NAt a => flat_map preludeValues (ar_preludes a) ++ flat_map declValues (blockDecls (ar_block a))
     end.
Definition noSelectors (r : qrule) : Prop := r_prelude r = PrNil.
Definition noQuery (n : node) : Prop := match n with NAt a => In APNilMql (ar_preludes a) | NRule _ => False end.
(** What Print cannot print: a rule without selectors, a @media without
    queries, empty parentheses in a math function. *)
Definition unprintable (n : node) : Prop :=
  Exists noSelectors (nodeRules n) \/ noQuery n \/ Exists emptyParens (nodeValues n).
(** The two things that make the transformer panic. *)
Definition blocked (n : node) : Prop :=
  match n with NRule r => noSelectors r | NAt a => In APNilMql (ar_preludes a) end.
(** No declaration was kept as raw text. *)
Definition noRawDecl (d : decl) : Prop := match d with DRaw _ _ => False | _ => True end.
Definition noRawRule (r : qrule) : Prop := Forall noRawDecl (r_decls r).
Definition noRawNode (n : node) : Prop :=
  Forall noRawRule (nodeRules n) /\
  match n with NAt a => Forall noRawDecl (blockDecls (ar_block a)) | NRule _ => True end.

