(** internal/ast: the syntax tree.

    Go pointers to nodes are modelled by the nodes themselves (trees); the one
    place where pointer identity matters, the key of ImportReplacements and
    ImportSpecifier.AtRule, is modelled by the pair (parse run, start offset),
    see [atRuleId].  A nil interface in a value position is [VNil]. *)
From Verif Require Import Bytes Utf8 Source.

(** ast.Value, internal/ast/value.go.  [VNil] is the nil interface. *)
Inductive value :=
| VNil
| VString (sp : span) (v : bytes)                  (* value.go:12-17 *)
| VDim (sp : span) (v unit : bytes)                (* value.go:21-30 *)
| VIdent (sp : span) (v : bytes)                   (* value.go:41-46 *)
| VHex (sp : span) (rgba : bytes)                  (* value.go:49-54 *)
| VBrackets (sp : span) (vs : list value)          (* value.go:57-62 *)
| VFunc (sp : span) (name : bytes) (args : list value)  (* value.go:65-73 *)
| VMath (sp : span) (op : bytes) (l r : value)     (* value.go:90-98 *)
| VMathParen (sp : span) (v : value)               (* value.go:101-105 *)
| VComma (sp : span)                               (* value.go:116-118 *)
| VRaw (sp : span) (v : bytes).                    (* value.go:108-112 *)

(** Node.Location for values; [None] is the nil dereference on a nil interface. *)
Definition valueSpan (v : value) : option span :=
  match v with
  | VNil => None
  | VString sp _ | VDim sp _ _ | VIdent sp _ | VHex sp _ | VBrackets sp _
  | VFunc sp _ _ | VMath sp _ _ _ | VMathParen sp _ | VComma sp | VRaw sp _ => Some sp
  end.

Definition isNil (v : value) : bool := match v with VNil => true | _ => false end.

(** Function.IsMath, internal/ast/value.go:77-87. *)
Definition isMathName (n : bytes) : bool :=
  bmem n [B "calc"; B "min"; B "max"; B "clamp"].

(** ast.PseudoClassArguments, internal/ast/selector.go:78-101.  Parameterised
    by the type of selector parts to allow nesting; a selector is its span and
    its parts. *)
Inductive pargs (P : Type) :=
| PANone                                                   (* nil *)
| PAIdent (sp : span) (v : bytes)
| PAAnb (sp : span) (a op b : bytes)
| PASel (sp : span) (sels : list (span * list P)).
Arguments PANone {P}. Arguments PAIdent {P}. Arguments PAAnb {P}. Arguments PASel {P}.

(** ast.SelectorPart, internal/ast/selector.go:31-153. *)
Inductive selpart :=
| SWhitespace (sp : span)
| SType (sp : span) (name : bytes)
| SClass (sp : span) (name : bytes)
| SId (sp : span) (name : bytes)
| SComb (sp : span) (op : bytes)
| SPseudo (sp : span) (name : bytes) (args : pargs selpart)
  (** PseudoElementSelector: its own span, then the inner PseudoClassSelector. *)
| SPseudoEl (sp : span) (isp : span) (name : bytes) (args : pargs selpart)
| SAttr (sp : span) (prop preop : bytes) (v : value) (modifier : bytes).

Definition partSpan (p : selpart) : span :=
  match p with
  | SWhitespace sp | SType sp _ | SClass sp _ | SId sp _ | SComb sp _
  | SPseudo sp _ _ | SPseudoEl sp _ _ _ | SAttr sp _ _ _ _ => sp
  end.

(** ast.Selector and ast.SelectorList, internal/ast/selector.go:5-25. *)
Definition selector : Type := span * list selpart.
Definition sellist : Type := span * list selector.

(** ast.KeyframeSelector, internal/ast/keyframe.go. *)
Inductive keysel :=
| KPercent (sp : span) (v : bytes)
| KIdent (sp : span) (v : bytes).
Definition keySpan (k : keysel) : span := match k with KPercent sp _ | KIdent sp _ => sp end.

(** ast.Prelude, internal/ast/rule.go; [PrNil] is a nil interface. *)
Inductive prelude :=
| PrNil
| PrSel (l : sellist)
| PrKey (sp : span) (ks : list keysel).

(** ast.Declarationish, internal/ast/ast.go:59-95. *)
Inductive decl :=
| DDecl (sp : span) (prop : bytes) (vals : list value) (important : bool)
| DRaw (sp : span) (v : bytes).

(** ast.QualifiedRule, internal/ast/rule.go.  The parser always gives it a
    DeclarationBlock (span, declarations).  [r_run] identifies the parse that
    allocated the node. *)
Record qrule := mkRule {
  r_run : nat; r_sp : span; r_prelude : prelude; r_bsp : span; r_decls : list decl }.

(** ast.MediaQueryPart, internal/ast/media.go.  MediaInParens is never
    constructed by the code. *)
Inductive mqpart :=
| MIdent (sp : span) (v : bytes)
| MPlain (sp : span) (psp : span) (prop : bytes) (v : value)
| MRange (sp : span) (psp : span) (prop : bytes) (lhs : value) (op : bytes) (rhs : value).
Definition mqpartSpan (p : mqpart) : span :=
  match p with MIdent sp _ | MPlain sp _ _ _ | MRange sp _ _ _ _ _ => sp end.
Definition mquery : Type := span * list mqpart.
Definition mqlist : Type := span * list mquery.

(** ast.AtPrelude, internal/ast/atrule.go:14-26.  [APNilMql] is the typed nil
    *MediaQueryList stored by parser.go:598 when the query list is empty. *)
Inductive atprelude :=
| APString (sp : span) (v : bytes)
| APIdent (sp : span) (v : bytes)
| APMql (l : mqlist)
| APNilMql
| APMq (q : mquery).

(** ast.Block, internal/ast/ast.go:46-76. *)
Inductive block :=
| BDecls (sp : span) (ds : list decl)
| BRules (sp : span) (rs : list qrule).

(** ast.AtRule, internal/ast/atrule.go:4-12.  [ar_run] identifies the parse
    that allocated the node. *)
Record atrule := mkAt {
  ar_run : nat; ar_sp : span; ar_name : bytes; ar_preludes : list atprelude; ar_block : option block }.

(** Pointer identity of a top-level node: two nodes allocated by the same parse
    start at different offsets. *)
Definition ptr : Type := nat * nat.
Definition atRuleId (a : atrule) : ptr := (ar_run a, sp_start (ar_sp a)).
Definition ptrEq (a b : ptr) : bool := Nat.eqb (fst a) (fst b) && Nat.eqb (snd a) (snd b).

(** ast.Node as stored in Stylesheet.Nodes. *)
Inductive node :=
| NRule (r : qrule)
| NAt (a : atrule).
Definition nodeId (n : node) : ptr :=
  match n with NRule r => (r_run r, sp_start (r_sp r)) | NAt a => atRuleId a end.
Definition nodeSpan (n : node) : span := match n with NRule r => r_sp r | NAt a => ar_sp a end.

(** ast.Stylesheet and ast.ImportSpecifier, internal/ast/ast.go:21-33. *)
Record stylesheet := mkSheet { ss_nodes : list node; ss_imports : list (bytes * ptr) }.
