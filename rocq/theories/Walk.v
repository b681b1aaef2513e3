(** ast.Walk, internal/ast/walk.go:8-115 *)
(** A nil interface is skipped (lines 10-12), every other node is visited
    before its parts (line 14). *)
From Verif Require Import Bytes Utf8 Source Ast.

(** ast.Node: everything that can be handed to [visit].  [NdNilMql] is the
    typed nil of [APNilMql]. *)
Inductive anode :=
| NdSheet (ns : list node)
| NdRule (r : qrule)
| NdAt (a : atrule)
| NdSelectors (l : sellist)
| NdSelector (s : selector)
| NdPart (p : selpart)
| NdArgIdent (sp : span) (v : bytes)
| NdAnb (sp : span) (a op b : bytes)
| NdKeys (sp : span) (ks : list keysel)
| NdKey (k : keysel)
| NdPrelude (sp : span) (v : bytes) (isString : bool)
| NdQueries (l : mqlist)
| NdNilMql
| NdQuery (q : mquery)
| NdQueryPart (p : mqpart)
| NdProperty (sp : span) (v : bytes)
| NdDecls (sp : span) (ds : list decl)
| NdRules (sp : span) (rs : list qrule)
| NdDecl (d : decl)
| NdValue (v : value).

(** What a call of Walk does: the nodes visited, and whether it panics. *)
Definition visits : Type := list anode * bool.
Definition thenW (a b : visits) : visits := if snd a then a else (fst a ++ fst b, snd b).
Infix ">>>" := thenW (at level 60, right associativity).
Definition visit (n : anode) : visits := ([n], false).
Definition done : visits := ([], false).
Definition panics : visits := ([], true).
Definition walkAll {A} (f : A -> visits) : list A -> visits :=
  fix go l := match l with [] => done | x :: r => f x >>> go r end.

(** Values: walk.go:77-82, 89-92 and the cases without children at 97-110;
    Brackets have no case (line 113). *)
Fixpoint walkValue (v : value) : visits :=
  match v with
  | VNil => done
  | VBrackets _ _ => visit (NdValue v) >>> panics
  | VFunc _ _ args => visit (NdValue v) >>> walkAll walkValue args
  | VMath _ _ l r => visit (NdValue v) >>> walkValue l >>> walkValue r
  | VMathParen _ x => visit (NdValue v) >>> walkValue x
  | _ => visit (NdValue v)
  end.
(** Selector parts: walk.go:70-71, 94-95, and the cases without children; the
    arguments of a pseudo class are not walked (line 103). *)
Definition walkPart (p : selpart) : visits :=
  match p with
  | SAttr _ _ _ v _ => visit (NdPart p) >>> walkValue v
  | SPseudoEl _ isp n a => visit (NdPart p) >>> visit (NdPart (SPseudo isp n a))
  | _ => visit (NdPart p)
  end.
(** walk.go:30-33. *)
Definition walkSelector (s : selector) : visits := visit (NdSelector s) >>> walkAll walkPart (snd s).
(** walk.go:25-28, 84-87. *)
Definition walkPrelude (p : prelude) : visits :=
  match p with
  | PrNil => done
  | PrSel l => visit (NdSelectors l) >>> walkAll walkSelector (snd l)
  | PrKey sp ks => visit (NdKeys sp ks) >>> walkAll (fun k => visit (NdKey k)) ks
  end.
(** walk.go:60-63, Raw at line 110. *)
Definition walkDecl (d : decl) : visits :=
  match d with
  | DDecl _ _ vs _ => visit (NdDecl d) >>> walkAll walkValue vs
  | DRaw _ _ => visit (NdDecl d)
  end.
(** walk.go:21-23, 65-68. *)
Definition walkRule (r : qrule) : visits :=
  visit (NdRule r) >>> walkPrelude (r_prelude r) >>>
  visit (NdDecls (r_bsp r) (r_decls r)) >>> walkAll walkDecl (r_decls r).
(** walk.go:51-53, 73-75; the property of a range is not walked. *)
Definition walkQueryPart (p : mqpart) : visits :=
  match p with
  | MIdent _ _ => visit (NdQueryPart p)
  | MPlain _ psp prop v => visit (NdQueryPart p) >>> visit (NdProperty psp prop) >>> walkValue v
  | MRange _ _ _ l _ r => visit (NdQueryPart p) >>> walkValue l >>> walkValue r
  end.
(** walk.go:46-49. *)
Definition walkQuery (q : mquery) : visits := visit (NdQuery q) >>> walkAll walkQueryPart (snd q).
(** walk.go:41-44, 46-49; the typed nil is not equal to nil, it is visited and then
    dereferenced. *)
Definition walkAtPrelude (p : atprelude) : visits :=
  match p with
  | APString sp v => visit (NdPrelude sp v true)
  | APIdent sp v => visit (NdPrelude sp v false)
  | APMql l => visit (NdQueries l) >>> walkAll walkQuery (snd l)
  | APNilMql => visit NdNilMql >>> panics
  | APMq q => walkQuery q
  end.
(** walk.go:55-58, 65-68. *)
Definition walkBlock (b : option block) : visits :=
  match b with
  | None => done
  | Some (BDecls sp ds) => visit (NdDecls sp ds) >>> walkAll walkDecl ds
  | Some (BRules sp rs) => visit (NdRules sp rs) >>> walkAll walkRule rs
  end.
(** walk.go:35-39. *)
Definition walkAt (a : atrule) : visits :=
  visit (NdAt a) >>> walkAll walkAtPrelude (ar_preludes a) >>> walkBlock (ar_block a).
Definition walkNode (n : node) : visits := match n with NRule r => walkRule r | NAt a => walkAt a end.
(** walk.go:16-19. *)
Definition walkSheet (ns : list node) : visits := visit (NdSheet ns) >>> walkAll walkNode ns.
