(** What it means to walk a tree: the parts of every node, and their order. *)
From Verif Require Import Bytes Utf8 Source Ast Walk.

Definition ofValue (v : value) : list anode := if isNil v then [] else [NdValue v].
Definition ofNode (n : node) : anode := match n with NRule r => NdRule r | NAt a => NdAt a end.
Definition ofArgs (a : pargs selpart) : list anode :=
  match a with
  | PANone => []
  | PAIdent sp v => [NdArgIdent sp v]
  | PAAnb sp a o b => [NdAnb sp a o b]
  | PASel sp sels => [NdSelectors (sp, sels)]
  end.
Definition ofAtPrelude (p : atprelude) : anode :=
  match p with
  | APString sp v => NdPrelude sp v true
  | APIdent sp v => NdPrelude sp v false
  | APMql l => NdQueries l
  | APNilMql => NdNilMql
  | APMq q => NdQuery q
  end.
(** The nodes a node consists of. *)
Definition kids (n : anode) : list anode :=
  match n with
  | NdSheet ns => map ofNode ns
  | NdRule r =>
    match r_prelude r with PrNil => [] | PrSel l => [NdSelectors l] | PrKey sp ks => [NdKeys sp ks] end
    ++ [NdDecls (r_bsp r) (r_decls r)]
  | NdAt a =>
    map ofAtPrelude (ar_preludes a)
    ++ match ar_block a with None => [] | Some (BDecls sp ds) => [NdDecls sp ds] | Some (BRules sp rs) => [NdRules sp rs] end
  | NdSelectors l => map NdSelector (snd l)
  | NdSelector s => map NdPart (snd s)
  | NdPart (SPseudo _ _ a) => ofArgs a
  | NdPart (SPseudoEl _ isp n a) => [NdPart (SPseudo isp n a)]
  | NdPart (SAttr _ _ _ v _) => ofValue v
  | NdKeys _ ks => map NdKey ks
  | NdQueries l => map NdQuery (snd l)
  | NdQuery q => map NdQueryPart (snd q)
  | NdQueryPart (MPlain _ psp prop v) => NdProperty psp prop :: ofValue v
  | NdQueryPart (MRange _ psp prop l _ r) => NdProperty psp prop :: ofValue l ++ ofValue r
  | NdDecls _ ds => map NdDecl ds
  | NdRules _ rs => map NdRule rs
  | NdDecl (DDecl _ _ vs _) => flat_map ofValue vs
  | NdValue (VFunc _ _ vs) | NdValue (VBrackets _ vs) => flat_map ofValue vs
  | NdValue (VMath _ _ l r) => ofValue l ++ ofValue r
  | NdValue (VMathParen _ v) => ofValue v
  | _ => []
  end.
(** All nodes below a node, parents first, in order; [sub] gives the parts. *)
Inductive preorder (sub : anode -> list anode) : anode -> list anode -> Prop :=
| po n vss : Forall2 (preorder sub) (sub n) vss -> preorder sub n (n :: concat vss).

(** The nodes whose parts are not all visited: pseudo classes with arguments
    and ranges. *)
Definition seen (n : anode) : list anode :=
  match n with
  | NdPart (SPseudo _ _ _) => []
  | NdQueryPart (MRange _ _ _ l _ r) => ofValue l ++ ofValue r
  | _ => kids n
  end.
(** The nodes Walk cannot handle. *)
Definition unknown (n : anode) : bool :=
  match n with NdNilMql | NdValue (VBrackets _ _) => true | _ => false end.
(** A node Walk handles fully. *)
Definition handled (n : anode) : Prop := unknown n = false /\ seen n = kids n.
