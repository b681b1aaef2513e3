(** Stylesheets up to source positions: [strip] forgets every span and which
    parse allocated a node, and keeps everything else. *)
From Verif Require Import Bytes Utf8 Source Ast.

Definition sp0 : span := mkSpan 0 0.
Fixpoint stripValue (v : value) : value :=
  match v with
  | VNil => VNil
  | VString _ s => VString sp0 s
  | VDim _ n u => VDim sp0 n u
  | VIdent _ s => VIdent sp0 s
  | VHex _ s => VHex sp0 s
  | VBrackets _ vs => VBrackets sp0 (map stripValue vs)
  | VFunc _ n vs => VFunc sp0 n (map stripValue vs)
  | VMath _ o a b => VMath sp0 o (stripValue a) (stripValue b)
  | VMathParen _ v => VMathParen sp0 (stripValue v)
  | VComma _ => VComma sp0
  | VRaw _ s => VRaw sp0 s
  end.
Fixpoint stripPart (p : selpart) : selpart :=
  let args (a : pargs selpart) : pargs selpart :=
    match a with
    | PANone => PANone
    | PAIdent _ v => PAIdent sp0 v
    | PAAnb _ a o b => PAAnb sp0 a o b
    | PASel _ sels => PASel sp0 (map (fun s => (sp0, map stripPart (snd s))) sels)
    end in
  match p with
  | SWhitespace _ => SWhitespace sp0
  | SType _ n => SType sp0 n
  | SClass _ n => SClass sp0 n
  | SId _ n => SId sp0 n
  | SComb _ o => SComb sp0 o
  | SPseudo _ n a => SPseudo sp0 n (args a)
  | SPseudoEl _ _ n a => SPseudoEl sp0 sp0 n (args a)
  | SAttr _ p o v m => SAttr sp0 p o (stripValue v) m
  end.
Definition stripSel (s : selector) : selector := (sp0, map stripPart (snd s)).
Definition stripKey (k : keysel) : keysel :=
  match k with KPercent _ v => KPercent sp0 v | KIdent _ v => KIdent sp0 v end.
Definition stripPrelude (p : prelude) : prelude :=
  match p with
  | PrNil => PrNil
  | PrSel (_, l) => PrSel (sp0, map stripSel l)
  | PrKey _ ks => PrKey sp0 (map stripKey ks)
  end.
Definition stripDecl (d : decl) : decl :=
  match d with
  | DDecl _ p vs i => DDecl sp0 p (map stripValue vs) i
  | DRaw _ v => DRaw sp0 v
  end.
Definition stripRule (r : qrule) : qrule :=
  mkRule 0 sp0 (stripPrelude (r_prelude r)) sp0 (map stripDecl (r_decls r)).
Definition stripQPart (p : mqpart) : mqpart :=
  match p with
  | MIdent _ v => MIdent sp0 v
  | MPlain _ _ p v => MPlain sp0 sp0 p (stripValue v)
  | MRange _ _ p a o b => MRange sp0 sp0 p (stripValue a) o (stripValue b)
  end.
Definition stripQuery (q : mquery) : mquery := (sp0, map stripQPart (snd q)).
Definition stripAtPrelude (p : atprelude) : atprelude :=
  match p with
  | APString _ v => APString sp0 v
  | APIdent _ v => APIdent sp0 v
  | APMql l => APMql (sp0, map stripQuery (snd l))
  | APNilMql => APNilMql
  | APMq q => APMq (stripQuery q)
  end.
Definition stripBlock (b : block) : block :=
  match b with
  | BDecls _ ds => BDecls sp0 (map stripDecl ds)
  | BRules _ rs => BRules sp0 (map stripRule rs)
  end.
Definition stripAt (a : atrule) : atrule :=
  mkAt 0 sp0 (ar_name a) (map stripAtPrelude (ar_preludes a)) (option_map stripBlock (ar_block a)).
Definition stripNode (n : node) : node :=
  match n with NRule r => NRule (stripRule r) | NAt a => NAt (stripAt a) end.
Definition strip (ns : list node) : list node := map stripNode ns.
