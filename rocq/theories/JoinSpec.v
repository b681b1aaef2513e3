(** A tree whose text is elsewhere: every position is moved, everything else
    stays. *)
From Verif Require Import Bytes Utf8 Source Ast.

(** Where a start and where an end is moved to. *)
Record shift := mkShift { sh_from : nat -> nat; sh_upto : nat -> nat }.
(** The text comes [k] bytes later. *)
Definition later (k : nat) : shift := mkShift (Nat.add k) (Nat.add k).
(** [k] bytes come between at offset [a]: what starts there is moved, what ends
    there is not. *)
Definition spread (a k : nat) : shift :=
  mkShift (fun x => if (x <? a)%nat then x else (k + x)%nat) (fun x => if (x <=? a)%nat then x else (k + x)%nat).

Section Moved.
Variable k : shift.
(** A span that ends at 0 is no place in the file (the address of an unquoted
    url has none), and stays. *)
Definition moveSpan (sp : span) : span :=
  if Nat.eqb (sp_end sp) 0 then sp else mkSpan (sh_from k (sp_start sp)) (sh_upto k (sp_end sp)).
Fixpoint moveValue (v : value) : value :=
  match v with
  | VNil => VNil
  | VString sp s => VString (moveSpan sp) s
  | VDim sp n u => VDim (moveSpan sp) n u
  | VIdent sp s => VIdent (moveSpan sp) s
  | VHex sp s => VHex (moveSpan sp) s
  | VBrackets sp vs => VBrackets (moveSpan sp) (map moveValue vs)
  | VFunc sp n vs => VFunc (moveSpan sp) n (map moveValue vs)
  | VMath sp o a b => VMath (moveSpan sp) o (moveValue a) (moveValue b)
  | VMathParen sp v => VMathParen (moveSpan sp) (moveValue v)
  | VComma sp => VComma (moveSpan sp)
  | VRaw sp s => VRaw (moveSpan sp) s
  end.
Fixpoint movePart (p : selpart) : selpart :=
  let args (a : pargs selpart) : pargs selpart :=
    match a with
    | PANone => PANone
    | PAIdent sp v => PAIdent (moveSpan sp) v
    | PAAnb sp a o b => PAAnb (moveSpan sp) a o b
    | PASel sp sels => PASel (moveSpan sp) (map (fun s => (moveSpan (fst s), map movePart (snd s))) sels)
    end in
  match p with
  | SWhitespace sp => SWhitespace (moveSpan sp)
  | SType sp n => SType (moveSpan sp) n
  | SClass sp n => SClass (moveSpan sp) n
  | SId sp n => SId (moveSpan sp) n
  | SComb sp o => SComb (moveSpan sp) o
  | SPseudo sp n a => SPseudo (moveSpan sp) n (args a)
  | SPseudoEl sp isp n a => SPseudoEl (moveSpan sp) (moveSpan isp) n (args a)
  | SAttr sp p o v m => SAttr (moveSpan sp) p o (moveValue v) m
  end.
Definition moveArgs (a : pargs selpart) : pargs selpart :=
  match a with
  | PANone => PANone
  | PAIdent sp v => PAIdent (moveSpan sp) v
  | PAAnb sp a o b => PAAnb (moveSpan sp) a o b
  | PASel sp sels => PASel (moveSpan sp) (map (fun s => (moveSpan (fst s), map movePart (snd s))) sels)
  end.
Definition moveSel (s : selector) : selector := (moveSpan (fst s), map movePart (snd s)).
Definition moveKey (x : keysel) : keysel :=
  match x with KPercent sp v => KPercent (moveSpan sp) v | KIdent sp v => KIdent (moveSpan sp) v end.
Definition movePrelude (p : prelude) : prelude :=
  match p with
  | PrNil => PrNil
  | PrSel (sp, l) => PrSel (moveSpan sp, map moveSel l)
  | PrKey sp ks => PrKey (moveSpan sp) (map moveKey ks)
  end.
Definition moveDecl (d : decl) : decl :=
  match d with
  | DDecl sp p vs i => DDecl (moveSpan sp) p (map moveValue vs) i
  | DRaw sp v => DRaw (moveSpan sp) v
  end.
Definition moveRule (r : qrule) : qrule :=
  mkRule (r_run r) (moveSpan (r_sp r)) (movePrelude (r_prelude r)) (moveSpan (r_bsp r)) (map moveDecl (r_decls r)).
Definition moveQPart (p : mqpart) : mqpart :=
  match p with
  | MIdent sp v => MIdent (moveSpan sp) v
  | MPlain sp psp p v => MPlain (moveSpan sp) (moveSpan psp) p (moveValue v)
  | MRange sp psp p a o b => MRange (moveSpan sp) (moveSpan psp) p (moveValue a) o (moveValue b)
  end.
Definition moveQuery (q : mquery) : mquery := (moveSpan (fst q), map moveQPart (snd q)).
Definition moveAtPrelude (p : atprelude) : atprelude :=
  match p with
  | APString sp v => APString (moveSpan sp) v
  | APIdent sp v => APIdent (moveSpan sp) v
  | APMql (sp, qs) => APMql (moveSpan sp, map moveQuery qs)
  | APNilMql => APNilMql
  | APMq q => APMq (moveQuery q)
  end.
Definition moveBlock (b : block) : block :=
  match b with
  | BDecls sp ds => BDecls (moveSpan sp) (map moveDecl ds)
  | BRules sp rs => BRules (moveSpan sp) (map moveRule rs)
  end.
Definition moveAt (a : atrule) : atrule :=
  mkAt (ar_run a) (moveSpan (ar_sp a)) (ar_name a) (map moveAtPrelude (ar_preludes a)) (option_map moveBlock (ar_block a)).
Definition moveNode (n : node) : node :=
  match n with NRule r => NRule (moveRule r) | NAt a => NAt (moveAt a) end.
End Moved.
