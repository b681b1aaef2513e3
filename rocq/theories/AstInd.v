(** Induction principles for the nested syntax tree types. *)
From Verif Require Import Bytes Utf8 Source Ast.

Section V.
Variable P : value -> Prop.
Hypothesis hNil : P VNil.
Hypothesis hString : forall sp v, P (VString sp v).
Hypothesis hDim : forall sp v u, P (VDim sp v u).
Hypothesis hIdent : forall sp v, P (VIdent sp v).
Hypothesis hHex : forall sp v, P (VHex sp v).
Hypothesis hBrackets : forall sp vs, Forall P vs -> P (VBrackets sp vs).
Hypothesis hFunc : forall sp n vs, Forall P vs -> P (VFunc sp n vs).
Hypothesis hMath : forall sp o l r, P l -> P r -> P (VMath sp o l r).
Hypothesis hParen : forall sp v, P v -> P (VMathParen sp v).
Hypothesis hComma : forall sp, P (VComma sp).
Hypothesis hRaw : forall sp v, P (VRaw sp v).
Fixpoint value_ind' (v : value) : P v :=
  let go := fix go (l : list value) : Forall P l :=
    match l with [] => Forall_nil _ | x :: r => Forall_cons x (value_ind' x) (go r) end in
  match v with
  | VNil => hNil
  | VString sp v => hString sp v
  | VDim sp v u => hDim sp v u
  | VIdent sp v => hIdent sp v
  | VHex sp v => hHex sp v
  | VBrackets sp vs => hBrackets sp vs (go vs)
  | VFunc sp n vs => hFunc sp n vs (go vs)
  | VMath sp o l r => hMath sp o l r (value_ind' l) (value_ind' r)
  | VMathParen sp v => hParen sp v (value_ind' v)
  | VComma sp => hComma sp
  | VRaw sp v => hRaw sp v
  end.
End V.

(** The parts inside the arguments of a pseudo class. *)
Definition argParts (a : pargs selpart) : list (span * list selpart) :=
  match a with PASel _ sels => sels | _ => [] end.

Section S.
Variable P : selpart -> Prop.
Hypothesis hWs : forall sp, P (SWhitespace sp).
Hypothesis hType : forall sp n, P (SType sp n).
Hypothesis hClass : forall sp n, P (SClass sp n).
Hypothesis hId : forall sp n, P (SId sp n).
Hypothesis hComb : forall sp o, P (SComb sp o).
Hypothesis hPseudo : forall sp n a, Forall (fun s => Forall P (snd s)) (argParts a) -> P (SPseudo sp n a).
Hypothesis hPseudoEl : forall sp isp n a, Forall (fun s => Forall P (snd s)) (argParts a) -> P (SPseudoEl sp isp n a).
Hypothesis hAttr : forall sp p o v m, P (SAttr sp p o v m).
Fixpoint selpart_ind' (p : selpart) : P p :=
  let go := fix go (l : list selpart) : Forall P l :=
    match l with [] => Forall_nil _ | x :: r => Forall_cons x (selpart_ind' x) (go r) end in
  let gos := fix gos (l : list (span * list selpart)) : Forall (fun s => Forall P (snd s)) l :=
    match l with
    | [] => Forall_nil _
    | x :: r => Forall_cons x (match x as x0 return Forall P (snd x0) with (_, ps) => go ps end) (gos r)
    end in
  let goa (a : pargs selpart) : Forall (fun s => Forall P (snd s)) (argParts a) :=
    match a return Forall (fun s => Forall P (snd s)) (argParts a) with
    | PASel _ sels => gos sels
    | _ => Forall_nil _
    end in
  match p with
  | SWhitespace sp => hWs sp
  | SType sp n => hType sp n
  | SClass sp n => hClass sp n
  | SId sp n => hId sp n
  | SComb sp o => hComb sp o
  | SPseudo sp n a => hPseudo sp n a (goa a)
  | SPseudoEl sp isp n a => hPseudoEl sp isp n a (goa a)
  | SAttr sp p o v m => hAttr sp p o v m
  end.
End S.
