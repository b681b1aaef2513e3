(** internal/printer/printer.go.

    The printer only ever appends to its output builder and calls addMapping,
    which reads what was written so far.  [printX] returns the sequence of
    these operations in order ([None]: a run-time panic, which Print turns into
    an error, printer.go:37-47); [runOps] executes them. *)
From Verif Require Import Bytes Utf8 Source Ast Vlq.

Inductive op :=
| W (s : bytes)        (* p.s.WriteString / WriteRune *)
| M (sp : span).       (* p.addMapping(span) *)
Definition ops := option (list op).
Definition w (s : string) : ops := Some [W (B s)].
Arguments w s%string.
Definition ws (s : bytes) : ops := Some [W s].
Definition cat (a b : ops) : ops :=
  match a, b with Some x, Some y => Some (x ++ y) | _, _ => None end.
Infix "+++" := cat (at level 60, right associativity).
Definition nop : ops := Some [].

(** Elements separated by [sep] except after the last one (the
    [if i+1 < len(...)] pattern, e.g. printer.go:140-146). *)
Definition sepBy {A} (sep : ops) (f : A -> ops) : list A -> ops :=
  fix go l :=
  match l with
  | [] => nop
  | x :: r => match r with [] => f x | _ => f x +++ sep +++ go r end
  end.
Definition all {A} (f : A -> ops) : list A -> ops :=
  fix go l := match l with [] => nop | x :: r => f x +++ go r end.

(** The value cases of print, printer.go:214-260,301-303,377-378.  A nil value
    reaches the default case: reflect.TypeOf(nil).String() is a nil
    dereference (printer.go:381). *)
Fixpoint printValue (v : value) : ops :=
  match v with
  | VNil => None
  | VComma _ => w ","
  | VDim _ n u => ws n +++ ws u
  | VString _ s => w """" +++ ws s +++ w """"
  | VIdent _ s => ws s
  | VFunc _ n args => ws n +++ w "(" +++ all printValue args +++ w ")"
  | VBrackets _ vs => w "[" +++ sepBy (w " ") printValue vs +++ w "]"
  | VMathParen _ v => w "(" +++ printValue v +++ w ")"
  | VMath _ o l r => printValue l +++ ws o +++ printValue r
  | VHex _ s => w "#" +++ ws s
  | VRaw _ s => ws s
  end.

Definition isComma (v : value) : bool := match v with VComma _ => true | _ => false end.

(** Values of a declaration, printer.go:196-208. *)
Fixpoint printValues (vs : list value) : ops :=
  match vs with
  | [] => nop
  | v :: r =>
    match r with
    | [] => printValue v
    | v' :: _ =>
      printValue v +++ (if negb (isComma v') && negb (isComma v) then w " " else nop) +++ printValues r
    end
  end.

(** ANPlusB, printer.go:314-335. *)
Definition printAnb (a o b : bytes) : ops :=
  let w1 := negb (isEmpty a) && negb (beq a (B "1")) && negb (beq a (B "0")) in
  let o1 := if w1 then
              if beq a (B "-1") then w "-"
              else if hasPrefix (B "+") a then ws (skipn 1 a)
              else ws a
            else nop in
  let w2 := negb (beq a (B "0")) in
  let o2 := if w2 then w "n" else nop in
  let o3 := if negb (isEmpty b) && negb (beq b (B "0")) then
              (if w1 || w2 then ws o else nop) +++ ws b
            else nop in
  o1 +++ o2 +++ o3.

Definition isWs (p : selpart) : bool := match p with SWhitespace _ => true | _ => false end.

(** Selector parts, printer.go:262-312.  A selector does not print a trailing
    whitespace part (printer.go:265-272). *)
Fixpoint printPart (p : selpart) : ops :=
  let printSel :=
    (fix go (l : list selpart) : ops :=
       match l with
       | [] => nop
       | p :: r =>
         match r with
         | [] => if isWs p then nop else printPart p
         | _ => printPart p +++ go r
         end
       end) in
  let printArgs (a : pargs selpart) : ops :=
    match a with
    | PANone => nop
    | PAIdent _ v => w "(" +++ ws v +++ w ")"
    | PAAnb _ a o b => w "(" +++ printAnb a o b +++ w ")"
    | PASel _ sels =>
      w "(" +++
      (fix go (l : list (span * list selpart)) : ops :=
         match l with
         | [] => nop
         | (_, ps) :: r =>
           match r with
           | [] => printSel ps
           | _ => printSel ps +++ w "," +++ go r
           end
         end) sels +++ w ")"
    end in
  match p with
  | SWhitespace _ => w " "
  | SType _ n => ws n
  | SClass _ n => w "." +++ ws n
  | SId _ n => w "#" +++ ws n
  | SComb _ o => ws o
  | SPseudo _ n a => w ":" +++ ws n +++ printArgs a
  | SPseudoEl _ _ n a => w ":" +++ w ":" +++ ws n +++ printArgs a
  | SAttr _ prop _ v _ =>
    w "[" +++ ws prop +++ (if isNil v then nop else w "=" +++ printValue v) +++ w "]"
  end.

Fixpoint printParts (l : list selpart) : ops :=
  match l with
  | [] => nop
  | p :: r =>
    match r with
    | [] => if isWs p then nop else printPart p
    | _ => printPart p +++ printParts r
    end
  end.
Definition printSelector (s : selector) : ops := printParts (snd s).
(** printer.go:157-164. *)
Definition printSelList (l : list selector) : ops := sepBy (w ",") printSelector l.

(** printer.go:221-223 and 230-231. *)
Definition printKey (k : keysel) : ops :=
  match k with KPercent _ v => ws v +++ w "%" | KIdent _ v => ws v end.

(** A nil prelude is the nil dereference of printer.go:381; keyframe selectors
    are printed without separator, printer.go:166-169. *)
Definition printPrelude (p : prelude) : ops :=
  match p with
  | PrNil => None
  | PrSel (_, l) => printSelList l
  | PrKey _ ks => all printKey ks
  end.

(** printer.go:193-212,377-378. *)
Definition printDecl (d : decl) : ops :=
  match d with
  | DDecl _ prop vs imp =>
    ws prop +++ w ":" +++ printValues vs +++ (if imp then w "!important" else nop)
  | DRaw _ v => ws v
  end.
(** printer.go:184-191. *)
Definition printDecls (ds : list decl) : ops := sepBy (w ";") printDecl ds.

(** printer.go:171-177. *)
Definition printRule (r : qrule) : ops :=
  Some [M (r_sp r)] +++ printPrelude (r_prelude r) +++ w "{" +++ printDecls (r_decls r) +++ w "}".

(** printer.go:355-375. *)
Definition printMqPart (p : mqpart) : ops :=
  match p with
  | MIdent _ v => ws v
  | MPlain _ _ prop v =>
    w "(" +++ ws prop +++ (if isNil v then nop else w ":" +++ printValue v) +++ w ")"
  | MRange _ _ prop l o r =>
    w "(" +++ (if isNil l then nop else printValue l +++ ws o) +++ ws prop
    +++ (if isNil r then nop else ws o +++ printValue r) +++ w ")"
  end.
(** printer.go:346-353 and 337-344. *)
Definition printMq (q : mquery) : ops := sepBy (w " ") printMqPart (snd q).
Definition printMql (l : mqlist) : ops := sepBy (w ",") printMq (snd l).

(** The typed nil list panics on [node.Queries], printer.go:338. *)
Definition printAtPrelude (p : atprelude) : ops :=
  match p with
  | APString _ v => w """" +++ ws v +++ w """"
  | APIdent _ v => ws v
  | APMql l => printMql l
  | APNilMql => None
  | APMq q => printMq q
  end.

(** printer.go:179-191. *)
Definition printBlock (b : block) : ops :=
  match b with
  | BDecls _ ds => printDecls ds
  | BRules _ rs => all printRule rs
  end.

(** printer.go:134-155. *)
Definition printAt (a : atrule) : ops :=
  Some [M (ar_sp a)] +++ w "@" +++ ws (ar_name a)
  +++ (match ar_preludes a with [] => nop | ps => w " " +++ sepBy (w " ") printAtPrelude ps end)
  +++ (match ar_block a with Some b => w "{" +++ printBlock b +++ w "}" | None => w ";" end).

Definition printNode (n : node) : ops :=
  match n with NRule r => printRule r | NAt a => printAt a end.
(** printer.go:129-132. *)
Definition printNodes (l : list node) : ops := all printNode l.

(** printer, printer.go:14-27. *)
Record pstate := mkP {
  p_s : bytes; p_map : bytes; p_lastWritten : nat;
  p_gc : Z; p_ol : Z; p_oc : Z }.    (* lastMappingState *)

(** The loop of addMapping, printer.go:96-105: from the runes written since
    the last mapping, (generatedColumn of lastMappingState, of newState,
    semicolons appended). *)
Fixpoint mapLoop (last new : Z) (rs : list Z) : Z * Z * bytes :=
  match rs with
  | [] => (last, new, [])
  | r :: rest =>
    if r =? 10 then let '(a, b, m) := mapLoop 0 0 rest in (a, b, B ";" ++ m)
    else mapLoop last (wrap32 (new + 1)) rest
  end.

(** addMapping, printer.go:85-124. *)
Definition addMapping (src : option source) (p : pstate) (loc : span) : option pstate :=
  match src with
  | None => Some p
  | Some s =>
    match lineAndCol s loc with
    | None => None
    | Some (line, col) =>
      let ol := wrap32 (line - 1) in
      let oc := wrap32 (col - 1) in
      let '(lastgc, newgc, semis) := mapLoop (p_gc p) (p_gc p) (runes (skipn (p_lastWritten p) (p_s p))) in
      let m1 := p_map p ++ semis in
      let m2 :=
        if (0 <? length (p_s p))%nat then
          match rev m1 with
          | [] => None                       (* index -1, printer.go:108 *)
          | b :: _ => Some (if Byte.eqb b ";"%byte then m1 else m1 ++ B ",")
          end
        else Some m1 in
      match m2 with
      | None => None
      | Some m2 =>
        Some (mkP (p_s p)
                  (m2 ++ vlqEncode (wrap32 (newgc - lastgc)) ++ vlqEncode 0
                      ++ vlqEncode (wrap32 (ol - p_ol p)) ++ vlqEncode (wrap32 (oc - p_oc p)))
                  (length (p_s p)) newgc ol oc)
      end
    end
  end.

Fixpoint runOps (src : option source) (p : pstate) (l : list op) : option pstate :=
  match l with
  | [] => Some p
  | W s :: r => runOps src (mkP (p_s p ++ s) (p_map p) (p_lastWritten p) (p_gc p) (p_ol p) (p_oc p)) r
  | M sp :: r => match addMapping src p sp with Some p' => runOps src p' r | None => None end
  end.

(** base64.StdEncoding.EncodeToString (standard library). *)
Fixpoint base64Std (s : bytes) : bytes :=
  match s with
  | [] => []
  | [a] => let n := bz a in
    [b64at (n / 4); b64at ((n mod 4) * 16)] ++ B "=="
  | [a; b] => let n := bz a * 256 + bz b in
    [b64at (n / 1024); b64at (n / 16 mod 64); b64at ((n mod 16) * 4)] ++ B "="
  | a :: b :: c :: r => let n := bz a * 65536 + bz b * 256 + bz c in
    [b64at (n / 262144); b64at (n / 4096 mod 64); b64at (n / 64 mod 64); b64at (n mod 64)] ++ base64Std r
  end.

(** json.Marshal of a string (standard library, encodeState.string with HTML
    escaping, Go 1.14): the escape of one rune.  [n] is the rune's width; an invalid
    byte is a RuneError of width 1. *)
Definition hexDigit (z : Z) : byte := nth (Z.to_nat z) (B "0123456789abcdef") Byte.x00.
Definition jsonRune (r : Z) (n : nat) (raw : bytes) : bytes :=
  if r =? 34 then B "\""" else if r =? 92 then B "\\"
  else if r =? 10 then B "\n" else if r =? 13 then B "\r" else if r =? 9 then B "\t"
  else if (r <? 32) || (r =? 60) || (r =? 62) || (r =? 38)
  then B "\u00" ++ [hexDigit (r / 16); hexDigit (r mod 16)]
  else if (r =? runeError) && (n =? 1)%nat then B "\ufffd"
  else if (r =? 8232) || (r =? 8233) then B "\u202" ++ [hexDigit (r mod 16)]
  else raw.
Fixpoint jsonBody (fuel : nat) (s : bytes) : bytes :=
  match fuel, s with
  | O, _ | _, [] => []
  | S f, _ => let (r, n) := decodeRune s in jsonRune r n (firstn n s) ++ jsonBody f (skipn n s)
  end.
Definition jsonString (s : bytes) : bytes := B """" ++ jsonBody (length s) s ++ B """".

(** printMapping, printer.go:59-81. *)
Definition mappingJson (s : source) (mappings : bytes) : bytes :=
  B "{""version"": 3,""file"":""" ++ src_path s
  ++ B """,""sourceRoot"":"""", ""sources"": [""source.css""], ""sourcesContent"":["
  ++ jsonString (src_content s)
  ++ B "],""names"":[],""mappings"":""" ++ mappings ++ B """}".
Definition printMapping (src : option source) (p : pstate) : bytes :=
  match src with
  | None => []
  | Some s =>
    [Byte.x0a] ++ B "/*# sourceMappingURL=data:application/json;base64,"
    ++ base64Std (mappingJson s (p_map p)) ++ B " */" ++ [Byte.x0a]
  end.

(** Print, printer.go:36-57, on a stylesheet.  [None]: a non-nil error. *)
Definition p0 : pstate := mkP [] [] 0 0 0 0.
Definition print (src : option source) (ns : list node) : option bytes :=
  match printNodes ns with
  | None => None
  | Some l =>
    match runOps src p0 l with
    | None => None
    | Some p => Some (p_s p ++ printMapping src p)
    end
  end.
