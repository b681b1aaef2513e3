(** internal/transformer/transformer.go and transforms/*.go.

    The transformer mutates the tree it is given; on a tree that nothing else
    refers to (the result of one Parse) this is the same as returning a new
    tree, which is what the model does.  Sharing of imported trees between
    importers is modelled in Compile.v. *)
From Verif Require Import Bytes Utf8 Source Lexer Ast.

(** float64 arithmetic together with strconv.ParseFloat(s, 10) (which parses
    as float64) and strconv.FormatFloat(f, 'f', -1, 64).  It is abstract: every
    theorem quantifies over it and states the laws it needs. *)
Class FloatOps := {
  F : Type;
  fparse : bytes -> option F;      (* None: a non-nil error *)
  fformat : F -> bytes;
  fadd : F -> F -> F; fsub : F -> F -> F; fmul : F -> F -> F; fdiv : F -> F -> F;
  fisZero : F -> bool;
  fthousandth : F;                 (* .001 *)
  fneg : F -> F                    (* -.001 is the negation of .001 *)
}.

(** transforms.Options, transforms/transforms.go:4-89. *)
Inductive importRules := ImportPassthrough | ImportFollow | ImportInline.
Record topts := mkOpts {
  o_imports : importRules;
  o_ranges : bool;      (* MediaFeatureRangesTransform *)
  o_anylink : bool;     (* AnyLinkTransform *)
  o_props : bool;       (* CustomPropertiesTransformRoot *)
  o_cmedia : bool;      (* CustomMediaQueriesTransform *)
  o_calc : bool }.      (* CalcReductionReduce *)

(** A call to Reporter.AddError: warning flag, location, message (without the
    rendering of logging.locationError). *)
Record report := mkReport { rp_warn : bool; rp_sp : span; rp_msg : bytes }.

(** The mutable part of [transformer], transformer.go:62-67.  A Go map is an
    association list, latest binding first; [None] is the nil map. *)
Record tstate := mkT {
  t_vars : option (list (bytes * list value));
  t_cmedia : option (list (bytes * mquery));
  t_reports : list report }.

Fixpoint lookup {A} (k : bytes) (m : list (bytes * A)) : option A :=
  match m with
  | [] => None
  | (k', v) :: r => if beq k k' then Some v else lookup k r
  end.

(** Outcome of a piece of transformer code: a value and the new state, a Go
    panic, or exhaustion of the model's recursion fuel. *)
Inductive tres (A : Type) :=
| TOk (a : A) (t : tstate)
| TCrash
| TTimeout.
Arguments TOk {A} a t. Arguments TCrash {A}. Arguments TTimeout {A}.
Definition TM (A : Type) := tstate -> tres A.
Definition tret {A} (a : A) : TM A := fun t => TOk a t.
Definition tbind {A C} (m : TM A) (k : A -> TM C) : TM C :=
  fun t => match m t with TOk a t' => k a t' | TCrash => TCrash | TTimeout => TTimeout end.
Definition tcrash {A} : TM A := fun _ => TCrash.
Definition ttimeout {A} : TM A := fun _ => TTimeout.
Notation "x <~ m ;; k" := (tbind m (fun x => k))
  (at level 61, m at next level, right associativity).

(** t.Reporter.AddError.  The reporter is assumed not to call back into the
    compiler.  Rendering the message is not part of the call here; whether it
    can panic is C52. *)
Definition treport (r : report) : TM unit :=
  fun t => TOk tt (mkT (t_vars t) (t_cmedia t) (t_reports t ++ [r])).
(** addError / addWarn on a value, transformer.go:69-75; Location() of a nil
    interface is a nil dereference. *)
Definition addErrorAt (warn : bool) (v : value) (msg : bytes) : TM unit :=
  match valueSpan v with
  | None => tcrash
  | Some sp => treport (mkReport warn sp msg)
  end.

(** transformSelectors, transformer.go:77-109.  [duplicate] shares the Parts
    array of [n], so each :any-link writes :visited into the array all earlier
    duplicates show; [n] itself gets a fresh array.  Hence k occurrences give
    k copies with every :any-link replaced by :visited, then one with :link.
    The new parts have the zero span. *)
Definition zsp : span := mkSpan 0 0.
Definition isAnyLink (p : selpart) : bool :=
  match p with SPseudo _ n _ => beq n (B "any-link") | _ => false end.
Definition setPseudo (name : bytes) (p : selpart) : selpart :=
  if isAnyLink p then SPseudo zsp name PANone else p.
Definition transformSelector (s : selector) : list selector :=
  let '(sp, parts) := s in
  let k := length (filter isAnyLink parts) in
  repeat (sp, map (setPseudo (B "visited")) parts) k ++ [(sp, map (setPseudo (B "link")) parts)].
Definition transformSelectors (o : topts) (l : list selector) : list selector :=
  if o_anylink o then flat_map transformSelector l else l.

Definition isRootPseudo (p : selpart) : bool :=
  match p with SPseudo _ n _ => beq n (B "root") | _ => false end.

(** The :root scan, transformer.go:116-165, on the declarations of the rule. *)
Fixpoint collectRoot (ds : list decl) : TM (list decl) :=
  match ds with
  | [] => tret []
  | d :: r =>
    match d with
    | DDecl _ prop vals _ =>
      fun t =>
        match t_vars t with
        | Some m =>
          if hasPrefix (B "--") prop
          then collectRoot r (mkT (Some ((prop, vals) :: m)) (t_cmedia t) (t_reports t))
          else (r' <~ collectRoot r ;; tret (d :: r')) t
        | None => (r' <~ collectRoot r ;; tret (d :: r')) t
        end
    | DRaw _ _ => r' <~ collectRoot r ;; tret (d :: r')
    end
  end.
Definition scanRoot (pr : prelude) (ds : list decl) : TM (list decl) :=
  match pr with
  | PrSel (_, sels) =>
    if existsb (fun s : selector => negb (length (snd s) =? 1)%nat) sels then
      match sels with
      | [] => tret ds
      | (_, []) :: _ => tcrash     (* Parts[0] out of range *)
      | (_, p :: _) :: _ => if isRootPseudo p then collectRoot ds else tret ds
      end
    else tret ds
  | _ => tret ds
  end.

Section WithFloats.
Context {FO : FloatOps}.
Variable o : topts.

(** reflect.TypeOf(v).String(). *)
Definition typeName (v : value) : bytes :=
  match v with
  | VNil => [] | VString _ _ => B "*ast.String" | VDim _ _ _ => B "*ast.Dimension"
  | VIdent _ _ => B "*ast.Identifier" | VHex _ _ => B "*ast.HexColor"
  | VBrackets _ _ => B "*ast.Brackets" | VFunc _ _ _ => B "*ast.Function"
  | VMath _ _ _ _ => B "*ast.MathExpression"
  | VMathParen _ _ => B "*ast.MathParenthesizedExpression"
  | VComma _ => B "*ast.Comma" | VRaw _ _ => B "*ast.Raw"
  end.

(** addToValue, transformer.go:248-266; [None] is diff = 0. *)
Definition addToValue (v : value) (diff : option F) : TM value :=
  match diff with
  | None => tret v
  | Some d =>
    match v with
    | VDim _ n u =>
      match fparse n with
      | None =>
        _ <~ addErrorAt false v (B "could not parse dimension value to lower media range: " ++ n) ;; tret v
      | Some f => tret (VDim zsp (fformat (fadd f d)) u)
      end
    | _ =>
      _ <~ addErrorAt false v (B "tried to modify non-numeric value. expected dimension, percentage, or number, but got: " ++ typeName v) ;;
      tret v
    end
  end.

(** The two operator switches of transformMediaFeatureRange,
    transformer.go:278-289 and 305-316: direction and diff. *)
Definition leftDir (op : bytes) : bytes * option F :=
  if beq op (B ">") then (B "max", Some (fneg fthousandth))
  else if beq op (B ">=") then (B "max", None)
  else if beq op (B "<") then (B "min", Some fthousandth)
  else if beq op (B "<=") then (B "min", None)
  else ([], None).
Definition rightDir (op : bytes) : bytes * option F :=
  if beq op (B ">") then (B "min", Some fthousandth)
  else if beq op (B ">=") then (B "min", None)
  else if beq op (B "<") then (B "max", Some (fneg fthousandth))
  else if beq op (B "<=") then (B "max", None)
  else ([], None).

(** transformMediaFeatureRange, transformer.go:268-326. *)
Definition transformRange (p : mqpart) (psp : span) (prop : bytes) (lv : value) (op : bytes) (rv : value)
  : TM (list mqpart) :=
  if negb (o_ranges o) then tret [p] else
  left <~ (if isNil lv then tret [] else
             let '(dir, diff) := leftDir op in
             v <~ addToValue lv diff ;;
             tret [MPlain zsp zsp (dir ++ B "-" ++ prop) v]) ;;
  right <~ (if isNil rv then tret [] else
              let '(dir, diff) := rightDir op in
              v <~ addToValue rv diff ;;
              tret ((if isNil lv then [] else [MIdent zsp (B "and")])
                      ++ [MPlain zsp zsp (dir ++ B "-" ++ prop) v])) ;;
  tret (left ++ right).

(** transformMediaQueryParts, transformer.go:328-359. *)
Fixpoint transformMqParts (ps : list mqpart) : TM (list mqpart) :=
  match ps with
  | [] => tret []
  | p :: r =>
    here <~ match p with
            | MPlain _ _ prop v =>
              if negb (isNil v) || negb (hasPrefix (B "--") prop) then tret [p] else
              fun t => match t_cmedia t with
                       | None => TOk [p] t
                       | Some m => match lookup prop m with
                                   | None => TOk [p] t
                                   | Some (_, parts) => TOk parts t
                                   end
                       end
            | MRange _ psp prop lv op rv => transformRange p psp prop lv op rv
            | MIdent _ _ => tret [p]
            end ;;
    rest <~ transformMqParts r ;;
    tret (here ++ rest)
  end.

(** transformMediaQueries, transformer.go:237-244. *)
Fixpoint transformMqs (qs : list mquery) : TM (list mquery) :=
  match qs with
  | [] => tret []
  | (sp, ps) :: r =>
    ps' <~ transformMqParts ps ;;
    r' <~ transformMqs r ;;
    tret ((sp, ps') :: r')
  end.

(** doMath, transformer.go:493-518. *)
Definition doMath (l r op : bytes) : F + bytes :=
  match fparse l with
  | None => inr (B "could not parse dimension value: " ++ l)
  | Some a =>
    match fparse r with
    | None => inr (B "could not parse dimension value: " ++ r)
    | Some b =>
      if beq op (B "+") then inl (fadd a b)
      else if beq op (B "-") then inl (fsub a b)
      else if beq op (B "*") then inl (fmul a b)
      else if beq op (B "/") then
        if fisZero b then inr (B "cannot divide by zero") else inl (fdiv a b)
      else inr (B "unknown op: " ++ op)
    end
  end.

(** The last lines of each case of evaluateMathExpression (e.g.
    transformer.go:560-569); the nil result is [VNil]. *)
Definition mathResult (at_ : value) (res : F + bytes) (u : bytes) : TM value :=
  match res with
  | inr msg => _ <~ addErrorAt false at_ msg ;; tret VNil
  | inl f => tret (VDim zsp (fformat f) u)
  end.

(** evaluateMathExpression after the reduction of its two sides,
    transformer.go:536-645. *)
Definition combine (l r : value) (op : bytes) : TM value :=
  if beq op (B "+") || beq op (B "-") then
    match l with
    | VDim _ lv lu =>
      match r with
      | VDim _ rv ru =>
        if negb (beq lu ru) then
          _ <~ (if isEmpty lu && negb (isEmpty ru)
                then addErrorAt false l (B "cannot add number type and " ++ ru ++ B " type together") else tret tt) ;;
          _ <~ (if negb (isEmpty lu) && isEmpty ru
                then addErrorAt false l (B "cannot add number type and " ++ lu ++ B " type together") else tret tt) ;;
          tret VNil
        else mathResult l (doMath lv rv op) lu
      | _ => tret VNil
      end
    | _ => _ <~ addErrorAt false l (B "cannot perform " ++ op ++ B " on this type") ;; tret VNil
    end
  else if beq op (B "*") then
    match l, r with
    | VDim _ lv lu, VDim _ rv ru =>
      if negb (isEmpty lu) && negb (isEmpty ru) then
        _ <~ addErrorAt false l (B "one side of multiplication must be a number (non-percentage/dimension)") ;; tret VNil
      else if isEmpty lu then mathResult l (doMath rv lv op) ru
      else mathResult l (doMath lv rv op) lu
    | _, _ => tret VNil
    end
  else if beq op (B "/") then
    let bad := _ <~ addErrorAt false l (B "right side of division must be a number (non-percentage/dimension)") ;; tret VNil in
    match r with
    | VDim _ rv ru =>
      if negb (isEmpty ru) then bad else
      match l with
      | VDim _ lv lu => mathResult l (doMath lv rv op) lu
      | _ => _ <~ addErrorAt false l (B "cannot perform " ++ op ++ B " on this type") ;; tret VNil
      end
    | _ => bad
    end
  else _ <~ addErrorAt false l (B "unknown op: " ++ op) ;; tret VNil.

(** The reduction of one side, transformer.go:524-534 (recursively a call to
    evaluateMathExpression). *)
Fixpoint reduceSide (v : value) : TM value :=
  match v with
  | VMath _ op l r =>
    l' <~ reduceSide l ;;
    r' <~ reduceSide r ;;
    e <~ combine l' r' op ;;
    tret (if isNil e then v else e)
  | _ => tret v
  end.
(** evaluateMathExpression, transformer.go:523-646. *)
Definition evaluateMathExpression (l r : value) (op : bytes) : TM value :=
  l' <~ reduceSide l ;;
  r' <~ reduceSide r ;;
  combine l' r' op.

(** The var() part of transformValues, transformer.go:405-438. *)
Definition substVar (sp : span) (name : bytes) (args : list value) : TM (list value) :=
  let v := VFunc sp name args in
  if negb (beq name (B "var")) then tret [v] else
  fun t =>
    match t_vars t with
    | None => TOk [v] t
    | Some m =>
      match args with
      | [] => (_ <~ treport (mkReport false sp (B "expected at least one argument to var()")) ;; tret [v]) t
      | a0 :: _ =>
        match a0 with
        | VIdent _ varName =>
          match lookup varName m with
          | Some vals => TOk vals t
          | None =>
            if (2 <? length args)%nat then TOk (skipn 2 args) t
            else (_ <~ treport (mkReport true sp (B "use of undefined variable without fallback: " ++ varName)) ;; tret [v]) t
          end
        | _ => (_ <~ treport (mkReport false sp (B "expected identifier as argument to var()")) ;; tret [v]) t
        end
      end
    end.

(** transformValues, transformer.go:399-491.  The calc() part calls
    transformValues on values that need not be parts of the argument, hence the
    fuel. *)
Fixpoint transformValue (n : nat) (v : value) : TM (list value) :=
  match n with
  | O => ttimeout
  | S n =>
    match v with
    | VFunc sp name args =>
      new <~ substVar sp name args ;;
      if negb (beq name (B "calc")) || negb (o_calc o) then tret new else
      match args with
      | [a0] =>
        args' <~ transformValue n a0 ;;
        match args' with
        | [a] =>
          match a with
          | VMath _ op l r =>
            ls <~ transformValue n l ;;
            rs <~ transformValue n r ;;
            match ls with
            | [l1] =>
              match rs with
              | [r1] =>
                e <~ evaluateMathExpression l1 r1 op ;;
                tret (if isNil e then new else [e])
              | _ => _ <~ addErrorAt true r (B "expected right-hand side of math expression to be a single value") ;; tret new
              end
            | _ => _ <~ addErrorAt true l (B "expected left-hand side of math expression to be a single value") ;; tret new
            end
          | _ => tret new
          end
        | _ => _ <~ treport (mkReport true sp (B "expected single argument for calc()")) ;; tret new
        end
      | _ => _ <~ treport (mkReport true sp (B "expected single argument for calc()")) ;; tret new
      end
    | _ => tret [v]
    end
  end.
Fixpoint transformValues (n : nat) (vs : list value) : TM (list value) :=
  match vs with
  | [] => tret []
  | v :: r => here <~ transformValue n v ;; rest <~ transformValues n r ;; tret (here ++ rest)
  end.

(** transformDeclarations, transformer.go:384-397. *)
Fixpoint transformDecls (n : nat) (ds : list decl) : TM (list decl) :=
  match ds with
  | [] => tret []
  | d :: r =>
    d' <~ match d with
          | DDecl sp prop vals imp => vs <~ transformValues n vals ;; tret (DDecl sp prop vs imp)
          | DRaw _ _ => tret d
          end ;;
    r' <~ transformDecls n r ;;
    tret (d' :: r')
  end.

(** The qualified-rule case of transformNodes, transformer.go:115-177.
    [None]: the rule is dropped because its block is empty.  A nil prelude
    panics in addError (line 169), a keyframe list at line 171. *)
Definition transformRule (n : nat) (r : qrule) : TM (option qrule) :=
  ds <~ scanRoot (r_prelude r) (r_decls r) ;;
  match r_prelude r with
  | PrSel (lsp, sels) =>
    ds' <~ transformDecls n ds ;;
    match ds' with
    | [] => tret None
    | _ => tret (Some (mkRule (r_run r) (r_sp r) (PrSel (lsp, transformSelectors o sels)) (r_bsp r) ds'))
    end
  | PrKey sp _ =>
    _ <~ treport (mkReport false sp (B "expected selector list for qualified rule")) ;; tcrash
  | PrNil => tcrash
  end.

(** The custom-media case, transformer.go:198-219. *)
Definition addCustomMedia (pres : list atprelude) : TM unit :=
  fun t =>
    match t_cmedia t, pres with
    | Some m, [APIdent _ name; APMq q] => TOk tt (mkT (t_vars t) (Some ((name, q) :: m)) (t_reports t))
    | _, _ => TOk tt t
    end.

Fixpoint plookup {A} (k : ptr) (m : list (ptr * A)) : option A :=
  match m with
  | [] => None
  | (k', v) :: r => if ptrEq k k' then Some v else plookup k r
  end.

(** transformNodes, transformer.go:111-235.  [repl] is ImportReplacements
    ([None]: the nil map). *)
Fixpoint transformNodes (repl : option (list (ptr * list node))) (n : nat) (ns : list node) {struct n}
  : TM (list node) :=
  match n with
  | O => ttimeout
  | S n' =>
    (fix go (ns : list node) : TM (list node) :=
       match ns with
       | [] => tret []
       | nd :: rest =>
         here <~ match nd with
                 | NRule r =>
                   r' <~ transformRule n' r ;;
                   tret (match r' with Some r' => [NRule r'] | None => [] end)
                 | NAt a =>
                   if beq (ar_name a) (B "import") then
                     match repl with
                     | None => tret [nd; nd]
                     | Some m =>
                       match plookup (atRuleId a) m with
                       | None => tret [nd]
                       | Some imported =>
                         _ <~ (if (1 <? length (ar_preludes a))%nat
                               then treport (mkReport true (ar_sp a) (B "@import transform does not yet support @supports or media queries"))
                               else tret tt) ;;
                         transformNodes repl n' imported
                       end
                     end
                   else if beq (ar_name a) (B "custom-media") then
                     _ <~ addCustomMedia (ar_preludes a) ;; tret []
                   else if beq (ar_name a) (B "media") then
                     match ar_preludes a with
                     | APMql (lsp, qs) :: pres =>
                       qs' <~ transformMqs qs ;;
                       tret [NAt (mkAt (ar_run a) (ar_sp a) (ar_name a) (APMql (lsp, qs') :: pres) (ar_block a))]
                     | _ => tcrash      (* Preludes[0], the type assertion, or mq.Queries on nil *)
                     end
                   else tret [nd]
                 end ;;
         rest' <~ go rest ;;
         tret (here ++ rest')
       end) ns
  end.

(** Transform, transformer.go:34-58. *)
Definition initState (repl : option (list (ptr * list node))) : tstate :=
  mkT (if o_props o then Some [] else None) (if o_cmedia o then Some [] else None)
      (match repl, o_imports o with
       | None, ImportInline =>
         [mkReport false zsp (B "ImportRules is set to ImportRulesInline, but ImportReplacements is not set")]
       | _, _ => []
       end).
Definition transform (repl : option (list (ptr * list node))) (n : nat) (ss : stylesheet) : tres stylesheet :=
  match transformNodes repl n (ss_nodes ss) (initState repl) with
  | TOk ns t => TOk (mkSheet ns (ss_imports ss)) t
  | TCrash => TCrash
  | TTimeout => TTimeout
  end.
End WithFloats.
