(** Specifications used by the transformer theorems (C23-C33): what a selector
    matches, when a media query applies, what calc() and var() mean.  Nothing
    here refers to the transformer. *)
From Coq Require Import QArith.
From Verif Require Import Bytes Utf8 Source Ast.
Open Scope Z_scope.

(** ** Order of elements *)
(** [sub a b]: [a] is [b] with some elements left out. *)
Inductive sub {A : Type} : list A -> list A -> Prop :=
| sub_nil : sub [] []
| sub_keep : forall x a b, sub a b -> sub (x :: a) (x :: b)
| sub_drop : forall x a b, sub a b -> sub a (x :: b).

(** ** Selectors *)
(** Matching on an arbitrary document.  [rel op e e'] : element [e'] stands in
    the relation of combinator [op] to [e]; the empty string is the descendant
    combinator.  [simple] says which elements a simple selector matches. *)
Section Matching.
Variable E : Type.
Variable simple : selpart -> E -> Prop.
Variable rel : bytes -> E -> E -> Prop.

(** White space at the ends of a selector and next to a combinator or other
    white space has no meaning. *)
Definition isSpace (p : selpart) : bool := match p with SWhitespace _ => true | _ => false end.
Definition isComb (p : selpart) : bool := match p with SComb _ _ => true | _ => false end.
Fixpoint significant (skip : bool) (ps : list selpart) : list selpart :=
  match ps with
  | [] => []
  | p :: r =>
    if isSpace p then
      match r with
      | [] => []
      | q :: _ => if skip || isSpace q || isComb q then significant skip r else p :: significant false r
      end
    else p :: significant (isComb p) r
  end.

(** The parts from the right to the left. *)
Fixpoint matchesFrom (ps : list selpart) (e : E) : Prop :=
  match ps with
  | [] => True
  | SWhitespace _ :: r => exists e', rel [] e e' /\ matchesFrom r e'
  | SComb _ op :: r => exists e', rel op e e' /\ matchesFrom r e'
  | p :: r => simple p e /\ matchesFrom r e
  end.
Definition matchesSelector (s : selector) (e : E) : Prop := matchesFrom (rev (significant true (snd s))) e.
Definition matchesList (l : list selector) (e : E) : Prop := exists s, In s l /\ matchesSelector s e.

(** :any-link matches what :link and :visited match. *)
Definition anyLinkLaw : Prop := forall sp sp1 sp2 e,
  simple (SPseudo sp (B "any-link") PANone) e <->
  simple (SPseudo sp1 (B "link") PANone) e \/ simple (SPseudo sp2 (B "visited") PANone) e.
End Matching.
Arguments matchesSelector {E}. Arguments matchesList {E}. Arguments anyLinkLaw {E}.

Definition namedAnyLink (p : selpart) : Prop := exists sp args, p = SPseudo sp (B "any-link") args.
Definition noAnyLink (ps : list selpart) : Prop := forall p, In p ps -> ~ namedAnyLink p.
(** At most one :any-link among the parts of the selector itself. *)
Definition atMostOne (ps : list selpart) : Prop :=
  noAnyLink ps \/
  exists pre sp post, ps = pre ++ SPseudo sp (B "any-link") PANone :: post /\ noAnyLink pre /\ noAnyLink post.
(** Every :any-link is written without arguments. *)
Definition bareAnyLink (ps : list selpart) : Prop :=
  forall sp args, In (SPseudo sp (B "any-link") args) ps -> args = PANone.

(** ** Media queries *)
(** A device: the value of each range feature, the size that a value written in
    the query has on it (both in one unit per feature), and the truth of
    everything else. *)
Record device := mkDevice {
  feat : bytes -> Q;
  size : value -> Q;
  ident : bytes -> Prop;
  other : bytes -> value -> Prop }.

Definition compares (op : bytes) (a b : Q) : Prop :=
  (op = B "<" /\ a < b \/ op = B "<=" /\ a <= b \/ op = B ">" /\ b < a \/ op = B ">=" /\ b <= a)%Q.

Definition stripPrefix (p s : bytes) : option bytes :=
  if hasPrefix p s then Some (skipn (length p) s) else None.

(** Custom media queries: what (--name) stands for. *)
Definition mediaEnv := bytes -> option (list mqpart).
Definition noMedia : mediaEnv := fun _ => None.

Section Media.
Variable d : device.

(** A feature with a value: (min-f: v), (max-f: v), or anything else. *)
Definition plainHolds (name : bytes) (v : value) : Prop :=
  match stripPrefix (B "min-") name, v with
  | Some f, VNil => other d name v
  | Some f, _ => (size d v <= feat d f)%Q
  | None, _ =>
    match stripPrefix (B "max-") name, v with
    | Some f, VNil => other d name v
    | Some f, _ => (feat d f <= size d v)%Q
    | None, _ => other d name v
    end
  end.
Definition rangeHolds (f : bytes) (lhs : value) (op : bytes) (rhs : value) : Prop :=
  (lhs = VNil \/ compares op (size d lhs) (feat d f)) /\
  (rhs = VNil \/ compares op (feat d f) (size d rhs)).

(** One part; "and" only joins. *)
Definition simplePart (p : mqpart) : Prop :=
  match p with
  | MIdent _ x => x = B "and" \/ ident d x
  | MPlain _ _ name v => plainHolds name v
  | MRange _ _ f lhs op rhs => rangeHolds f lhs op rhs
  end.
(** "not" in front negates the whole query. *)
Definition simpleQuery (ps : list mqpart) : Prop :=
  match ps with
  | MIdent sp x :: r => if beq x (B "not") then ~ Forall simplePart r else Forall simplePart ps
  | _ => Forall simplePart ps
  end.
Definition partHolds (env : mediaEnv) (p : mqpart) : Prop :=
  match p with
  | MPlain _ _ name VNil =>
    match env name with
    | Some ps => simpleQuery ps
    | None => simplePart p
    end
  | _ => simplePart p
  end.
Definition queryHolds (env : mediaEnv) (ps : list mqpart) : Prop :=
  match ps with
  | MIdent sp x :: r => if beq x (B "not") then ~ Forall (partHolds env) r else Forall (partHolds env) ps
  | _ => Forall (partHolds env) ps
  end.
Definition listHolds (env : mediaEnv) (qs : list mquery) : Prop :=
  exists q, In q qs /\ queryHolds env (snd q).
End Media.

(** ** calc() *)
(** Arithmetic on dimensions: a numeral's value, and the four operations. *)
Section Calc.
Variable A : Type.
Variable numeral : bytes -> option A.
Variables add sub_ mul div : A -> A -> A.
Variable isZero : A -> bool.
Variable env : bytes -> option (list value).   (* custom properties *)

(** CSS typing: + and - need equal units; one factor of * and the right side of
    / are plain numbers; division by zero has no value. *)
Inductive calcValue : value -> A -> bytes -> Prop :=
| cv_dim : forall sp n u a, numeral n = Some a -> calcValue (VDim sp n u) a u
| cv_paren : forall sp v a u, calcValue v a u -> calcValue (VMathParen sp v) a u
| cv_add : forall sp l r a b u, calcValue l a u -> calcValue r b u -> calcValue (VMath sp (B "+") l r) (add a b) u
| cv_sub : forall sp l r a b u, calcValue l a u -> calcValue r b u -> calcValue (VMath sp (B "-") l r) (sub_ a b) u
| cv_mul_r : forall sp l r a b u, calcValue l a u -> calcValue r b [] -> calcValue (VMath sp (B "*") l r) (mul a b) u
| cv_mul_l : forall sp l r a b u, calcValue l a [] -> calcValue r b u -> calcValue (VMath sp (B "*") l r) (mul a b) u
| cv_div : forall sp l r a b u, calcValue l a u -> calcValue r b [] -> isZero b = false ->
    calcValue (VMath sp (B "/") l r) (div a b) u
| cv_calc : forall sp v a u, calcValue v a u -> calcValue (VFunc sp (B "calc") [v]) a u
| cv_var : forall sp isp x tl d a u, env x = Some [d] -> calcValue d a u ->
    calcValue (VFunc sp (B "var") (VIdent isp x :: tl)) a u
| cv_fallback : forall sp isp x comma fb a u, env x = None -> calcValue fb a u ->
    calcValue (VFunc sp (B "var") [VIdent isp x; comma; fb]) a u.
End Calc.
(** An expression of numbers, dimensions and operators only. *)
Fixpoint plainMath (v : value) : Prop :=
  match v with
  | VDim _ _ _ => True
  | VMath _ _ l r => plainMath l /\ plainMath r
  | _ => False
  end.

(** ** var() *)
(** Full substitution of custom properties in a list of values: in every
    position, including inside other functions and inside substituted values.
    [keep]: a reference that cannot be resolved stays. *)
Section Var.
Variable env : bytes -> option (list value).
Inductive resolves : list value -> list value -> Prop :=
| rs_nil : resolves [] []
| rs_def : forall sp isp x rest d d' vs vs',
    env x = Some d -> resolves d d' -> resolves vs vs' ->
    resolves (VFunc sp (B "var") (VIdent isp x :: rest) :: vs) (d' ++ vs')
| rs_fallback : forall sp isp csp x fb fb' vs vs',
    env x = None -> fb <> [] -> resolves fb fb' -> resolves vs vs' ->
    resolves (VFunc sp (B "var") (VIdent isp x :: VComma csp :: fb) :: vs) (fb' ++ vs')
| rs_keep : forall sp isp x vs vs',
    env x = None -> resolves vs vs' ->
    resolves (VFunc sp (B "var") [VIdent isp x] :: vs) (VFunc sp (B "var") [VIdent isp x] :: vs')
| rs_func : forall sp name args args' vs vs',
    name <> B "var" -> resolves args args' -> resolves vs vs' ->
    resolves (VFunc sp name args :: vs) (VFunc sp name args' :: vs')
| rs_brackets : forall sp args args' vs vs',
    resolves args args' -> resolves vs vs' -> resolves (VBrackets sp args :: vs) (VBrackets sp args' :: vs')
| rs_math : forall sp op l l' r r' vs vs',
    resolves [l] [l'] -> resolves [r] [r'] -> resolves vs vs' ->
    resolves (VMath sp op l r :: vs) (VMath sp op l' r' :: vs')
| rs_paren : forall sp v v' vs vs',
    resolves [v] [v'] -> resolves vs vs' -> resolves (VMathParen sp v :: vs) (VMathParen sp v' :: vs')
| rs_leaf : forall v vs vs',
    match v with VNil | VString _ _ | VDim _ _ _ | VIdent _ _ | VHex _ _ | VComma _ | VRaw _ _ => True | _ => False end ->
    resolves vs vs' -> resolves (v :: vs) (v :: vs').
End Var.

(** [mentions x v]: a reference var(--x) occurs somewhere in [v]. *)
Fixpoint mentions (x : bytes) (v : value) : Prop :=
  match v with
  | VFunc _ name args =>
    (name = B "var" /\ exists isp rest, args = VIdent isp x :: rest) \/
    (fix any (l : list value) : Prop := match l with [] => False | a :: r => mentions x a \/ any r end) args
  | VBrackets _ vs =>
    (fix any (l : list value) : Prop := match l with [] => False | a :: r => mentions x a \/ any r end) vs
  | VMath _ _ l r => mentions x l \/ mentions x r
  | VMathParen _ v => mentions x v
  | _ => False
  end.
(** No var() call anywhere in the value. *)
Fixpoint varFree (v : value) : Prop :=
  match v with
  | VFunc _ name args =>
    name <> B "var" /\
    (fix all (l : list value) : Prop := match l with [] => True | a :: r => varFree a /\ all r end) args
  | VBrackets _ vs =>
    (fix all (l : list value) : Prop := match l with [] => True | a :: r => varFree a /\ all r end) vs
  | VMath _ _ l r => varFree l /\ varFree r
  | VMathParen _ v => varFree v
  | _ => True
  end.

(** ** Stylesheets *)
(** What the transformer needs of a tree: rules with a selector list whose
    selectors have parts, and media rules with a query list. *)
Definition ruleOk (r : qrule) : Prop :=
  exists lsp sels, r_prelude r = PrSel (lsp, sels) /\ Forall (fun s : selector => snd s <> []) sels.
Definition nodeOk (n : node) : Prop :=
  match n with
  | NRule r => ruleOk r
  | NAt a => ar_name a = B "media" -> exists q pres, ar_preludes a = APMql q :: pres
  end.

(** Math expressions have two sides and stand only inside math functions. *)
Definition isMathV (v : value) : Prop := exists sp op l r, v = VMath sp op l r.
Definition topOk (v : value) : Prop := v <> VNil /\ ~ isMathV v.
Fixpoint valueOk (v : value) : Prop :=
  match v with
  | VFunc _ name args =>
    (name = B "var" -> Forall topOk args) /\
    (fix all (l : list value) : Prop := match l with [] => True | a :: r => valueOk a /\ all r end) args
  | VBrackets _ vs =>
    (fix all (l : list value) : Prop := match l with [] => True | a :: r => valueOk a /\ all r end) vs
  | VMath _ _ l r => l <> VNil /\ r <> VNil /\ valueOk l /\ valueOk r
  | VMathParen _ v => valueOk v
  | _ => True
  end.
Definition declOk (d : decl) : Prop :=
  match d with DDecl _ _ vs _ => Forall (fun v => valueOk v /\ topOk v) vs | DRaw _ _ => True end.
Definition rangeOk (p : mqpart) : Prop :=
  match p with
  | MRange _ _ _ _ op _ => In op [B "<"; B "<="; B ">"; B ">="]
  | _ => True
  end.
Definition isImport (n : node) : bool := match n with NAt a => beq (ar_name a) (B "import") | NRule _ => false end.
Definition isCustomMedia (n : node) : bool := match n with NAt a => beq (ar_name a) (B "custom-media") | NRule _ => false end.
Definition isEmptyRule (n : node) : bool := match n with NRule r => match r_decls r with [] => true | _ => false end | NAt _ => false end.
Definition ruleDecls (n : node) : list decl := match n with NRule r => r_decls r | NAt _ => [] end.

(** Flattening of imports: each @import with a replacement gives way to the
    (again flattened) nodes of the imported file. *)
Section Flatten.
Variable repl : ptr -> option (list node).
Inductive flattens : list node -> list node -> Prop :=
| fl_nil : flattens [] []
| fl_import : forall a ns imported x y, ar_name a = B "import" -> repl (atRuleId a) = Some imported ->
    flattens imported x -> flattens ns y -> flattens (NAt a :: ns) (x ++ y)
| fl_other : forall nd ns y, (isImport nd = true -> repl (nodeId nd) = None) ->
    flattens ns y -> flattens (nd :: ns) (nd :: y).
End Flatten.

(** ** Definitions, last one wins *)
Fixpoint lastDef {A} (x : bytes) (l : list (bytes * A)) : option A :=
  match l with
  | [] => None
  | (k, v) :: r => match lastDef x r with Some v' => Some v' | None => if beq x k then Some v else None end
  end.
(** The custom media queries a node defines; names start with "--". *)
Definition mediaDefs (nd : node) : list (bytes * list mqpart) :=
  match nd with
  | NAt a =>
    if beq (ar_name a) (B "custom-media") then
      match ar_preludes a with
      | [APIdent _ name; APMq q] => if hasPrefix (B "--") name then [(name, snd q)] else []
      | _ => []
      end
    else []
  | NRule _ => []
  end.
Definition mediaEnvOf (ns : list node) : mediaEnv := fun x => lastDef x (flat_map mediaDefs ns).
(** Definitions that do not themselves use (--name) and do not begin with "not". *)
Definition flatDef (ps : list mqpart) : Prop :=
  ps <> [] /\
  Forall (fun p => match p with MPlain _ _ name VNil => hasPrefix (B "--") name = false | _ => True end) ps /\
  match ps with MIdent _ x :: _ => x <> B "not" | _ => True end.
(** Ranges written with <= or >= only, with a bound on at least one side. *)
Definition inclusive (p : mqpart) : Prop :=
  match p with
  | MRange _ _ _ lhs op rhs => (op = B "<=" \/ op = B ">=") /\ (lhs <> VNil \/ rhs <> VNil)
  | _ => True
  end.

(** ** Custom properties *)
(** A rule for :root and nothing else. *)
Definition rootRule (r : qrule) : bool :=
  match r_prelude r with
  | PrSel (_, [(_, ps)]) => match significant true ps with [SPseudo _ nm PANone] => beq nm (B "root") | _ => false end
  | _ => false
  end.
Definition isCustomProp (d : decl) : bool := match d with DDecl _ prop _ _ => hasPrefix (B "--") prop | DRaw _ _ => false end.
Definition varDefs (nd : node) : list (bytes * list value) :=
  match nd with
  | NRule r =>
    if rootRule r then
      flat_map (fun d => match d with DDecl _ prop vals _ => if hasPrefix (B "--") prop then [(prop, vals)] else [] | DRaw _ _ => [] end)
               (r_decls r)
    else []
  | NAt _ => []
  end.
Definition varEnvOf (ns : list node) : bytes -> option (list value) := fun x => lastDef x (flat_map varDefs ns).
(** A :root rule is written with something (white space) after :root; any other
    rule does not begin with :root. *)
Definition firstIsRoot (ps : list selpart) : Prop := exists sp args r, ps = SPseudo sp (B "root") args :: r.
Definition plainSelectors (nd : node) : Prop :=
  match nd with
  | NRule r =>
    exists lsp sp ps rest, r_prelude r = PrSel (lsp, (sp, ps) :: rest) /\
      (rootRule r = true /\ (2 <= length ps)%nat /\ firstIsRoot ps \/ rootRule r = false /\ ~ firstIsRoot ps)
  | NAt _ => True
  end.
(** References only at the top of the value list, and definitions and
    fallbacks without references. *)
Definition flatVar (env : bytes -> option (list value)) (v : value) : Prop :=
  varFree v \/
  exists sp isp x tl, v = VFunc sp (B "var") (VIdent isp x :: tl) /\
    match env x with
    | Some d => Forall varFree d
    | None => tl = [] \/ exists csp fb, tl = VComma csp :: fb /\ fb <> [] /\ Forall varFree fb
    end.
Definition isCalc (v : value) : bool := match v with VFunc _ name _ => beq name (B "calc") | _ => false end.
(** Same declarations up to resolution of the values. *)
Inductive declResolves (env : bytes -> option (list value)) : decl -> decl -> Prop :=
| dr_decl : forall sp prop vs vs' imp, resolves env vs vs' -> declResolves env (DDecl sp prop vs imp) (DDecl sp prop vs' imp)
| dr_raw : forall sp v, declResolves env (DRaw sp v) (DRaw sp v).
Definition flatDecl (calc : bool) (env : bytes -> option (list value)) (d : decl) : Prop :=
  match d with
  | DDecl _ _ vs _ => Forall (flatVar env) vs /\ (calc = true -> Forall (fun v => isCalc v = false) vs)
  | DRaw _ _ => True
  end.
(** The declarations of a rule that are not definitions. *)
Definition keptDecls (r : qrule) : list decl :=
  if rootRule r then filter (fun d => negb (isCustomProp d)) (r_decls r) else r_decls r.

(** ** Where a node comes from: its kind, parse and position. *)
Definition origin (nd : node) : bool * nat * span :=
  match nd with NRule r => (true, r_run r, r_sp r) | NAt a => (false, ar_run a, ar_sp a) end.
Definition twiceImports (ns : list node) : list node :=
  flat_map (fun nd => if isImport nd then [nd; nd] else [nd]) ns.

(** What remains of a node when every transform is off. *)
Definition passNode (nd : node) : list node :=
  if isEmptyRule nd || isCustomMedia nd then [] else if isImport nd then [nd; nd] else [nd].

(** A sheet the transformer accepts. *)
Definition sheetOk (ns : list node) : Prop := Forall nodeOk ns /\ Forall (fun nd => Forall declOk (ruleDecls nd)) ns.
