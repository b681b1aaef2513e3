(** Which files have an output that can be read again (C54): conditions on the
    source, without reference to the code. *)
From Verif Require Import Bytes Utf8 Source Lexer Ast Parser Printer Transformer Resolver Strip Compile RoundSpec.

(** :any-link is written without arguments. *)
Definition bareLink (p : selpart) : bool :=
  match p with
  | SPseudo _ n a => negb (beq n (B "any-link")) || match a with PANone => true | _ => false end
  | _ => true
  end.
Definition bareLinks (n : node) : bool :=
  match n with
  | NRule r => match r_prelude r with PrSel (_, sels) => forallb (fun s : selector => forallb bareLink (snd s)) sels | _ => true end
  | NAt _ => true
  end.
(** A stylesheet that can be written, before or after the transforms. *)
Definition plainSource (n : node) : bool := writable n && bareLinks n.
(** What the transforms that compute write is a decimal number.  Go writes
    +Inf and NaN otherwise. *)
Definition decimals {FO : FloatOps} (o : topts) : Prop :=
  o_calc o = true \/ o_ranges o = true -> forall f, numeral (fformat f) = true.

(** Sums as in calc(1px + 2px) are not read back as they are written, but they
    are computed before.  The number and the unit of math that can be computed:
    the units fit and nothing is divided by zero.  Each step reads the numbers
    that the steps before it write. *)
Section Sums.
Context {FO : FloatOps}.
Fixpoint computed (v : value) : option (bytes * bytes) :=
  match v with
  | VDim _ n u => Some (n, u)
  | VMath _ op l r =>
    match computed l, computed r with
    | Some (a, u), Some (b, w) =>
      match fparse a, fparse b with
      | Some x, Some y =>
        if beq op (B "+") && beq u w then Some (fformat (fadd x y), u)
        else if beq op (B "-") && beq u w then Some (fformat (fsub x y), u)
        else if beq op (B "*") && isEmpty u then Some (fformat (fmul y x), w)
        else if beq op (B "*") && isEmpty w then Some (fformat (fmul x y), u)
        else if beq op (B "/") && isEmpty w && negb (fisZero y) then Some (fformat (fdiv x y), u)
        else None
      | _, _ => None
      end
    | _, _ => None
    end
  | _ => None
  end.
Definition reducible (v : value) : bool :=
  match v with
  | VFunc _ n [VMath _ _ _ _ as m] =>
    beq n (B "calc") && match computed m with Some (_, u) => isEmpty u || beq u (B "%") || unitName u | None => false end
  | _ => false
  end.
(** Such a calc() may be a value of a declaration that does not define a
    variable, if calc() is transformed. *)
Definition readyDecl (o : topts) (d : decl) : bool :=
  okDecl d ||
  match d with
  | DDecl _ prop vs _ =>
    o_calc o && negb (o_props o && hasPrefix (B "--") prop) && okProperty prop && negb (match vs with [] => true | _ => false end)
      && forallb (fun v => okDeclValue v || reducible v) vs
  | DRaw _ _ => false
  end.
(** A stylesheet that can be written after the transforms. *)
Definition readySource (o : topts) (n : node) : bool :=
  match n with
  | NRule r => plainSource (NRule (mkRule (r_run r) (r_sp r) (r_prelude r) (r_bsp r) [])) && forallb (readyDecl o) (r_decls r)
  | NAt _ => plainSource n
  end.
End Sums.

(** The text [out] is a stylesheet with the nodes [ns], up to positions and
    white space at the end of selectors; a map comment at the end does not
    count. *)
Definition readsBack {U : UnicodeDigits} (out : bytes) (ns : list node) : Prop := forall run, exists ss lines n0,
  (forall n, (n0 <= n)%nat -> parse run n out = ParseOk ss lines) /\ strip (ss_nodes ss) = strip (tidy ns).
(** Whatever the file at [f] contains, if it parses it can be written
    after the transforms. *)
Definition plainFile {U : UnicodeDigits} {FO : FloatOps} (P : project) (f : bytes) : Prop := forall content run n ss lines,
  p_read P f = Some content -> parse run n content = ParseOk ss lines -> forallb (readySource (p_opts P)) (ss_nodes ss) = true.
(** The nodes that the file at [f] is transformed to. *)
Definition transformed {U : UnicodeDigits} {FO : FloatOps} (P : project) (f : bytes) (ns : list node) : Prop :=
  exists content n m ss lines ss' t, p_read P f = Some content /\ parse 0 n content = ParseOk ss lines /\
    transform (p_opts P) None m ss = TOk ss' t /\ ns = ss_nodes ss'.
