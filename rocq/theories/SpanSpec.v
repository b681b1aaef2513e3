(** Where the nodes of a tree are in the file. *)
From Verif Require Import Bytes Utf8 Source Ast Walk WalkSpec.

(** Node.Location, ast.go:8-19.  The stylesheet and the typed nil have none of
    their own. *)
Definition locate (n : anode) : option span :=
  match n with
  | NdSheet _ | NdNilMql => None
  | NdRule r => Some (r_sp r)
  | NdAt a => Some (ar_sp a)
  | NdSelectors l => Some (fst l)
  | NdSelector s => Some (fst s)
  | NdPart p => Some (partSpan p)
  | NdArgIdent sp _ | NdAnb sp _ _ _ | NdKeys sp _ | NdPrelude sp _ _ | NdProperty sp _ | NdDecls sp _ | NdRules sp _ => Some sp
  | NdKey k => Some (keySpan k)
  | NdQueries l => Some (fst l)
  | NdQuery q => Some (fst q)
  | NdQueryPart p => Some (mqpartSpan p)
  | NdDecl (DDecl sp _ _ _) | NdDecl (DRaw sp _) => Some sp
  | NdValue v => valueSpan v
  end.
Definition spansOf (ns : list anode) : list span := flat_map (fun n => match locate n with Some sp => [sp] | None => [] end) ns.

(** [chain a sps b]: between the offsets [a] and [b], one after the other. *)
Fixpoint chain (a : nat) (sps : list span) (b : nat) : Prop :=
  match sps with
  | [] => (a <= b)%nat
  | sp :: r => (a <= sp_start sp)%nat /\ (sp_start sp <= sp_end sp)%nat /\ chain (sp_end sp) r b
  end.
Definition inFile (content : bytes) (sp : span) : Prop := (sp_start sp <= sp_end sp)%nat /\ (sp_end sp <= length content)%nat.

(** A node lies in the file, and its parts lie inside it, one after the other.
    Three exceptions: the name in a range may stand after the first value; the
    parser closes a function at a token it does not understand, and then its
    span is that of its name, with the arguments after it; the argument of an
    unquoted url() has the zero span. *)
Definition placed (content : bytes) (n : anode) : Prop :=
  match locate n with
  | None => match n with NdSheet _ => chain 0 (spansOf (kids n)) (length content) | _ => True end
  | Some sp =>
    inFile content sp /\
    match n with
    | NdQueryPart (MRange _ psp _ l _ r) =>
      chain (sp_start sp) [psp] (sp_end sp) /\ chain (sp_start sp) (spansOf (ofValue l ++ ofValue r)) (sp_end sp)
    | NdValue (VFunc _ name _) =>
      chain (sp_start sp) (spansOf (kids n)) (sp_end sp) \/
      chain (sp_end sp) (spansOf (kids n)) (length content) \/
      name = B "url" /\ exists s, kids n = [NdValue (VIdent (mkSpan 0 0) s)]
    | _ => chain (sp_start sp) (spansOf (kids n)) (sp_end sp)
    end
  end.
(** ... and so do all nodes below it. *)
Definition placedTree (content : bytes) (nds : list node) : Prop :=
  forall vs, preorder kids (NdSheet nds) vs -> Forall (placed content) vs.

(** An error of a compilation points into the file it names. *)
From Verif Require Import Lexer Transformer Compile.
Definition pointsIn (g : glob) (e : cerror) : Prop :=
  match e with
  | EParse s sp _ => exists src, nth_error (g_srcs g) s = Some src /\ inFile (src_content src) sp
  | ETransform s r => exists src, nth_error (g_srcs g) s = Some src /\ inFile (src_content src) (rp_sp r)
  | _ => True
  end.
(** ... or into some file that was read. *)
Definition pointsSomewhere (g : glob) (e : cerror) : Prop :=
  match e with
  | EParse _ sp _ => exists s src, nth_error (g_srcs g) s = Some src /\ inFile (src_content src) sp
  | ETransform _ r => exists s src, nth_error (g_srcs g) s = Some src /\ inFile (src_content src) (rp_sp r)
  | _ => True
  end.
(** Files below 2 GiB, as Go converts positions to int32. *)
Definition smallFiles (g : glob) : Prop :=
  Forall (fun src => Z.of_nat (length (src_content src)) < 2147483647 /\ Z.of_nat (length (src_lines src)) < 2147483648) (g_srcs g).
