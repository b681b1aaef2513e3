(** What Transform should report about variables (C58). *)
From Verif Require Import Bytes Utf8 Source Ast Transformer TransSpec.

(** The calls that are looked at for a value of a declaration: the value itself,
    and, if calc() is transformed, the only argument of calc() or, if that is a
    sum or a product, its two sides. *)
Section Looked.
Variable calc : bool.
Fixpoint lookedAt (v : value) : list value :=
  match v with
  | VFunc _ name args =>
    v :: (if calc && beq name (B "calc") then
            match args with
            | [VMath _ _ l r] => lookedAt l ++ lookedAt r
            | [a] => lookedAt a
            | _ => []
            end
          else [])
  | _ => []
  end.
End Looked.
(** What is wrong with a call, given the variables defined so far: var() has no
    argument, not a name, or an undefined name and no fallback. *)
Definition undefinedMsg (x : bytes) : bytes := B "use of undefined variable without fallback: " ++ x.
Definition noArgMsg : bytes := B "expected at least one argument to var()".
Definition noNameMsg : bytes := B "expected identifier as argument to var()".
Definition complaint (env : bytes -> option (list value)) (v : value) : list report :=
  match v with
  | VFunc sp name args =>
    if beq name (B "var") then
      match args with
      | [] => [mkReport false sp noArgMsg]
      | VIdent _ x :: rest =>
        match env x, rest with
        | None, ([] | [_]) => [mkReport true sp (undefinedMsg x)]
        | _, _ => []
        end
      | _ => [mkReport false sp noNameMsg]
      end
    else []
  | _ => []
  end.
Definition declComplaints (calc : bool) (env : bytes -> option (list value)) (d : decl) : list report :=
  match d with
  | DDecl _ _ vs _ => flat_map (complaint env) (flat_map (lookedAt calc) vs)
  | DRaw _ _ => []
  end.
(** Rules in order.  A rule sees the definitions of the :root rules up to and
    including itself; definitions in a :root rule are not looked at. *)
Fixpoint complaints (calc : bool) (before ns : list node) : list report :=
  match ns with
  | [] => []
  | nd :: rest =>
    match nd with
    | NRule r => flat_map (declComplaints calc (varEnvOf (before ++ [nd]))) (keptDecls r)
    | NAt _ => []
    end ++ complaints calc (before ++ [nd]) rest
  end.
(** Reports about variables, by their messages. *)
Definition aboutVars (r : report) : bool :=
  hasPrefix (undefinedMsg []) (rp_msg r) || beq (rp_msg r) noArgMsg || beq (rp_msg r) noNameMsg.
