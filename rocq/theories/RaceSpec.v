(** Data races of Compile: which variables the goroutines are about to read or
    write, and under which locks, for every state of the machine of
    Compile.v. *)
From Verif Require Import Bytes Utf8 Source Lexer Ast Parser Printer Transformer Resolver Compile.

(** What goroutines share: the fields of [compilation] (api.go:59-84), the
    fields Lines of a Source, the nodes of the trees, and the loop variable and
    the map replacements of a call of parseFile or Compile, named by the path to
    its goroutine. *)
Inductive var :=
| VSources | VNext | VByIndex | VAsts | VOutputs | VReporter | VFiles
| VLines (s : sref) | VTree (r : nref) | VLoop (owner : list nat) | VReplacements (owner : list nat).
Inductive mutex := sourcesMu | sourcesByIndexMu | astsByIndexMu | theMu | resultMu | loopMu (owner : list nat).
(** An access: the variable, whether it is written, and the lock held. *)
Record access := Access { a_var : var; a_write : bool; a_lock : option mutex }.
Definition conflict (a b : access) : Prop :=
  a_var a = a_var b /\ (a_write a = true \/ a_write b = true) /\ ~ (a_lock a = a_lock b /\ a_lock a <> None).
Definition reads (v : var) (l : option mutex) : access := Access v false l.
Definition writes (v : var) (l : option mutex) : access := Access v true l.
Definition reportsLocked : access := writes VReporter (Some theMu).     (* addError, api.go:132-136 *)

Section WithProject.
Variable P : project.
(** The next transition of parseFile (api.go:88-120, 148-177, 214-217). *)
Definition frameAccesses (f : frame) : list access :=
  match f with
  | Called _ _ => [reads VSources (Some sourcesMu); reportsLocked]
  | Missed _ _ _ => [reportsLocked]
  | ReadIn _ _ _ => [reads VNext (Some sourcesMu); writes VSources (Some sourcesMu)]
  | Indexed _ _ _ _ => [writes VByIndex (Some sourcesByIndexMu)]
  | Stored _ _ => [reads VNext None]
  | Counted _ _ _ => [writes VNext None]
  | HasIndex _ out => if out then [writes VOutputs None] else []
  | Looking _ => [reads VAsts (Some astsByIndexMu)]
  | NotParsed _ => [reads VByIndex (Some sourcesByIndexMu)]
  | HasSource _ s => [writes (VLines s) None; reportsLocked]
  | Transformed _ _ => [writes VAsts (Some astsByIndexMu)]
  end.
(** Transform (api.go:203-213): it may write to the nodes it is given, and calls
    the reporter without a lock. *)
Definition transformAccesses (at_ : list nat) (rs : list nref) (repl : list (ptr * list nref)) : list access :=
  reads (VReplacements at_) None :: writes VReporter None ::
  map (fun r => writes (VTree r) None)
    (rs ++ match o_imports (p_opts P) with ImportInline => flat_map snd repl | _ => [] end).
(** The goroutine at [path] below the goroutine [t], which is itself at
    [at_].  A goroutine that waits or has ended is not about to access
    anything. *)
Fixpoint gorAccesses (at_ path : list nat) (t : gor) {struct path} : list access :=
  match path with
  | [] =>
    match t with
    | InFrame f => frameAccesses f
    | InLoop _ _ rs imps k repl kids =>
      if (k <? length imps)%nat then [writes (VLoop at_) None]
      else if forallb isDone kids then transformAccesses at_ rs repl
      else []
    | _ => []
    end
  | j :: path' =>
    match t with
    | InLoop _ _ _ _ _ _ kids =>
      match nth_error kids j with
      | Some Fresh => match path' with [] => [reads (VLoop at_) None; reportsLocked] | _ => [] end
      | Some (Back None) => []
      | Some (Back (Some _)) =>
        match path' with [] => [reads (VLoop at_) (Some (loopMu at_)); writes (VReplacements at_) (Some (loopMu at_))] | _ => [] end
      | Some kid => gorAccesses (at_ ++ [j]) path' kid
      | None => []
      end
    | _ => []
    end
  end.
(** The goroutine at [path]; that of Compile itself (api.go:222-265) is at the
    empty path. *)
Definition accesses (path : list nat) (m : mstate) : list access :=
  match m with
  | Running k kids =>
    match path with
    | [] =>
      if (k <? length (p_entries P))%nat then [writes (VLoop []) None]
      else if forallb isDone kids then [reads VOutputs None]
      else []
    | j :: path' =>
      match nth_error kids j with
      | Some Fresh => match path' with [] => [reads (VLoop []) None] | _ => [] end
      | Some (Back _) => []
      | Some kid => gorAccesses [j] path' kid
      | None => []
      end
    end
  | Printing todo _ =>
    match path with
    | [j] => if (j <? length todo)%nat then [reads VByIndex None; reads VAsts None; reportsLocked; writes VFiles (Some resultMu)] else []
    | _ => []
    end
  | Finished _ | Crashed => []
  end.
(** Two goroutines are about to access one variable, at least one of them to
    write, without a common lock. *)
Definition race (m : mstate) : Prop := exists p q a b, p <> q /\ In a (accesses p m) /\ In b (accesses q m) /\ conflict a b.
(** ... and the variable is [v]. *)
Definition raceOn (v : var) (m : mstate) : Prop := exists p q a b, p <> q /\ In a (accesses p m) /\ In b (accesses q m) /\ conflict a b /\ a_var a = v.
End WithProject.
(** The file at [f] parses and has two or more @imports. *)
Definition importsTwo {U : UnicodeDigits} (P : project) (f : bytes) : Prop := exists content run n ss lines,
  p_read P f = Some content /\ parse run n content = ParseOk ss lines /\ (2 <= length (ss_imports ss))%nat.
