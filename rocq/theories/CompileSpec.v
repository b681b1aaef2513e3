(** What Compile is for, without its machinery. *)
From Verif Require Import Bytes Utf8 Source Lexer Ast Parser Printer Transformer Resolver Compile.

Section WithProject.
Context {U : UnicodeDigits} {FO : FloatOps}.
Variable P : project.

(** The file at the absolute path [f] has an @import of [spec]. *)
Definition imports (f spec : bytes) : Prop := exists content run n ss lines,
  p_read P f = Some content /\ parse run n content = ParseOk ss lines /\ In spec (map fst (ss_imports ss)).
(** The file at [f] imports the file at [g]. *)
Definition edge (f g : bytes) : Prop := exists spec rel,
  imports f spec /\ p_resolve P spec (fpDir f) = Some rel /\ p_abs P rel = Some g.
(** ... in one or more steps. *)
Inductive leads (f : bytes) : bytes -> Prop :=
| leadsEdge g : edge f g -> leads f g
| leadsStep g h : leads f g -> edge g h -> leads f h.

(** The output for the file at [f] when imports are not inlined: the file is
    parsed, transformed and printed with its source map. *)
Definition compiled (f out : bytes) : Prop := exists content n m ss lines ss' t,
  p_read P f = Some content /\ parse 0 n content = ParseOk ss lines /\
  transform (p_opts P) None m ss = TOk ss' t /\
  print (Some (mkSource f content lines)) (ss_nodes ss') = Some out.

(** The same, but with the line starts recorded [k] times more: every parse of
    a source appends them to its table again. *)
Definition compiledTimes (k : nat) (f out : bytes) : Prop := exists content n m ss lines ss' t,
  p_read P f = Some content /\ parse 0 n content = ParseOk ss lines /\
  transform (p_opts P) None m ss = TOk ss' t /\
  print (Some (mkSource f content (concat (repeat lines (S k))))) (ss_nodes ss') = Some out.
(** An execution of exactly [k] transitions. *)
Inductive runs : nat -> glob * mstate -> glob * mstate -> Prop :=
| rsNil s : runs 0 s s
| rsCons k s s1 s' : runs k s s1 -> step P s1 s' -> runs (S k) s s'.

(** * Executions without overlapping calls of addSource *)
(** A call of addSource has begun (its lookup has failed) and not returned. *)
Definition inAddSource (f : frame) : bool :=
  match f with Missed _ _ _ | ReadIn _ _ _ | Indexed _ _ _ _ | Stored _ _ | Counted _ _ _ => true | _ => false end.
Fixpoint adders (t : gor) : list frame :=
  match t with
  | InFrame f => if inAddSource f then [f] else []
  | InLoop _ _ _ _ _ _ kids => flat_map adders kids
  | _ => []
  end.
Definition mAdders (m : mstate) : list frame := match m with Running _ kids => flat_map adders kids | _ => [] end.
(** The goroutine at [path]. *)
Fixpoint gorAt (path : list nat) (t : gor) : option gor :=
  match path with
  | [] => Some t
  | j :: path' =>
    match t with
    | InLoop _ _ _ _ _ _ kids => match nth_error kids j with Some kid => gorAt path' kid | None => None end
    | _ => None
    end
  end.
Definition mGorAt (path : list nat) (m : mstate) : option gor :=
  match m, path with
  | Running _ kids, j :: path' => match nth_error kids j with Some kid => gorAt path' kid | None => None end
  | _, _ => None
  end.
(** The transition begins a call of addSource. *)
Definition beginsAdd (path : list nat) (m : mstate) : Prop := exists file out, mGorAt path m = Some (InFrame (Called file out)).
(** A transition that does not begin a call of addSource while another one is
    in progress. *)
Definition apart (s s' : glob * mstate) : Prop := exists n path, stepM P n path s = Some s' /\ (beginsAdd path (snd s) -> mAdders (snd s) = []).
Inductive reachApart : glob * mstate -> Prop :=
| raStart : reachApart start
| raStep s s' : reachApart s -> apart s s' -> reachApart s'.
(** ... of exactly [k] transitions. *)
Inductive runsApart : nat -> glob * mstate -> glob * mstate -> Prop :=
| rnNil s : runsApart 0 s s
| rnCons k s s1 s' : apart s s1 -> runsApart k s1 s' -> runsApart (S k) s s'.
(** No infinite chain of imports begins at [f]. *)
Definition grounded (f : bytes) : Prop := Acc (fun g f => edge f g) f.
(** The entries and what they import in any number of steps. *)
Definition involved (f : bytes) : Prop := exists e a, In e (p_entries P) /\ p_abs P e = Some a /\ (f = a \/ leads a f).
(** The files that are to have an output: the entries and, when imports are
    followed, what they import. *)
Definition wanted (f : bytes) : Prop :=
  (exists e, In e (p_entries P) /\ p_abs P e = Some f) \/ o_imports (p_opts P) = ImportFollow /\ involved f.
(** The parser returns on the file at [f] (see C10 for files on which it does
    not). *)
Definition parserReturns (f : bytes) : Prop := forall content, p_read P f = Some content -> exists n, parse 0 n content <> ParseTimeout.
(** Parse and Transform return on the file at [f]: without a crash, if not
    without an error. *)
Definition processed (f : bytes) : Prop := forall content, p_read P f = Some content -> exists n,
  match parse 0 n content with
  | ParseOk ss _ => exists m ss' t, transform (p_opts P) None m ss = TOk ss' t
  | ParseErr _ _ _ => True
  | ParseCrash | ParseTimeout => False
  end.
(** A set of files that import each other in circles: each can be read and
    parsed, has an @import, and all of its @imports lead back into the set. *)
Definition trap (C : bytes -> Prop) : Prop := forall f, C f -> exists content n ss lines,
  p_read P f = Some content /\ parse 0 n content = ParseOk ss lines /\ ss_imports ss <> [] /\
  forall spec, In spec (map fst (ss_imports ss)) -> exists rel g,
    p_resolve P spec (fpDir f) = Some rel /\ p_abs P rel = Some g /\ C g.
End WithProject.
