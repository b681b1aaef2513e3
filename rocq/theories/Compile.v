(** api.go: Compile, parseFile and addSource as a machine of interleaved
    goroutines over shared state.

    One transition is a stretch of code that touches shared state once: a
    section under one lock, one access to an unprotected variable, or one call
    of Parse, Transform, Resolve or Print.  Simplifications:
    - Parse and Transform are single transitions, although two of them may run
      at the same time on the same Source or (when inlining) on the same nodes;
    - the writes to c.outputsByIndex (api.go:158), which hold no lock, are
      taken as atomic, although the Go runtime may stop the program there
      ("concurrent map writes");
    - files, working directory and resolver answers do not change meanwhile;
    - an error is its kind and arguments, not its rendering. *)
From Verif Require Import Bytes Utf8 Source Lexer Ast Parser Printer Transformer Resolver.

(** Options (api.go:20-34) and what the program sees of the outside:
    filepath.Abs, ioutil.ReadFile and Resolver.Resolve; [None] is an error. *)
Record project := mkProject {
  p_entries : list bytes;
  p_abs : bytes -> option bytes;
  p_read : bytes -> option bytes;
  p_resolve : bytes -> bytes -> option bytes;    (* specifier, directory *)
  p_opts : topts }.

(** * Pointers *)
(** *sources.Source: its place in the list of all allocated ones. *)
Definition sref : Type := nat.
(** A top-level node: the Parse call that made it and its place in that
    call's list of nodes. *)
Definition nref : Type := nat * nat.
Definition heap : Type := list (nref * node).
Fixpoint deref (h : heap) (r : nref) : option node :=
  match h with
  | [] => None
  | (r', nd) :: h' => if ptrEq r r' then Some nd else deref h' r
  end.
Definition hset (h : heap) (r : nref) (nd : node) : heap := (r, nd) :: h.
(** The nodes a parse appends to Stylesheet.Nodes, in order. *)
Fixpoint alloc (run k : nat) (nds : list node) : list (nref * node) :=
  match nds with
  | [] => []
  | nd :: r => ((run, k), nd) :: alloc run (S k) r
  end.

(** * Transform on shared nodes *)
(** transformNodes, transformer.go:111-235, which writes to the nodes it
    visits: the same case analysis as [transformNodes], but each node is read
    from and written back to the heap, so that a node listed twice, or by two
    stylesheets, is changed for all of them.  A rule that is dropped is not
    written: it is in no list any more. *)
Section WithFloats.
Context {FO : FloatOps}.
Fixpoint transformRefs (o : topts) (repl : option (list (ptr * list nref))) (n : nat) (rs : list nref) (h : heap)
  {struct n} : TM (list nref * heap) :=
  match n with
  | O => ttimeout
  | S n' =>
    (fix go (rs : list nref) (h : heap) : TM (list nref * heap) :=
       match rs with
       | [] => tret ([], h)
       | r :: rest =>
         here <~ match deref h r with
                 | None => tcrash      (* does not happen: see CompileRefs.v *)
                 | Some (NRule q) =>
                   q' <~ transformRule o n' q ;;
                   tret (match q' with Some q' => ([r], hset h r (NRule q')) | None => ([], h) end)
                 | Some (NAt a) =>
                   if beq (ar_name a) (B "import") then
                     match repl with
                     | None => tret ([r; r], h)
                     | Some m =>
                       match plookup (atRuleId a) m with
                       | None => tret ([r], h)
                       | Some imported =>
                         _ <~ (if (1 <? length (ar_preludes a))%nat
                               then treport (mkReport true (ar_sp a) (B "@import transform does not yet support @supports or media queries"))
                               else tret tt) ;;
                         transformRefs o repl n' imported h
                       end
                     end
                   else if beq (ar_name a) (B "custom-media") then
                     _ <~ addCustomMedia (ar_preludes a) ;; tret ([], h)
                   else if beq (ar_name a) (B "media") then
                     match ar_preludes a with
                     | APMql (lsp, qs) :: pres =>
                       qs' <~ transformMqs o qs ;;
                       tret ([r], hset h r (NAt (mkAt (ar_run a) (ar_sp a) (ar_name a) (APMql (lsp, qs') :: pres) (ar_block a))))
                     | _ => tcrash
                     end
                   else tret ([r], h)
                 end ;;
         more <~ go rest (snd here) ;;
         tret (fst here ++ fst more, snd more)
       end) rs h
  end.
End WithFloats.

(** * Shared state *)
(** What reaches Reporter.AddError: api.go:153, 173, 187, 252 and the
    transformer's reports on a source. *)
Inductive cerror :=
| EAbs (path : bytes)
| ERead (path : bytes)
| EParse (s : sref) (sp : span) (msg : bytes)
| EResolve (spec : bytes)
| ETransform (s : sref) (r : report)
| EPrint (path : bytes).

(** compilation, api.go:59-84.  Maps are association lists, latest binding
    first; [g_srcs] is the list of allocated Sources, [g_runs] the number of
    calls of Parse so far. *)
Record glob := mkG {
  g_sources : list (bytes * nat);
  g_next : nat;
  g_byIndex : list (nat * sref);
  g_asts : list (nat * list nref);
  g_outputs : list nat;
  g_errors : list cerror;
  g_srcs : list source;
  g_heap : heap;
  g_runs : nat }.
Definition g0 : glob := mkG [] 0 [] [] [] [] [] [] 0.

Fixpoint ilookup {A} (k : nat) (m : list (nat * A)) : option A :=
  match m with
  | [] => None
  | (k', v) :: r => if (k =? k')%nat then Some v else ilookup k r
  end.
Fixpoint upd {A} (k : nat) (x : A) (l : list A) : list A :=
  match l, k with
  | [], _ => []
  | _ :: r, O => x :: r
  | y :: r, S k' => y :: upd k' x r
  end.
Definition addError (g : glob) (e : cerror) : glob :=
  mkG (g_sources g) (g_next g) (g_byIndex g) (g_asts g) (g_outputs g) (g_errors g ++ [e]) (g_srcs g) (g_heap g) (g_runs g).

(** * Goroutines *)
(** Where a call parseFile(file, out) is, up to its loop over the imports and
    after it; [out] is hasOutput. *)
Inductive frame :=
| Called (file : bytes) (out : bool)                       (* api.go:89 *)
| Missed (file abs : bytes) (out : bool)                   (* :101, not in c.sources *)
| ReadIn (abs content : bytes) (out : bool)                (* :106 *)
| Indexed (i : nat) (abs content : bytes) (out : bool)     (* :116, c.sourcesMu released *)
| Stored (i : nat) (out : bool)                            (* :120, before c.nextIndex++ *)
| Counted (i tmp : nat) (out : bool)                       (* :120, c.nextIndex read, not yet written *)
| HasIndex (i : nat) (out : bool)                          (* :157 *)
| Looking (i : nat)                                        (* :161 *)
| NotParsed (i : nat)                                      (* :168 *)
| HasSource (i : nat) (s : sref)                           (* :171 *)
| Transformed (i : nat) (rs : list nref).                  (* :215 *)

(** A goroutine: its closure not begun; inside parseFile; inside parseFile's
    loop over the imports or at its Wait; returned from parseFile; ended.

    In [InLoop i s rs imps k repl kids] the loop has started [k] goroutines,
    so the variable imp, which all their closures share (go.mod says go 1.14),
    is the [k]-th element of [imps]; [rs] is ss.Nodes, [repl] the map
    replacements, [kids] the goroutines. *)
Inductive gor :=
| Fresh
| InFrame (f : frame)
| InLoop (i : nat) (s : sref) (rs : list nref) (imps : list (bytes * ptr)) (k : nat)
    (repl : list (ptr * list nref)) (kids : list gor)
| Back (ret : option (list nref))
| Done.
Definition isDone (t : gor) : bool := match t with Done => true | _ => false end.

Inductive sres := Go (g : glob) (t : gor) | Crash.

Section Machine.
Context {U : UnicodeDigits} {FO : FloatOps}.
Variable P : project.
Let o := p_opts P.

(** One transition of parseFile outside its loop.  [None]: the fuel [n] is not
    enough for the call of Parse. *)
Definition frameStep (n : nat) (g : glob) (f : frame) : option sres :=
  match f with
  | Called file out =>
    match p_abs P file with
    | None => Some (Go (addError g (EAbs file)) (Back None))
    | Some abs =>
      match lookup abs (g_sources g) with
      | Some i => Some (Go g (InFrame (HasIndex i out)))
      | None => Some (Go g (InFrame (Missed file abs out)))
      end
    end
  | Missed file abs out =>
    match p_read P abs with
    | None => Some (Go (addError g (ERead file)) (Back None))
    | Some content => Some (Go g (InFrame (ReadIn abs content out)))
    end
  | ReadIn abs content out =>
    let i := g_next g in
    Some (Go (mkG ((abs, i) :: g_sources g) (g_next g) (g_byIndex g) (g_asts g) (g_outputs g) (g_errors g) (g_srcs g) (g_heap g) (g_runs g))
             (InFrame (Indexed i abs content out)))
  | Indexed i abs content out =>
    Some (Go (mkG (g_sources g) (g_next g) ((i, length (g_srcs g)) :: g_byIndex g) (g_asts g) (g_outputs g) (g_errors g)
                  (g_srcs g ++ [mkSource abs content []]) (g_heap g) (g_runs g))
             (InFrame (Stored i out)))
  | Stored i out => Some (Go g (InFrame (Counted i (g_next g) out)))
  | Counted i tmp out =>
    Some (Go (mkG (g_sources g) (S tmp) (g_byIndex g) (g_asts g) (g_outputs g) (g_errors g) (g_srcs g) (g_heap g) (g_runs g))
             (InFrame (HasIndex i out)))
  | HasIndex i out =>
    Some (Go (if out then mkG (g_sources g) (g_next g) (g_byIndex g) (g_asts g)
                              (if existsb (Nat.eqb i) (g_outputs g) then g_outputs g else g_outputs g ++ [i])
                              (g_errors g) (g_srcs g) (g_heap g) (g_runs g)
              else g) (InFrame (Looking i)))
  | Looking i =>
    match ilookup i (g_asts g) with
    | Some rs => Some (Go g (Back (Some rs)))
    | None => Some (Go g (InFrame (NotParsed i)))
    end
  | NotParsed i =>
    match ilookup i (g_byIndex g) with
    | None => Some Crash       (* parser.Parse(nil) *)
    | Some s => Some (Go g (InFrame (HasSource i s)))
    end
  | HasSource i s =>
    match nth_error (g_srcs g) s with
    | None => Some Crash       (* does not happen: see CompileRefs.v *)
    | Some src =>
      let read lines := mkG (g_sources g) (g_next g) (g_byIndex g) (g_asts g) (g_outputs g) (g_errors g)
                            (upd s (mkSource (src_path src) (src_content src) (src_lines src ++ lines)) (g_srcs g))
                            (g_heap g) (S (g_runs g)) in
      match parse (g_runs g) n (src_content src) with
      | ParseTimeout => None
      | ParseCrash => Some Crash
      | ParseErr sp msg lines => Some (Go (addError (read lines) (EParse s sp msg)) (Back None))
      | ParseOk ss lines =>
        let cells := alloc (g_runs g) 0 (ss_nodes ss) in
        let g1 := read lines in
        Some (Go (mkG (g_sources g1) (g_next g1) (g_byIndex g1) (g_asts g1) (g_outputs g1) (g_errors g1) (g_srcs g1)
                      (cells ++ g_heap g1) (g_runs g1))
                 (InLoop i s (map fst cells) (ss_imports ss) 0 [] []))
      end
    end
  | Transformed i rs =>
    Some (Go (mkG (g_sources g) (g_next g) (g_byIndex g) ((i, rs) :: g_asts g) (g_outputs g) (g_errors g) (g_srcs g) (g_heap g) (g_runs g))
             (Back (Some rs)))
  end.

(** The end of the loop, api.go:202-214: all goroutines have ended. *)
Definition transformStep (n : nat) (g : glob) (i : nat) (s : sref) (rs : list nref) (repl : list (ptr * list nref)) : option sres :=
  let repl := match o_imports o with ImportInline => Some repl | _ => None end in
  match transformRefs o repl n rs (g_heap g) (mkT (if o_props o then Some [] else None) (if o_cmedia o then Some [] else None) []) with
  | TTimeout => None
  | TCrash => Some Crash
  | TOk (rs', h) t =>
    Some (Go (mkG (g_sources g) (g_next g) (g_byIndex g) (g_asts g) (g_outputs g)
                  (g_errors g ++ map (ETransform s) (t_reports t)) (g_srcs g) h (g_runs g))
             (InFrame (Transformed i rs')))
  end.

(** One transition of the goroutine [t] (the empty path) or of a goroutine
    below it (the path of positions to it).  The closure of the import loop,
    api.go:184-200, reads imp when it calls Resolve and again when it has the
    imported stylesheet. *)
Definition follow : bool := match o_imports o with ImportFollow => true | _ => false end.
Definition current {A} (k : nat) (l : list A) : option A := match k with O => None | S k' => nth_error l k' end.
Fixpoint stepG (n : nat) (path : list nat) (g : glob) (t : gor) {struct path} : option sres :=
  match path with
  | [] =>
    match t with
    | InFrame f => frameStep n g f
    | InLoop i s rs imps k repl kids =>
      if (k <? length imps)%nat then Some (Go g (InLoop i s rs imps (S k) repl (kids ++ [Fresh])))
      else if forallb isDone kids then transformStep n g i s rs repl
      else None
    | _ => None
    end
  | j :: path' =>
    match t with
    | InLoop i s rs imps k repl kids =>
      match nth_error kids j, current k imps with
      | Some Fresh, Some (spec, _) =>
        match nth_error (g_srcs g) s with
        | None => None           (* does not happen: see CompileRefs.v *)
        | Some src =>
          match p_resolve P spec (fpDir (src_path src)) with
          | None => Some (Go (addError g (EResolve spec)) (InLoop i s rs imps k repl (upd j Done kids)))
          | Some rel => Some (Go g (InLoop i s rs imps k repl (upd j (InFrame (Called rel follow)) kids)))
          end
        end
      | Some (Back ret), Some (_, at_) =>
        Some (Go g (InLoop i s rs imps k (match ret with Some rs' => (at_, rs') :: repl | None => repl end) (upd j Done kids)))
      | Some kid, _ =>
        match stepG n path' g kid with
        | Some (Go g' kid') => Some (Go g' (InLoop i s rs imps k repl (upd j kid' kids)))
        | other => other
        end
      | None, _ => None
      end
    | _ => None
    end
  end.

(** The goroutine of Compile, api.go:222-265: the loop over the entries and its
    Wait, the loop over c.outputsByIndex (in any order) and its Wait, the
    return. *)
Definition files : Type := list (bytes * bytes).
Inductive mstate :=
| Running (k : nat) (kids : list gor)
| Printing (todo : list nat) (out : files)
| Finished (out : files)
| Crashed.
Fixpoint derefs (h : heap) (rs : list nref) : option (list node) :=
  match rs with
  | [] => Some []
  | r :: rest =>
    match deref h r, derefs h rest with
    | Some nd, Some nds => Some (nd :: nds)
    | _, _ => None
    end
  end.
(** The closure of the second loop, api.go:238-260. *)
Definition printOne (g : glob) (idx : nat) (out : files) : glob * files :=
  match ilookup idx (g_byIndex g), ilookup idx (g_asts g) with
  | Some s, Some rs =>
    match nth_error (g_srcs g) s, derefs (g_heap g) rs with
    | Some src, Some nds =>
      match print (Some src) nds with
      | Some css => (g, (src_path src, css) :: out)
      | None => (addError g (EPrint (src_path src)), out)
      end
    | _, _ => (g, out)           (* does not happen: see CompileRefs.v *)
    end
  | _, _ => (g, out)
  end.
Fixpoint removeAt {A} (j : nat) (l : list A) : list A :=
  match l, j with
  | [], _ => []
  | _ :: r, O => r
  | x :: r, S j' => x :: removeAt j' r
  end.

Definition stepM (n : nat) (path : list nat) (st : glob * mstate) : option (glob * mstate) :=
  let (g, m) := st in
  match m with
  | Running k kids =>
    match path with
    | [] =>
      if (k <? length (p_entries P))%nat then Some (g, Running (S k) (kids ++ [Fresh]))
      else if forallb isDone kids then Some (g, Printing (g_outputs g) [])
      else None
    | j :: path' =>
      match nth_error kids j, current k (p_entries P) with
      | Some Fresh, Some e => Some (g, Running k (upd j (InFrame (Called e true)) kids))
      | Some (Back _), _ => Some (g, Running k (upd j Done kids))
      | Some kid, _ =>
        match stepG n path' g kid with
        | Some (Go g' kid') => Some (g', Running k (upd j kid' kids))
        | Some Crash => Some (g, Crashed)
        | None => None
        end
      | None, _ => None
      end
    end
  | Printing [] out => match path with [] => Some (g, Finished out) | _ => None end
  | Printing todo out =>
    match path with
    | [j] =>
      match nth_error todo j with
      | Some idx => let (g', out') := printOne g idx out in Some (g', Printing (removeAt j todo) out')
      | None => None
      end
    | _ => None
    end
  | Finished _ | Crashed => None
  end.

(** Executions: any choice of the next goroutine at every moment. *)
Definition step (s s' : glob * mstate) : Prop := exists n path, stepM n path s = Some s'.
Definition start : glob * mstate := (g0, Running 0 []).
Inductive reach : glob * mstate -> Prop :=
| reachStart : reach start
| reachStep s s' : reach s -> step s s' -> reach s'.

(** The run of a given schedule, for examples. *)
Fixpoint runPaths (n : nat) (paths : list (list nat)) (s : glob * mstate) : option (glob * mstate) :=
  match paths with
  | [] => Some s
  | p :: r => match stepM n p s with Some s' => runPaths n r s' | None => None end
  end.
End Machine.
