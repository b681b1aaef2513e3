(** What the resolver should do, written without its helpers. *)
From Verif Require Import Bytes Resolver.

(** A directory or file name that can be a component of a clean path. *)
Definition normalName (c : bytes) : Prop :=
  c <> [] /\ c <> B "." /\ c <> B ".." /\ ~ In "/"%byte c.

(** "/a/b/c" for the names a, b, c; the root directory is "/". *)
Definition slashed (names : list bytes) : bytes := concat (map (cons "/"%byte) names).
Definition dirString (names : list bytes) : bytes :=
  match names with [] => B "/" | _ => slashed names end.

(** The files a location [p] can stand for: itself, with the extension, the
    style of its package.json, its index.css. *)
Inductive standsFor (wd : world) (p : bytes) : bytes -> Prop :=
| StandsFile : w_stat wd p = StFile -> standsFor wd p p
| StandsExt : w_stat wd p = StNotExist -> w_stat wd (p ++ B ".css") = StFile ->
    standsFor wd p (p ++ B ".css")
| StandsStyle js style : w_stat wd p = StDir ->
    w_read wd (fpJoin [p; B "package.json"]) = Some js ->
    w_style wd js = Some style -> style <> [] ->
    w_stat wd (fpJoin [p; style]) = StFile ->
    standsFor wd p (fpJoin [p; style])
| StandsIndex : w_stat wd p = StDir ->
    w_read wd (fpJoin [p; B "package.json"]) = None ->
    w_stat wd (fpJoin [p; B "index.css"]) = StFile ->
    standsFor wd p (fpJoin [p; B "index.css"]).

(** A directory whose entry point (style or index.css) is itself a directory. *)
Inductive brokenEntry (wd : world) (p : bytes) : Prop :=
| BrokenStyle js style : w_stat wd p = StDir ->
    w_read wd (fpJoin [p; B "package.json"]) = Some js ->
    w_style wd js = Some style -> style <> [] ->
    w_stat wd (fpJoin [p; style]) = StDir -> brokenEntry wd p
| BrokenIndex : w_stat wd p = StDir ->
    w_read wd (fpJoin [p; B "package.json"]) = None ->
    w_stat wd (fpJoin [p; B "index.css"]) = StDir -> brokenEntry wd p.

(** What looking at [p] can answer: a file, or, for a directory with a broken
    entry point, the empty path without an error when oops.Wrapf(nil) is nil. *)
Definition answers (wd : world) (p q : bytes) : Prop :=
  standsFor wd p q \/ (w_wrapNil wd = true /\ brokenEntry wd p /\ q = []).

(** The places where an import is looked for, nearest first, when the importing
    directory is /names: node_modules of /names, of its parent, and so on up to
    the first component.  The root directory's own node_modules comes with
    [placesWithRoot] only. *)
Fixpoint ancestors (names : list bytes) : list (list bytes) :=
  match names with
  | [] => []
  | c :: r => map (cons c) (ancestors r) ++ [[c]]
  end.
Definition moduleAt (spec : bytes) (dir : list bytes) : bytes :=
  fpJoin [dirString dir; B "node_modules"; spec].
Definition places (base spec : bytes) (names : list bytes) : list bytes :=
  (if isEmpty base then [] else [fpJoin [base; spec]]) ++ map (moduleAt spec) (ancestors names).
Definition placesWithRoot (base spec : bytes) (names : list bytes) : list bytes :=
  places base spec names ++ [moduleAt spec []].

(** [q] is the answer of the first place of the list that has one. *)
Definition firstAnswer (wd : world) (l : list bytes) (q : bytes) : Prop :=
  exists before p after, l = before ++ p :: after /\ answers wd p q /\
    forall p', In p' before -> forall q', ~ answers wd p' q'.

(** "./x", "../x" and "/x". *)
Definition relative (spec : bytes) : Prop :=
  exists r, spec = B "./" ++ r \/ spec = B "../" ++ r \/ spec = B "/" ++ r.
