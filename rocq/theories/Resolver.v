(** resolver/node_resolver.go, and the parts of path/filepath (Unix) it uses. *)
From Verif Require Import Bytes.

Definition slash : byte := "/"%byte.

(** strings.Split(s, "/"). *)
Fixpoint splitSlash (s : bytes) : list bytes :=
  match s with
  | [] => [[]]
  | c :: r =>
    if Byte.eqb c slash then [] :: splitSlash r
    else match splitSlash r with
         | h :: t => (c :: h) :: t
         | [] => [[c]]
         end
  end.

Fixpoint joinSlash (l : list bytes) : bytes :=
  match l with
  | [] => []
  | x :: r => match r with [] => x | _ => x ++ [slash] ++ joinSlash r end
  end.

(** filepath.Clean (standard library, Unix), as its documentation defines it:
    the components are processed left to right on a stack (reversed here);
    empty and "." components are dropped, ".." removes the previous component,
    or is dropped at the root, or kept at the front of a relative path. *)
Fixpoint cleanComps (rooted : bool) (stack : list bytes) (l : list bytes) : list bytes :=
  match l with
  | [] => stack
  | c :: r =>
    if isEmpty c || beq c (B ".") then cleanComps rooted stack r
    else if beq c (B "..") then
      match stack with
      | [] => cleanComps rooted (if rooted then [] else [c]) r
      | t :: s => if beq t (B "..") then cleanComps rooted (c :: stack) r
                  else cleanComps rooted s r
      end
    else cleanComps rooted (c :: stack) r
  end.
Definition isRooted (p : bytes) : bool :=
  match p with c :: _ => Byte.eqb c slash | [] => false end.
Definition render (rooted : bool) (comps : list bytes) : bytes :=
  if rooted then slash :: joinSlash comps
  else match comps with [] => B "." | _ => joinSlash comps end.
Definition clean (p : bytes) : bytes :=
  render (isRooted p) (rev (cleanComps (isRooted p) [] (splitSlash p))).

(** filepath.Join (standard library, Unix): leading empty elements are skipped. *)
Fixpoint fpJoin (l : list bytes) : bytes :=
  match l with
  | [] => []
  | x :: r => if isEmpty x then fpJoin r else clean (joinSlash l)
  end.

(** filepath.Dir (standard library, Unix): Clean of everything up to and
    including the last slash. *)
Fixpoint upToLastSlash (s : bytes) : bytes :=
  match s with
  | [] => []
  | c :: r => if existsb (fun b => Byte.eqb b slash) s then c :: upToLastSlash r else []
  end.
Definition fpDir (p : bytes) : bytes := clean (upToLastSlash p).

(** os.Stat. *)
Inductive statRes := StFile | StDir | StNotExist | StError.

(** What the resolver sees of the outside world, all arbitrary: the file
    system, the "style" attribute json.Unmarshal finds in package.json
    ([None]: malformed JSON), and whether oops.Wrapf(nil, ...) of the external
    module samsarahq/go/oops returns nil (it does in its documentation). *)
Record world := mkWorld {
  w_stat : bytes -> statRes;
  w_read : bytes -> option bytes;
  w_style : bytes -> option bytes;
  w_wrapNil : bool }.

(** (string, error): either a nil error and the string, or an error. *)
Inductive rres := ROk (p : bytes) | RErr.

Section World.
Variable wd : world.

(** oops.Wrapf(err, ...) with a nil err, as the error of ("", err). *)
Definition wrapNil : rres := if w_wrapNil wd then ROk [] else RErr.

(** The check [if info, err := os.Stat(p); err != nil || info.IsDir()] of
    node_resolver.go:107-114 and 128-135. *)
Definition statEntry (p : bytes) : rres :=
  match w_stat wd p with
  | StFile => ROk p
  | StDir => wrapNil          (* err is nil: oops.Wrapf(nil, ...) *)
  | StNotExist | StError => RErr
  end.

(** resolveAsDir, node_resolver.go:101-136. *)
Definition resolveAsDir (path : bytes) : rres :=
  match w_read wd (fpJoin [path; B "package.json"]) with
  | None => statEntry (fpJoin [path; B "index.css"])
  | Some pkg =>
    match w_style wd pkg with
    | None => RErr
    | Some style => if isEmpty style then RErr else statEntry (fpJoin [path; style])
    end
  end.

(** resolve, node_resolver.go:62-98. *)
Definition resolvePath (absPath : bytes) : rres :=
  match w_stat wd absPath with
  | StNotExist =>
    match w_stat wd (absPath ++ B ".css") with
    | StFile => ROk (absPath ++ B ".css")
    | StDir | StNotExist | StError => RErr
    end
  | StError => RErr
  | StFile => ROk absPath
  | StDir => resolveAsDir absPath
  end.

(** resolveFromNodeModules, node_resolver.go:139-152; [None]: fuel exhausted. *)
Fixpoint resolveFromNodeModules (fuel : nat) (module currentDir : bytes) : option rres :=
  match fuel with
  | O => None
  | S f =>
    if beq currentDir (B "/") then Some RErr
    else match resolvePath (fpJoin [currentDir; B "node_modules"; module]) with
         | ROk p => Some (ROk p)
         | RErr => resolveFromNodeModules f module (fpDir currentDir)
         end
  end.

(** NodeResolver.Resolve, node_resolver.go:30-54. *)
Definition isRelativeSpec (spec : bytes) : bool :=
  hasPrefix (B "../") spec || hasPrefix (B "./") spec || hasPrefix (B "/") spec.
Definition resolve (fuel : nat) (baseURL spec fromDir : bytes) : option rres :=
  if isRelativeSpec spec then Some (resolvePath (fpJoin [fromDir; spec]))
  else
    match (if isEmpty baseURL then RErr else resolvePath (fpJoin [baseURL; spec])) with
    | ROk p => Some (ROk p)
    | RErr => resolveFromNodeModules fuel spec fromDir
    end.
End World.
