(** C38 - C40: import resolution. *)
From Verif Require Import Bytes Resolver ResolverSpec ResolverProofs.

(** C38: what Resolve returns is an existing non-directory, except that a
    package whose entry point is a directory gives the empty path. *)
Theorem C38_existing_file_partial : forall wd fuel base spec dir q,
  resolve wd fuel base spec dir = Some (ROk q) ->
  w_stat wd q = StFile \/ (q = [] /\ w_wrapNil wd = true /\ exists p, brokenEntry wd p).
Proof. exact C38_main. Qed.
Print Assumptions C38_existing_file_partial.

(** Without such a package it holds as stated. *)
Theorem C38_existing_file_no_broken_entry : forall wd fuel base spec dir q,
  (forall p, ~ brokenEntry wd p) ->
  resolve wd fuel base spec dir = Some (ROk q) -> w_stat wd q = StFile.
Proof. exact C38_unbroken. Qed.
Print Assumptions C38_existing_file_no_broken_entry.

Theorem C38_existing_file_refuted : exists wd fuel base spec dir q,
  isRooted dir = true /\ w_stat wd [] = StNotExist /\
  resolve wd fuel base spec dir = Some (ROk q) /\ w_stat wd q <> StFile.
Proof. exact C38_broken. Qed.
Print Assumptions C38_existing_file_refuted.

(** C39: a relative specifier stands for the file at that place or nothing. *)
Theorem C39_relative : forall wd fuel base spec from q, relative spec ->
  (resolve wd fuel base spec from = Some (ROk q) <-> answers wd (fpJoin [from; spec]) q).
Proof. exact resolve_relative. Qed.
Print Assumptions C39_relative.

(** C39: any other specifier stands for the first of its places that has an
    answer: the base URL, then node_modules of each directory going up, except
    the root directory (which C39_root_refuted is about). *)
Theorem C39_nearest_partial : forall wd base spec names, ~ relative spec -> Forall normalName names ->
  forall fuel, (length names < fuel)%nat ->
  exists r, resolve wd fuel base spec (dirString names) = Some r /\
  forall q, r = ROk q <-> firstAnswer wd (places base spec names) q.
Proof. exact resolve_bare. Qed.
Print Assumptions C39_nearest_partial.

(** ... where the place in directory /d1/.../dn of the package name s1/.../sk is
    /d1/.../dn/node_modules/s1/.../sk. *)
Theorem C39_place_path : forall spec dir names,
  Forall normalName dir -> dir <> [] -> Forall normalName names -> names <> [] ->
  "/"%byte :: spec = slashed names ->
  moduleAt spec dir = slashed (dir ++ B "node_modules" :: names).
Proof. exact moduleAt_path. Qed.
Print Assumptions C39_place_path.

Theorem C39_root_refuted : exists wd spec names q, ~ relative spec /\ Forall normalName names /\
  firstAnswer wd (placesWithRoot [] spec names) q /\
  forall fuel, resolve wd fuel [] spec (dirString names) <> Some (ROk q).
Proof. exact ResolverProofs.C39_root_refuted. Qed.
Print Assumptions C39_root_refuted.

(** C40: from an absolute directory the loop ends, after at most as many rounds
    as the path is long, and the result does not depend on the fuel. *)
Theorem C40_terminates_partial : forall wd base spec dir, isRooted dir = true \/ relative spec ->
  exists r, forall fuel, (length dir + 3 <= fuel)%nat -> resolve wd fuel base spec dir = Some r.
Proof. exact C40_main. Qed.
Print Assumptions C40_terminates_partial.

(** From every relative directory the search for a missing package never ends. *)
Theorem C40_relative_directory_refuted : forall dir, isRooted dir = false ->
  exists wd, forall spec, ~ relative spec -> forall fuel, resolve wd fuel [] spec dir = None.
Proof. exact C40_diverges. Qed.
Print Assumptions C40_relative_directory_refuted.

(** The hypotheses are satisfiable. *)
Example C39_sample : resolve shadowWorld 9 [] (B "theme") (B "/a/b/c") = Some (ROk (B "/a/b/node_modules/theme.css")).
Proof. reflexivity. Qed.
Example C39_sample_base : resolve shadowWorld 9 (B "/srv") (B "x") (B "/a/b/c") = Some (ROk (B "/srv/x.css")).
Proof. reflexivity. Qed.
Example C39_sample_relative : resolve shadowWorld 0 [] (B "../../srv/./x") (B "/a/b") = Some (ROk (B "/srv/x.css")).
Proof. reflexivity. Qed.
Example C38_sample : forall p, ~ brokenEntry shadowWorld p.
Proof. exact shadow_unbroken. Qed.
