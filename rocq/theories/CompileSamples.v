(** Schedules for the examples and counterexamples of the compilation. *)
From Verif Require Import Bytes Utf8 Source Lexer Ast Parser Printer Transformer Resolver Compile CompileSpec Samples TransSamples.

(** A file tree; paths are absolute and specifiers are paths. *)
Definition tree (l : list (bytes * bytes)) : bytes -> option bytes := fun p => lookup p l.
Definition simple (entries : list bytes) (l : list (bytes * bytes)) (o : topts) : project :=
  mkProject entries Some (tree l) (fun spec _ => Some spec) o.

Section WithProject.
Context {U : UnicodeDigits} {FO : FloatOps}.
Variable P : project.
(** The goroutines of a state. *)
Fixpoint gorPaths (n : nat) (t : gor) : list (list nat) :=
  match n with
  | O => []
  | S n =>
    [] :: match t with
          | InLoop _ _ _ _ _ _ kids => flat_map (fun jk => map (cons (fst jk)) (gorPaths n (snd jk))) (List.combine (seq 0 (length kids)) kids)
          | _ => []
          end
  end.
Definition allPaths (m : mstate) : list (list nat) :=
  match m with
  | Running _ kids => [] :: flat_map (fun jk => map (cons (fst jk)) (gorPaths 20 (snd jk))) (List.combine (seq 0 (length kids)) kids)
  | Printing todo _ => [[]; [0%nat]]
  | _ => []
  end.
Definition isNil {A} (l : list A) : bool := match l with [] => true | _ => false end.
Definition beginsAddb (path : list nat) (m : mstate) : bool :=
  match mGorAt path m with Some (InFrame (Called _ _)) => true | _ => false end.
Definition apartb (path : list nat) (m : mstate) : bool := negb (beginsAddb path m) || isNil (mAdders m).
(** At most [k] transitions, always of the first (last) goroutine that can move
    without overlapping calls of addSource. *)
Fixpoint greedy (last : bool) (k : nat) (s : glob * mstate) : glob * mstate :=
  match k with
  | O => s
  | S k =>
    let paths := if last then rev (allPaths (snd s)) else allPaths (snd s) in
    match find (fun p => apartb p (snd s) && match stepM P 200 p s with Some _ => true | None => false end) paths with
    | None => s
    | Some p => match stepM P 200 p s with Some s' => greedy last k s' | None => s end
    end
  end.
Lemma greedy_apart last k : forall s, reachApart P s -> reachApart P (greedy last k s).
Proof.
  induction k as [|k IH]; intros s H; cbn [greedy]; auto. cbv zeta.
  destruct (find _ _) as [p|] eqn:E; auto. destruct (stepM P 200 p s) as [s'|] eqn:Es; auto. apply IH. eapply raStep; [exact H|].
  apply find_some in E as (_ & E). apply andb_true_iff in E as (E & _). exists 200%nat, p. split; auto. intros (file & out & B).
  unfold apartb, beginsAddb in E. rewrite B in E. cbn in E. destruct (mAdders (snd s)); auto; discriminate.
Qed.
Lemma apart_reach s : reachApart P s -> reach P s.
Proof. induction 1 as [|s s' _ IH (n & p & H & _)]; [constructor|]. eapply reachStep; [exact IH|]. exists n, p. auto. Qed.
Lemma greedy_reach last k : forall s, reach P s -> reach P (greedy last k s).
Proof.
  induction k as [|k IH]; intros s H; cbn [greedy]; auto. cbv zeta.
  destruct (find _ _) as [p|]; auto. destruct (stepM P 200 p s) as [s'|] eqn:Es; auto. apply IH. eapply reachStep; [exact H|].
  exists 200%nat, p. auto.
Qed.
Lemma paths_reach n paths : forall s s', reach P s -> runPaths P n paths s = Some s' -> reach P s'.
Proof.
  induction paths as [|p paths IH]; intros s s' H E; cbn [runPaths] in E; [inversion E; subst; auto|].
  destruct (stepM P n p s) as [s1|] eqn:Es; [|discriminate]. eapply IH; [|exact E]. eapply reachStep; [exact H|]. exists n, p. auto.
Qed.
End WithProject.
(** [k] transitions of the goroutine at [path]. *)
Definition times (k : nat) (path : list nat) : list (list nat) := repeat path k.
