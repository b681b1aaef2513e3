(** Cases for C55. *)
From Verif Require Import Bytes Utf8 Source Lexer Ast BytesFacts Parser ParseMono Printer Transformer Resolver Compile CompileSpec CompileSteps InlineSpec RaceSpec RaceProofs
  Samples TransSamples CompileSamples CompileWitness InlineExamples.
#[local] Existing Instance asciiOnly.
#[local] Existing Instance milli.

(** A chain of imports has no race. *)
Lemma C55_chain_lemma : (length (p_entries row) < 2)%nat /\ (forall f, involved row f -> ~ importsTwo row f) /\
  exists g out, reach row (g, Finished [(B "/a", out)]).
Proof.
  split; [cbn; lia|]. split.
  - intros f Hf (c & run & n & ss & lines & R & Hp & L). destruct (row_one f Hf) as [_ H]. specialize (H c run n ss lines R Hp). lia.
  - destruct C53_example_lemma as (_ & _ & _ & g & out & rest & H & _). exists g, out. exact H.
Qed.
(** A file with two @imports. *)
Definition fork : project := simple [B "/a"] [(B "/a", B "@import ""/x"";@import ""/y"";"); (B "/x", B "p{q:r}"); (B "/y", B "x{y:z}")] noOpts.
Definition parsesTwo (content : bytes) : bool := match parse 0 200 content with ParseOk ss _ => (2 <=? length (ss_imports ss))%nat | _ => false end.
Lemma parsesTwo_importsTwo P f content : p_read P f = Some content -> parsesTwo content = true -> importsTwo P f.
Proof.
  unfold parsesTwo. intros R H. destruct (parse 0 200 content) as [ss lines| | |] eqn:E; try discriminate. apply Nat.leb_le in H.
  exists content, 0%nat, 200%nat, ss, lines. auto.
Qed.
Lemma C55_fork_lemma : length (p_entries fork) = 1%nat /\ exists f, involved fork f /\ importsTwo fork f.
Proof.
  split; [reflexivity|]. exists (B "/a"). split; [exists (B "/a"), (B "/a"); split; [left; reflexivity|]; split; [reflexivity|left; reflexivity]|].
  eapply parsesTwo_importsTwo; [reflexivity|vm_compute; reflexivity].
Qed.
(** Two entries that inline one file: both are about to transform its nodes. *)
Definition sharing : project := simple [B "/a"; B "/b"] [(B "/a", B "@import ""/c"";"); (B "/b", B "@import ""/c"";"); (B "/c", B "x{y:z}")] inlineOpts.
Definition sharingPaths : list (list nat) :=
  ([[]; [0]; []; [1]] ++ repeat [0] 11 ++ repeat [0; 0] 14 ++ repeat [1] 11 ++ repeat [1; 0] 5)%nat.
Definition ofTree (a : access) : option nref := match a_var a with VTree r => Some r | _ => None end.
Definition trees (P : project) (p : list nat) (m : mstate) : list nref :=
  flat_map (fun a => match ofTree a with Some r => if a_write a then match a_lock a with None => [r] | Some _ => [] end else [] | None => [] end) (accesses P p m).
Lemma trees_in P p m r : In r (trees P p m) -> In (writes (VTree r) None) (accesses P p m).
Proof.
  unfold trees. rewrite in_flat_map. intros ([v w l] & I & H). unfold ofTree in H. cbn [a_var a_write a_lock] in H. destruct v; try destruct H. destruct w; [|destruct H].
  destruct l; [destruct H|]. destruct H as [<-|[]]. exact I.
Qed.
Lemma C55_nodes_lemma : exists s r, reach sharing s /\ raceOn sharing (VTree r) (snd s).
Proof.
  exists (after sharing sharingPaths), (1, 0)%nat. split; [apply after_reach; vm_compute; reflexivity|].
  exists [0%nat], [1%nat], (writes (VTree (1, 0)%nat) None), (writes (VTree (1, 0)%nat) None). split; [discriminate|]. split; [apply trees_in; vm_compute; tauto|]. split; [apply trees_in; vm_compute; tauto|].
  split; [|reflexivity]. split; [reflexivity|]. split; [left; reflexivity|]. intros [_ X]. apply X. reflexivity.
Qed.
Lemma C55_two_lemma : nth_error (p_entries two) 1 = Some (B "/b") /\ p_abs two (B "/b") = Some (B "/b") /\ p_read two (B "/b") <> None.
Proof. split; [reflexivity|]. split; [reflexivity|]. discriminate. Qed.
