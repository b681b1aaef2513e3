(** Cases for C59. *)
From Verif Require Import Bytes Utf8 Source Lexer Ast BytesFacts Parser Printer Transformer Resolver Compile CompileSpec ErrSpec
  Samples TransSamples CompileSamples CompileWitness.
#[local] Existing Instance asciiOnly.
#[local] Existing Instance milli.

(** /m imports /s and uses a variable nobody defines, /s does too and imports
    "gone", which cannot be resolved; "?" has no absolute path, /none is not
    there and /bad is not CSS. *)
Definition faultyTree : list (bytes * bytes) :=
  [(B "/m", B "@import ""/s"";a{b:var(--x)}"); (B "/s", B "@import ""gone"";p{q:var(--y)}"); (B "/bad", B "}")].
Definition faulty : project := mkProject [B "?"; B "/none"; B "/bad"; B "/m"] (fun f => if beq f (B "?") then None else Some f) (tree faultyTree)
  (fun spec _ => if beq spec (B "gone") then None else Some spec) allOpts.
Definition kindOf (e : cerror) : nat :=
  match e with EAbs _ => 0 | ERead _ => 1 | EParse _ _ _ => 2 | EResolve _ => 3 | ETransform _ _ => 4 | EPrint _ => 5 end%nat.
Definition ended (P : project) (last : bool) : glob := fst (greedy P last 400 start).
Definition filesOf (P : project) (last : bool) : files := match snd (greedy P last 400 start) with Finished fs => fs | _ => [] end.
Lemma ended_apart P last : snd (greedy P last 400 start) = Finished (filesOf P last) -> reachApart P (ended P last, Finished (filesOf P last)).
Proof. intros H. rewrite <- H. unfold ended. rewrite <- surjective_pairing. apply greedy_apart. constructor. Qed.
Lemma C59_sample_lemma : o_imports (p_opts faulty) <> ImportInline /\
  exists g fs, reachApart faulty (g, Finished fs) /\ map kindOf (g_errors g) = [0; 1; 2; 3; 4; 4]%nat.
Proof.
  split; [discriminate|]. exists (ended faulty true), (filesOf faulty true). split; [apply ended_apart; vm_compute; reflexivity|vm_compute; reflexivity].
Qed.
Lemma C59_asked_lemma : asked faulty (B "/m") /\ asked faulty (B "/s") /\ lastImport faulty (B "/s") (B "gone") /\ p_resolve faulty (B "gone") (fpDir (B "/s")) = None /\
  exists nds rs, transformsTo faulty (B "/s") nds rs /\ length rs = 1%nat.
Proof.
  assert (A : asked faulty (B "/m")) by (apply (askedEntry _ [B "?"; B "/none"; B "/bad"]); reflexivity).
  split; [exact A|]. split; [|split; [|split; [reflexivity|]]].
  - apply (askedImport _ (B "/m") (B "/m") (B "/s")); [exact A|reflexivity| |reflexivity].
    eexists _, 100%nat, _, _, [], _. split; [reflexivity|]. split; vm_compute; reflexivity.
  - eexists _, 100%nat, _, _, [], _. split; [reflexivity|]. split; vm_compute; reflexivity.
  - eexists _, _. split; [eexists _, 100%nat, 100%nat, _, _, _, _; split; [reflexivity|]; split; [vm_compute; reflexivity|]; split; [vm_compute; reflexivity|split; reflexivity]|vm_compute; reflexivity].
Qed.
(** ... with the one entry /m. *)
Definition faultyChain : project := mkProject [B "/m"] Some (tree faultyTree) (fun spec _ => if beq spec (B "gone") then None else Some spec) allOpts.
Lemma C59_chain_sample_lemma : o_imports (p_opts faultyChain) <> ImportInline /\ p_entries faultyChain = [B "/m"] /\ atMostOne faultyChain /\
  exists g fs, reach faultyChain (g, Finished fs) /\ map kindOf (g_errors g) = [3; 4; 4]%nat.
Proof.
  split; [discriminate|]. split; [reflexivity|]. split.
  - intros f _ c run n ss lines R Hp.
    assert (L : parse 0 200 c <> ParseTimeout -> (length (importsIn c) <= 1)%nat -> (length (ss_imports ss) <= 1)%nat).
    { intros E0 L1. pose proof (CompileEnd.parse_agree 0 200 run n c E0) as E. rewrite Hp in E. specialize (E ltac:(discriminate)). unfold importsIn in L1.
      destruct (parse 0 200 c) as [ss0 l0| | |]; try discriminate. injection E as -> ->. cbn. rewrite !map_length in *. exact L1. }
    apply lookup_In in R as [R|[R|[R|[]]]]; injection R as <- <-; (apply L; [vm_compute; discriminate|vm_compute; lia]).
  - exists (ended faultyChain true), (filesOf faultyChain true). split; [apply apart_reach, ended_apart; vm_compute; reflexivity|vm_compute; reflexivity].
Qed.

(** The first of two entries is not there, the first of two @imports cannot be
    resolved: no error. *)
Definition lostEntry : project := simple [B "/none"; B "/a"] [(B "/a", B "a{b:c}")] allOpts.
Lemma C59_lost_entry_lemma : exists g fs, reachApart lostEntry (g, Finished fs) /\ In (B "/none") (p_entries lostEntry) /\
  p_abs lostEntry (B "/none") = Some (B "/none") /\ p_read lostEntry (B "/none") = None /\ g_errors g = [].
Proof.
  exists (ended lostEntry false), (filesOf lostEntry false). split; [apply ended_apart; vm_compute; reflexivity|]. split; [left; reflexivity|]. repeat split.
Qed.
Definition lostImport : project := mkProject [B "/a"] Some (tree [(B "/a", B "@import ""gone"";@import ""/x"";"); (B "/x", B "a{b:c}")])
  (fun spec _ => if beq spec (B "gone") then None else Some spec) allOpts.
Lemma C59_lost_import_lemma : exists g fs, reachApart lostImport (g, Finished fs) /\ p_entries lostImport = [B "/a"] /\ imports lostImport (B "/a") (B "gone") /\
  p_resolve lostImport (B "gone") (fpDir (B "/a")) = None /\ g_errors g = [].
Proof.
  exists (ended lostImport false), (filesOf lostImport false). split; [apply ended_apart; vm_compute; reflexivity|]. split; [reflexivity|]. split; [|split; reflexivity].
  eexists _, 0%nat, 100%nat, _, _. split; [reflexivity|]. split; [vm_compute; reflexivity|left; reflexivity].
Qed.
(** Both files get the index 0, which names the source of the first when they
    are parsed: the syntax error in the last entry is not reported. *)
Definition lostFile : project := simple [B "/a"; B "/bad"] [(B "/a", B "a{b:c}"); (B "/bad", B "}")] allOpts.
Definition lostPaths : list (list nat) := ([[]] ++ repeat [0] 4 ++ [[]] ++ repeat [1] 5 ++ [[0]])%nat.
Definition lostEnd : glob * mstate := greedy lostFile false 400 (after lostFile lostPaths).
Lemma C59_lost_file_lemma : exists g fs sp msg, reach lostFile (g, Finished fs) /\ p_entries lostFile = [B "/a"; B "/bad"] /\ p_abs lostFile (B "/bad") = Some (B "/bad") /\
  syntaxError lostFile (B "/bad") sp msg /\ g_errors g = [].
Proof.
  exists (fst lostEnd). eexists _, _, _. split; [|split; [reflexivity|split; [reflexivity|split; [eexists _, 100%nat, _; split; [reflexivity|vm_compute; reflexivity]|vm_compute; reflexivity]]]].
  apply greedy_finished; [apply after_reach|]; vm_compute; reflexivity.
Qed.
(** With imports inlined, an error of the imported file is also reported
    against the file that imports it, at a place that file does not have. *)
Definition blamed : project := simple [B "/a"] [(B "/a", B "@import ""/b"";"); (B "/b", B "aaaaaaaaaaaaaaaaaaaaaaaa{b:var(--x)}")] inlineOpts.
Lemma C59_blamed_lemma : exists g fs s r src, reachApart blamed (g, Finished fs) /\ In (ETransform s r) (g_errors g) /\ nth_error (g_srcs g) s = Some src /\
  src_path src = B "/a" /\ (length (src_content src) < sp_start (rp_sp r))%nat.
Proof.
  exists (ended blamed true), (filesOf blamed true). eexists 0%nat, _, _. split; [apply ended_apart; vm_compute; reflexivity|]. split; [vm_compute; right; left; reflexivity|].
  split; [vm_compute; reflexivity|]. split; [reflexivity|]. vm_compute. lia.
Qed.
