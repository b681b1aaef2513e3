(** Property theorems C55: data races between the goroutines of Compile. *)
From Verif Require Import Bytes Utf8 Source Lexer Ast Parser Printer Transformer Resolver Compile CompileSpec RaceSpec RaceProofs
  Samples TransSamples CompileSamples CompileWitness InlineExamples RaceExamples.

(** ** C55 *)
(** The accesses of every goroutine in every state: [accesses], RaceSpec.v.  A
    race is reachable exactly for two entries or more, or if a file that the
    entries lead to has two @imports or more. *)
Theorem C55_races_exactly : forall (U : UnicodeDigits) (FO : FloatOps) P,
  (exists s, reach P s /\ race P (snd s)) <-> (2 <= length (p_entries P))%nat \/ exists f, involved P f /\ importsTwo P f.
Proof. exact @race_iff. Qed.
Print Assumptions C55_races_exactly.
Example C55_chain_sample : (length (p_entries row) < 2)%nat /\ (forall f, @involved asciiOnly row f -> ~ @importsTwo asciiOnly row f) /\
  exists g out, @reach asciiOnly milli row (g, Finished [(B "/a", out)]).
Proof. exact C55_chain_lemma. Qed.
Example C55_fork_sample : length (p_entries fork) = 1%nat /\ exists f, @involved asciiOnly fork f /\ @importsTwo asciiOnly fork f.
Proof. exact C55_fork_lemma. Qed.
(** In a project without races at most one goroutine is about to access
    anything until the printing starts. *)
Theorem C55_one_at_a_time : forall (U : UnicodeDigits) (FO : FloatOps) P, (length (p_entries P) <= 1)%nat -> forall g k kids p q,
  ~ (exists f, involved P f /\ importsTwo P f) -> reach P (g, Running k kids) ->
  accesses P p (Running k kids) <> [] -> accesses P q (Running k kids) <> [] -> p = q.
Proof. exact @one_at_a_time. Qed.
Print Assumptions C55_one_at_a_time.

(** *** Where the races are *)
(** The variable of the loop over the entries. *)
Theorem C55_refuted : forall (U : UnicodeDigits) (FO : FloatOps) P, (2 <= length (p_entries P))%nat -> exists s, reach P s /\ raceOn P (VLoop []) (snd s).
Proof. exact @entries_race. Qed.
Print Assumptions C55_refuted.
(** The map outputsByIndex, written without a lock: Go stops the program when
    it notices.  One readable entry after the first is enough. *)
Theorem C55_outputs_refuted : forall (U : UnicodeDigits) (FO : FloatOps) P i e f, (1 <= i)%nat -> nth_error (p_entries P) i = Some e -> p_abs P e = Some f ->
  p_read P f <> None -> exists s, reach P s /\ raceOn P VOutputs (snd s).
Proof. exact @outputs_race. Qed.
Print Assumptions C55_outputs_refuted.
(** The counter nextIndex, read under the lock and written after it. *)
Theorem C55_next_refuted : forall (U : UnicodeDigits) (FO : FloatOps) P i e f, (1 <= i)%nat -> nth_error (p_entries P) i = Some e -> p_abs P e = Some f ->
  p_read P f <> None -> exists s, reach P s /\ raceOn P VNext (snd s).
Proof. exact @next_race. Qed.
Print Assumptions C55_next_refuted.
Example C55_entries_sample : nth_error (p_entries two) 1 = Some (B "/b") /\ p_abs two (B "/b") = Some (B "/b") /\ p_read two (B "/b") <> None.
Proof. exact C55_two_lemma. Qed.
(** The nodes of a file that two entries inline. *)
Theorem C55_nodes_refuted : exists s r, @reach asciiOnly milli sharing s /\ raceOn sharing (VTree r) (snd s).
Proof. exact C55_nodes_lemma. Qed.
Print Assumptions C55_nodes_refuted.
