(** Property theorems C59: the errors that Compile reports. *)
From Verif Require Import Bytes Utf8 Source Lexer Ast Parser Printer Transformer Resolver Compile CompileSpec ErrSpec ErrSound ErrComplete ErrChain ErrExamples
  Samples TransSamples CompileSamples CompileWitness.

(** ** C59 *)
(** Full claim: when Compile returns, its errors are the faults of the project,
    those of every entry and of everything that it imports, and no others.  It
    is false; see the refutations below.

    Imports not inlined, any schedule, at any time: every error reported so far
    is a fault of the project ([genuine], ErrSpec.v), of the kind, file, place
    and message reported. *)
Theorem C59_genuine_partial : forall (U : UnicodeDigits) (FO : FloatOps) P, o_imports (p_opts P) <> ImportInline ->
  forall g m, reach P (g, m) -> Forall (genuine P g) (g_errors g).
Proof. exact @C59_sound_lemma. Qed.
Print Assumptions C59_genuine_partial.
Example C59_sample : o_imports (p_opts faulty) <> ImportInline /\
  exists g fs, @reachApart asciiOnly milli faulty (g, Finished fs) /\ map kindOf (g_errors g) = [0; 1; 2; 3; 4; 4]%nat.
Proof. exact C59_sample_lemma. Qed.
(** ... calls of addSource apart: the faults of the last entry, of the file its
    last @import names, and so on, are reported.  Missing: other entries and
    @imports, for which it is false. *)
Theorem C59_reported_partial : forall (U : UnicodeDigits) (FO : FloatOps) P, o_imports (p_opts P) <> ImportInline ->
  forall g fs file, reachApart P (g, Finished fs) -> asked P file -> reported P g file.
Proof. exact @C59_reported_lemma. Qed.
Print Assumptions C59_reported_partial.
Example C59_asked : @asked asciiOnly faulty (B "/m") /\ @asked asciiOnly faulty (B "/s") /\ @lastImport asciiOnly faulty (B "/s") (B "gone") /\
  p_resolve faulty (B "gone") (fpDir (B "/s")) = None /\ exists nds rs, @transformsTo asciiOnly milli faulty (B "/s") nds rs /\ length rs = 1%nat.
Proof. exact C59_asked_lemma. Qed.
(** One entry and no file with two @imports: the full claim, any schedule. *)
Theorem C59_exact_partial : forall (U : UnicodeDigits) (FO : FloatOps) P, o_imports (p_opts P) <> ImportInline ->
  forall e, p_entries P = [e] -> atMostOne P ->
  forall g fs, reach P (g, Finished fs) -> Forall (genuine P g) (g_errors g) /\ forall file, requested P file -> reported P g file.
Proof. exact @C59_chain_lemma. Qed.
Print Assumptions C59_exact_partial.
Example C59_chain_sample : o_imports (p_opts faultyChain) <> ImportInline /\ p_entries faultyChain = [B "/m"] /\ @atMostOne asciiOnly faultyChain /\
  exists g fs, @reach asciiOnly milli faultyChain (g, Finished fs) /\ map kindOf (g_errors g) = [3; 4; 4]%nat.
Proof. exact C59_chain_sample_lemma. Qed.

(** A missing entry that is not reported: the goroutines of both entries read
    the last value of the loop variable. *)
Theorem C59_lost_entry_refuted : exists g fs, @reachApart asciiOnly milli lostEntry (g, Finished fs) /\ In (B "/none") (p_entries lostEntry) /\
  p_abs lostEntry (B "/none") = Some (B "/none") /\ p_read lostEntry (B "/none") = None /\ g_errors g = [].
Proof. exact C59_lost_entry_lemma. Qed.
Print Assumptions C59_lost_entry_refuted.
(** The same for the @imports of one file. *)
Theorem C59_lost_import_refuted : exists g fs, @reachApart asciiOnly milli lostImport (g, Finished fs) /\ p_entries lostImport = [B "/a"] /\
  @imports asciiOnly lostImport (B "/a") (B "gone") /\ p_resolve lostImport (B "gone") (fpDir (B "/a")) = None /\ g_errors g = [].
Proof. exact C59_lost_import_lemma. Qed.
Print Assumptions C59_lost_import_refuted.
(** Overlapping calls of addSource: a syntax error in the last entry that is
    not reported. *)
Theorem C59_lost_file_refuted : exists g fs sp msg, @reach asciiOnly milli lostFile (g, Finished fs) /\ p_entries lostFile = [B "/a"; B "/bad"] /\
  p_abs lostFile (B "/bad") = Some (B "/bad") /\ @syntaxError asciiOnly lostFile (B "/bad") sp msg /\ g_errors g = [].
Proof. exact C59_lost_file_lemma. Qed.
Print Assumptions C59_lost_file_refuted.
(** Imports inlined: a report against a file at a place behind its end. *)
Theorem C59_blamed_refuted : exists g fs s r src, @reachApart asciiOnly milli blamed (g, Finished fs) /\ In (ETransform s r) (g_errors g) /\
  nth_error (g_srcs g) s = Some src /\ src_path src = B "/a" /\ (length (src_content src) < sp_start (rp_sp r))%nat.
Proof. exact C59_blamed_lemma. Qed.
Print Assumptions C59_blamed_refuted.
