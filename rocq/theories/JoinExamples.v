(** Two files in a row: examples. *)
From Verif Require Import Bytes Utf8 Source Lexer LexSpec Ast Parser Printer ReadSpec ReadProofs LexStreamSpec LexStream FullExamples LexExamples Samples JoinSpec JoinProofs.
#[local] Existing Instance asciiOnly.

Definition gap60 : bytes := B " /* x; */ ".
Definition file60 : bytes := gap60 ++ text49.
Definition tree60 : list node := map (moveNode (later 10)) tree49.
(** White space and a comment alone are a plain file without rules. *)
Lemma gap60_lemma : readsBytesPlainly 0 gap60 [].
Proof.
  exists []. split; [|constructor]. apply C50_tokens_lemma.
  assert (Y : exists l, newLexer gap60 [] = Ok l /\ l_cur l = EOF) by (eexists; split; vm_compute; reflexivity).
  destruct Y as (l & E & C). exists l, l. split; [exact E|]. split; [constructor|exact C].
Qed.
Lemma file60_lemma : readsBytesPlainly 0 file60 tree60.
Proof. exact (C60_reads_lemma _ _ _ _ _ gap60_lemma C50_sample_lemma). Qed.
(** The places of the second copy, found by the parser. *)
Lemma C60_sample_lemma : readsBytesPlainly 0 text49 tree49 /\ readsBytesPlainly 0 file60 tree60 /\
  (exists ss lines, parse 0 200 (text49 ++ file60) = ParseOk ss lines /\ ss_nodes ss = tree49 ++ map (moveNode (later 51)) tree60 /\
    map fst (ss_imports ss) = [B "x"; B "x"] /\ match nth_error (ss_nodes ss) 3 with Some (NRule r) => r_sp r = mkSpan 79 112 | _ => False end).
Proof.
  split; [exact C50_sample_lemma|]. split; [exact file60_lemma|]. do 2 eexists. split; [vm_compute; reflexivity|]. repeat split; vm_compute; reflexivity.
Qed.
(** A file that ends inside an at-rule is no file of its own, so what follows
    cannot be told from it. *)
Lemma C60_open_lemma : exists ss lines sp msg l2,
  parse 0 200 (B "@import 'x'") = ParseErr sp msg l2 /\ parse 0 200 (B "@import 'x'" ++ B "a{b:c}") = ParseOk ss lines /\
  match ss_nodes ss with [NAt a; NRule r] => r_prelude r = PrNil /\ length (ar_preludes a) = 2%nat | _ => False end.
Proof. do 5 eexists. split; [vm_compute; reflexivity|]. split; [vm_compute; reflexivity|]. vm_compute. auto. Qed.
