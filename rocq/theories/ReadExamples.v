(** Concrete readings for C47. *)
From Verif Require Import Bytes Utf8 Source Ast Lexer LexSpec Parser Strip ReadSpec ReadProofs Samples.

(** A descendant selector with a comment in it, a math function with two
    precedences and "!important", between an import and a media rule. *)
Definition text47 : bytes := B "@import 'x';a /**/b{c:calc(1px + 2px*3) !important}@media print{p{d:e}}".
Definition z0 : span := mkSpan 0 0.
Definition tree47 : list node :=
  [NAt (mkAt 0 z0 (B "import") [APString z0 (B "x")] None);
   NRule (mkRule 0 z0 (PrSel (z0, [(z0, [SType z0 (B "a"); SWhitespace z0; SType z0 (B "b")])])) z0
     [DDecl z0 (B "c") [VFunc z0 (B "calc")
        [VMath z0 (B "+") (VDim z0 (B "1") (B "px"))
                          (VMath z0 (B "*") (VDim z0 (B "2") (B "px")) (VDim z0 (B "3") []))]] true]);
   NAt (mkAt 0 z0 (B "media") [APMql (z0, [(z0, [MIdent z0 (B "print")])])]
     (Some (BRules z0 [mkRule 0 z0 (PrSel (z0, [(z0, [SType z0 (B "p")])])) z0
                         [DDecl z0 (B "d") [VIdent z0 (B "e")] false]])))].
Lemma C47_sample_lemma : exists ss lines, @parse asciiOnly 0 200 text47 = ParseOk ss lines /\
  strip (ss_nodes ss) = tree47 /\ @reads asciiOnly 0 text47 (ss_nodes ss).
Proof.
  assert (X : exists ss lines, @parse asciiOnly 0 200 text47 = ParseOk ss lines /\ strip (ss_nodes ss) = tree47)
    by (do 2 eexists; split; vm_compute; reflexivity).
  destruct X as (ss & lines & X & Y). exists ss, lines. split; [exact X|]. split; [exact Y|]. exact (C47_lemma _ _ _ _ _ X).
Qed.

(** A comment that holds the word counts as the word, and the token after it
    is dropped. *)
Definition text47b : bytes := B "a{b:c !/*important*/5;}".
Lemma C47_comment_lemma : exists ss lines, @parse asciiOnly 0 60 text47b = ParseOk ss lines /\
  map (fun nd => match nd with NRule r => r_decls r | NAt _ => [] end) (ss_nodes ss) =
    [[DDecl (mkSpan 2 21) (B "b") [VIdent (mkSpan 4 5) (B "c")] true]].
Proof. do 2 eexists. split; vm_compute; reflexivity. Qed.
