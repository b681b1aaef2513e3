(** Samples for C62. *)
From Verif Require Import Bytes Utf8 Source Lexer LexSpec Ast Walk WalkSpec Parser Printer WalkProofs Samples SelectorSpec.
#[local] Existing Instance asciiOnly.

Definition nodes62 (text : bytes) : list node := match parse 0 200 text with ParseOk ss _ => ss_nodes ss | _ => [] end.
Lemma selector_found text ss lines s k : parse 0 200 text = ParseOk ss lines ->
  (match WalkProofs.flat 30 (NdSheet (nodes62 text)) with Some vs => nth_error vs k | None => None end) = Some (NdSelector s) -> selectorIn (ss_nodes ss) s.
Proof.
  intros E H. unfold nodes62 in H. rewrite E in H. destruct (WalkProofs.flat 30 (NdSheet (ss_nodes ss))) as [vs|] eqn:F; [|discriminate].
  exists vs. split; [exact (WalkProofs.flat_ok 30 _ _ F)|]. eapply nth_error_In. exact H.
Qed.
Lemma comments_start s : onlyComments s -> match s with [] => True | b :: _ => b = CR \/ b = "/"%byte end.
Proof.
  unfold onlyComments. intros H. destruct H as [|t r W _ _|body t r _ (u1 & u2 & u3 & H1 & _ & _ & E & _) _]; [exact I|discriminate W|].
  subst t. destruct H1 as [E1|E1]; subst u1; cbn; auto.
Qed.
Definition text62 : bytes := B "a[b] c{d:e}".
Lemma C62_refuted_lemma : exists ss lines sp p q r, parse 0 200 text62 = ParseOk ss lines /\ selectorIn (ss_nodes ss) (sp, [p; q; r]) /\
  isAttr q = true /\ r = SType (mkSpan 5 6) (B "c") /\ between text62 q r = B " " /\ ~ onlyComments (between text62 q r) /\
  print None (ss_nodes ss) = Some (B "a[b]c{d:e}") /\ exists ss' lines', parse 0 200 (B "a[b]c{d:e}") = ParseOk ss' lines' /\ print None (ss_nodes ss') = Some (B "a[b]c{d:e}").
Proof.
  destruct (parse 0 200 text62) as [ss lines| | |] eqn:E; [|vm_compute in E; discriminate..].
  exists ss, lines, (mkSpan 0 6), (SType (mkSpan 0 1) (B "a")), (SAttr (mkSpan 1 4) (B "b") [] VNil []), (SType (mkSpan 5 6) (B "c")).
  split; [reflexivity|]. split; [apply (selector_found text62 ss lines _ 3 E); vm_compute; reflexivity|].
  split; [reflexivity|]. split; [reflexivity|]. split; [reflexivity|]. split.
  { change (between text62 _ _) with (B " "). intros H. apply comments_start in H. cbn in H. destruct H; discriminate. }
  assert (N : ss_nodes ss = nodes62 text62) by (unfold nodes62; rewrite E; reflexivity).
  split; [rewrite N; vm_compute; reflexivity|]. do 2 eexists. split; [vm_compute; reflexivity|vm_compute; reflexivity].
Qed.
Definition inner62 : bytes := B "a :x(b/**/ c){d:e}".
Definition deep62 : list selpart := [SType (mkSpan 5 6) (B "b"); SWhitespace (mkSpan 10 11); SType (mkSpan 11 12) (B "c")].
Lemma C62_sample_lemma : exists ss lines, parse 0 200 inner62 = ParseOk ss lines /\
  selectorIn (ss_nodes ss) (mkSpan 0 13, [SType (mkSpan 0 1) (B "a"); SWhitespace (mkSpan 1 2); SPseudo (mkSpan 2 13) (B "x") (PASel (mkSpan 5 12) [(mkSpan 5 12, deep62)])]) /\
  selectorIn (ss_nodes ss) (mkSpan 5 12, deep62) /\ between inner62 (SType (mkSpan 5 6) (B "b")) (SWhitespace (mkSpan 10 11)) = B "/**/" /\
  print None (ss_nodes ss) = Some (B "a :x(b c){d:e}").
Proof.
  destruct (parse 0 200 inner62) as [ss lines| | |] eqn:E; [|vm_compute in E; discriminate..].
  exists ss, lines. assert (N : ss_nodes ss = nodes62 inner62) by (unfold nodes62; rewrite E; reflexivity).
  split; [reflexivity|]. split; [apply (selector_found inner62 ss lines _ 3 E); vm_compute; reflexivity|].
  split; [apply (selector_found inner62 ss lines _ 8 E); vm_compute; reflexivity|]. split; [reflexivity|]. rewrite N. vm_compute. reflexivity.
Qed.
