(** Two projects that differ only in layout. *)
From Verif Require Import Bytes Utf8 Source Lexer BytesFacts LexSpec Ast Parser Printer PrinterSpec Transformer Resolver Compile CompileSpec CompileEnd InlineSpec InlineExamples ReadSpec ReadProofs LexStreamSpec LexStream FullExamples LexExamples
  Samples TransSamples CompileSamples CompileWitness TwiceExamples AgainSpec JoinSpec LayoutSpec LayoutTokens LayoutProofs LayoutExamples LayoutProjSpec LayoutInline.
#[local] Existing Instance asciiOnly.
#[local] Existing Instance milli.

Definition flat61 : bytes := B "x{y:z}".
Definition airy61 : bytes := B "x{" ++ [LF] ++ B "  y:z}" ++ [LF] ++ B "/* end */".
Definition f1 := mkTk Ident (B "x") [] (sp 0 1) false.
Definition f2 := mkTk LCurly (B "x") [] (sp 1 2) true.
Definition f3 := mkTk Ident (B "y") [] (sp 2 3) false.
Definition f4 := mkTk Colon (B "y") [] (sp 3 4) false.
Definition f5 := mkTk Ident (B "z") [] (sp 4 5) false.
Definition f6 := mkTk RCurly (B "z") [] (sp 5 6) false.
Lemma flat_tokens : tokensOf flat61 [f1; f2; f3; f4; f5; f6].
Proof.
  destruct (newLexer flat61 []) as [l| |] eqn:E; [|vm_compute in E; discriminate E..].
  pose (fl := [true;false;false;false;false;false]).
  assert (X : exists l1, runs fl false l = Some ([f1; f2; f3; f4; f5; f6], false, l1) /\ l_cur l1 = EOF).
  { assert (Y : exists l0 l1, newLexer flat61 [] = Ok l0 /\ runs fl false l0 = Some ([f1; f2; f3; f4; f5; f6], false, l1) /\ l_cur l1 = EOF).
    { do 2 eexists. split; [vm_compute; reflexivity|]. split; vm_compute; reflexivity. }
    destruct Y as (l0 & l1 & Y & Z). rewrite E in Y. injection Y as <-. exists l1. exact Z. }
  destruct X as (l1 & X & C). exists l, l1. split; [exact E|]. split; [apply (runs_path fl); exact X|exact C].
Qed.
Definition flatTree : list node :=
  [NRule (mkRule 0 (sp 0 6) (PrSel (sp 0 1, [(sp 0 1, [SType (sp 0 1) (B "x")])])) (sp 1 6) [DDecl (sp 2 5) (B "y") [VIdent (sp 4 5) (B "z")] false])].
Lemma flat_nodes : gNodes (L := false) flat61 0 [f1; f2; f3; f4; f5; f6] flatTree.
Proof.
  apply (gnRule (L := false) flat61 0 [f1; f2; f3; f4; f5; f6] _ [] []); [|apply gnNil].
  apply (grSel (L := false) flat61 0 [f1] [(sp 0 1, [SType (sp 0 1) (B "x")])] true f2 [f3; f4; f5; f6] (sp 1 6)); [|tokens|].
  - apply (gsOne false [f1] [SType (sp 0 1) (B "x")] true); [|discriminate]. apply (gpsCons false [f1] _ true []); [apply (gpType false f1); tokens|apply gpsNil].
  - exists [f3; f4; f5], f6. split; [reflexivity|]. split; [|tokens].
    apply (gdCons flat61 [f3; f4; f5] _ [] []); [right; reflexivity| |apply gdNil].
    apply (gdDecl flat61 [] f3 f4 [f5] [VIdent (sp 4 5) (B "z")] None); [left; reflexivity|tokens|tokens| |discriminate].
    apply (giValue [f5] _ [] []); [|apply giNil]. apply (gIdent f5). tokens.
Qed.
Lemma flat_airy : respaced 0 flat61 airy61.
Proof.
  assert (T : tokenized flat61 [f1; f2; f3; f4; f5; f6]) by (apply C50_tokens_lemma; exact flat_tokens).
  assert (Rm : roomy 0 (B "x{") (B "y:z}") flatTree).
  { exists [f1; f2; f3; f4; f5; f6]. split; [exact T|]. split; [exact flat_nodes|]. apply (room_compute _ _ _ 1). reflexivity. }
  assert (L1 : layout ([LF] ++ B "  ")) by laid.
  eapply rsMore; [exact (rsAdd 0 (B "x{") ([LF] ++ B "  ") (B "y:z}") flatTree Rm L1 ltac:(discriminate))|].
  pose proof (C61_tree_lemma _ _ _ _ _ Rm L1 ltac:(discriminate)) as Rd.
  assert (L2 : layout ([LF] ++ B "/* end */")) by (apply loBlank; [auto|]; apply (layout_comment (B " end ") []); [reflexivity|laid]).
  exact (rsEnd 0 _ ([LF] ++ B "/* end */") _ Rd L2).
Qed.
Definition chain61 (a x : bytes) : project := simple [B "/a"] [(B "/a", a); (B "x", x)] inlineOpts.
Definition flatChain := chain61 text49 flat61.
Definition airyChain := chain61 pretty49 airy61.
Lemma chains_respaced : respacedProject flatChain airyChain.
Proof.
  do 4 (split; [reflexivity|]). intros f. cbn [p_read flatChain airyChain chain61 simple]. unfold tree. cbn [lookup].
  destruct (beq f (B "/a")).
  - right. exists text49, pretty49. split; [reflexivity|]. split; [reflexivity|exact C61_sample_lemma].
  - destruct (beq f (B "x")); [|left; reflexivity]. right. exists flat61, airy61. split; [reflexivity|]. split; [reflexivity|exact flat_airy].
Qed.
Lemma flat_one : oneImportEach flatChain.
Proof.
  assert (K : forall f g, edge flatChain f g -> f = B "/a" /\ g = B "x").
  { intros f g (spec & rel & I & R2 & A). pose proof I as (c & _ & _ & _ & _ & R & _).
    change (Some spec = Some rel) in R2. change (Some rel = Some g) in A. injection R2 as <-. injection A as <-.
    apply lookup_In in R as [R|[R|[]]]; injection R as <- <-.
    - apply (imports_compute flatChain _ _ text49) in I; [|reflexivity|vm_compute; discriminate].
      replace (importsIn _) with [B "x"] in I by (vm_compute; reflexivity). destruct I as [<-|[]]. auto.
    - apply (imports_compute flatChain _ _ flat61) in I; [|reflexivity|vm_compute; discriminate].
      replace (importsIn _) with (@nil bytes) in I by (vm_compute; reflexivity). destruct I. }
  intros f _. split.
  - intros L. assert (X : forall a b, leads flatChain a b -> a = B "/a" /\ b = B "x").
    { induction 1 as [b H|b h _ IH H]; apply K in H as [-> ->]; auto. destruct IH as [_ IH]. discriminate. }
    apply X in L as [-> L]. discriminate.
  - intros c run n ss lines R Hp.
    assert (L : forall k, parse 0 200 c <> ParseTimeout -> length (importsIn c) = k -> length (ss_imports ss) = k).
    { intros k E0 <-. pose proof (CompileEnd.parse_agree 0 200 run n c E0) as E. rewrite Hp in E. specialize (E ltac:(discriminate)). unfold importsIn.
      destruct (parse 0 200 c) as [ss0 l0| | |]; try discriminate. injection E as -> ->. cbn. rewrite !map_length. reflexivity. }
    apply lookup_In in R as [R|[R|[]]]; injection R as <- <-.
    + rewrite (L 1%nat); [lia|vm_compute; discriminate|vm_compute; reflexivity].
    + rewrite (L 0%nat); [lia|vm_compute; discriminate|vm_compute; reflexivity].
Qed.
Lemma C61_inline_sample_lemma : respacedProject flatChain airyChain /\ o_imports (p_opts flatChain) = ImportInline /\ oneImportEach flatChain /\ p_entries flatChain = [B "/a"] /\
  (exists g, reach flatChain (g, Finished [(B "/a", outOf flatChain)])) /\ (exists g, reach airyChain (g, Finished [(B "/a", outOf airyChain)])) /\
  outOf flatChain <> outOf airyChain /\ exists rest, outOf flatChain = B "x{y:z}a .b{*d:calc(2*i)!important;e:f}" ++ rest.
Proof.
  split; [exact chains_respaced|]. split; [reflexivity|]. split; [exact flat_one|]. split; [reflexivity|]. split; [|split; [|split]].
  - exists (fst (greedy flatChain true 200 start)). replace [(B "/a", outOf flatChain)] with (outputs (greedy flatChain true 200 start)) by (vm_compute; reflexivity). apply greedy_finished; [constructor|vm_compute; reflexivity].
  - exists (fst (greedy airyChain true 200 start)). replace [(B "/a", outOf airyChain)] with (outputs (greedy airyChain true 200 start)) by (vm_compute; reflexivity). apply greedy_finished; [constructor|vm_compute; reflexivity].
  - assert (N : beq (outOf flatChain) (outOf airyChain) = false) by (vm_compute; reflexivity). intros E. rewrite E, beq_refl in N. discriminate N.
  - exists (skipn 38 (outOf flatChain)). vm_compute. reflexivity.
Qed.

(** The same files, followed. *)
Definition many61 (a x : bytes) : project := simple [B "/a"] [(B "/a", a); (B "x", x)] followOpts.
Definition flatMany := many61 text49 flat61.
Definition airyMany := many61 pretty49 airy61.
Definition nthOut (P : project) (n : nat) : bytes := match nth_error (outputs (greedy P false 300 start)) n with Some (_, out) => out | None => [] end.
Lemma C61_many_sample_lemma : respacedProject flatMany airyMany /\ o_imports (p_opts flatMany) = ImportFollow /\
  exists g g' a x a' x', reachApart flatMany (g, Finished [(B "x", x); (B "/a", a)]) /\ reachApart airyMany (g', Finished [(B "x", x'); (B "/a", a')]) /\ x <> x'.
Proof.
  split; [|split; [reflexivity|]].
  - destruct chains_respaced as (_ & _ & _ & _ & E). do 4 (split; [reflexivity|]). exact E.
  - exists (fst (greedy flatMany false 300 start)), (fst (greedy airyMany false 300 start)), (nthOut flatMany 1), (nthOut flatMany 0), (nthOut airyMany 1), (nthOut airyMany 0).
    split; [|split].
    + replace [(B "x", nthOut flatMany 0); (B "/a", nthOut flatMany 1)] with (outputs (greedy flatMany false 300 start)) by (vm_compute; reflexivity). apply greedy_apart_finished; [constructor|vm_compute; reflexivity].
    + replace [(B "x", nthOut airyMany 0); (B "/a", nthOut airyMany 1)] with (outputs (greedy airyMany false 300 start)) by (vm_compute; reflexivity). apply greedy_apart_finished; [constructor|vm_compute; reflexivity].
    + assert (N : beq (nthOut flatMany 0) (nthOut airyMany 0) = false) by (vm_compute; reflexivity). intros E. rewrite E, beq_refl in N. discriminate N.
Qed.
