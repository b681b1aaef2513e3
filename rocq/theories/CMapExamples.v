(** Projects for C64. *)
From Verif Require Import Bytes Utf8 Source SourceSpec LexSpec Lexer Ast Parser ParserSpec Printer PrinterSpec Transformer TransSpec Resolver Compile CompileSpec CompileEnd
  Samples TransSamples CompileSamples CompileWitness CompileExamples InlineExamples CMapSpec CMapProofs.
#[local] Existing Instance asciiOnly.
#[local] Existing Instance milli.

(** A file of five rules, of which four are printed. *)
Definition mapFile : bytes := [LF] ++ B ":root {--v:1px}" ++ [LF] ++ B "@custom-media --m (width>1px);@media (--m){" ++ [LF] ++ B " a{b:c} i{}}" ++ [LF; LF] ++ B "x{y:var(--v)}".
Definition mapProject : project := simple [B "/a"] [(B "/a", mapFile)] allOpts.
Lemma C64_example_lemma : p_entries mapProject = [B "/a"] /\ o_imports (p_opts mapProject) = ImportPassthrough /\
  (forall a, p_abs mapProject (B "/a") = Some a -> ~ leads mapProject a a) /\
  exists g fs out ss lines, reach mapProject (g, Finished fs) /\ lookup (B "/a") fs = Some out /\ textOk out /\
    p_read mapProject (B "/a") = Some mapFile /\ parse 0 200 mapFile = ParseOk ss lines /\ Forall noRawNode (ss_nodes ss) /\
    map (fun sp => position mapFile (sp_start sp)) (flat_map places (twiceImports (ss_nodes ss))) = [(2, 1); (3, 1); (3, 31); (4, 2); (4, 9); (6, 1)]%Z /\
    exists rest, out = B "@media (width>1px){a{b:c}i{}}x{y:1px}" ++ rest.
Proof.
  split; [reflexivity|]. split; [reflexivity|]. split.
  - assert (N : forall f g, ~ edge mapProject f g).
    { intros f g (spec & rel & J & _). pose proof J as (c & _ & _ & _ & _ & R & _). apply lookup_In in R as [R|[]]. injection R as <- <-.
      apply (imports_compute mapProject _ _ mapFile) in J; [|reflexivity|vm_compute; discriminate].
      replace (importsIn _) with (@nil bytes) in J by (vm_compute; reflexivity). destruct J. }
    intros a _ H. destruct H as [g H|g h _ H]; exact (N _ _ H).
  - exists (fst (greedy mapProject false 300 start)), (outputs (greedy mapProject false 300 start)).
    exists (match outputs (greedy mapProject false 300 start) with [(_, out)] => out | _ => [] end).
    exists (match parse 0 200 mapFile with ParseOk ss _ => ss | _ => mkSheet [] [] end), (match parse 0 200 mapFile with ParseOk _ l => l | _ => [] end).
    split; [apply greedy_finished; [constructor|vm_compute; reflexivity]|].
    split; [vm_compute; reflexivity|]. split; [vm_compute; reflexivity|]. split; [reflexivity|]. split; [vm_compute; reflexivity|].
    split; [vm_compute; repeat constructor|]. split; [vm_compute; reflexivity|]. eexists. vm_compute. reflexivity.
Qed.

Definition brokenFile : bytes := B "a{b c" ++ [LF] ++ B "d;}" ++ [LF] ++ B "x{y:z}".
Definition brokenMap : project := simple [B "/a"] [(B "/a", brokenFile)] noOpts.
Lemma C64_broken_lemma : exists g out css mappings ms m ss lines, reach brokenMap (g, Finished [(B "/a", out)]) /\
  parse 0 200 brokenFile = ParseOk ss lines /\
  out = css ++ mapComment (base64Std (mappingJson (mkSource (B "/a") brokenFile lines) mappings)) /\
  readMappings mappings = Some ms /\ In m ms /\ astray brokenFile (ss_nodes ss) m.
Proof.
  exists (fst (greedy brokenMap false 300 start)).
  exists (match outputs (greedy brokenMap false 300 start) with [(_, out)] => out | _ => [] end).
  exists (B "a{b c" ++ [LF] ++ B "d;}x{y:z}"), (B "AAAA;GAGA"), [mkMapping 0 0 0 0 0; mkMapping 1 3 0 3 0], (mkMapping 1 3 0 3 0).
  exists (match parse 0 200 brokenFile with ParseOk ss _ => ss | _ => mkSheet [] [] end), (match parse 0 200 brokenFile with ParseOk _ l => l | _ => [] end).
  split; [|split; [vm_compute; reflexivity|]; split; [vm_compute; reflexivity|]; split; [vm_compute; reflexivity|]; split; [cbn; auto|]].
  - replace (Finished _) with (Finished (outputs (greedy brokenMap false 300 start))) by (vm_compute; reflexivity).
    apply greedy_finished; [constructor|vm_compute; reflexivity].
  - intros sp. vm_compute. intros [<-|[<-|[]]]; discriminate.
Qed.
Definition mapIn : bytes := B "@import ""/x"";a{b:c}".
Definition mapTo : bytes := [LF; LF] ++ B "p{q:r}".
Definition inlineMap : project := simple [B "/a"] [(B "/a", mapIn); (B "/x", mapTo)] inlineOpts.
Lemma C64_inlined_lemma : exists g out css mappings ms m ss lines, reach inlineMap (g, Finished [(B "/a", out)]) /\
  parse 0 200 mapIn = ParseOk ss lines /\ Forall noRawNode (ss_nodes ss) /\
  out = css ++ mapComment (base64Std (mappingJson (mkSource (B "/a") mapIn lines) mappings)) /\
  readMappings mappings = Some ms /\ In m ms /\ astray mapIn (ss_nodes ss) m.
Proof.
  exists (fst (greedy inlineMap false 300 start)).
  exists (match outputs (greedy inlineMap false 300 start) with [(_, out)] => out | _ => [] end).
  exists (B "p{q:r}a{b:c}"), (B "AAAE,MAAW"), [mkMapping 0 0 0 0 2; mkMapping 0 6 0 0 13], (mkMapping 0 0 0 0 2).
  exists (match parse 0 200 mapIn with ParseOk ss _ => ss | _ => mkSheet [] [] end), (match parse 0 200 mapIn with ParseOk _ l => l | _ => [] end).
  split; [|split; [vm_compute; reflexivity|]; split; [vm_compute; repeat constructor|]; split; [vm_compute; reflexivity|]; split; [vm_compute; reflexivity|]; split; [cbn; auto|]].
  - replace (Finished _) with (Finished (outputs (greedy inlineMap false 300 start))) by (vm_compute; reflexivity).
    apply greedy_finished; [constructor|vm_compute; reflexivity].
  - intros sp. vm_compute. intros [<-|[<-|[]]]; discriminate.
Qed.
