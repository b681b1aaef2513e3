(** Files that meet the hypotheses of C58, and some about which Transform says
    too little or too much. *)
From Verif Require Import Bytes Utf8 Source Lexer Ast Parser ParserSpec ParseResults Transformer TransSpec DiagSpec DiagProofs Samples TransSamples.

(** What Transform reports on a content, if it parses. *)
Definition says {FO : FloatOps} (o : topts) (content : bytes) : option (list report) :=
  match @parse asciiOnly 0 100 content with
  | ParseOk ss _ => match transform o None 100 ss with TOk _ t => Some (t_reports t) | _ => None end
  | _ => None
  end.
Lemma C58_file_lemma (U : UnicodeDigits) (FO : FloatOps) run k content ss lines o n ss' t : o_props o = true -> parse run k content = ParseOk ss lines ->
  ~ Exists blocked (ss_nodes ss) -> Forall plainSelectors (ss_nodes ss) -> transform o None n ss = TOk ss' t ->
  filter aboutVars (t_reports t) = complaints (o_calc o) [] (ss_nodes ss).
Proof. intros Hp H Hb Pl Ht. eapply C58_exact_lemma; eauto. eapply C31_parsed_lemma; eauto. Qed.
Lemma C58_file_only_lemma (U : UnicodeDigits) (FO : FloatOps) run k content ss lines o n ss' t : o_props o = true -> o_calc o = false -> o_ranges o = false -> o_imports o <> ImportInline ->
  parse run k content = ParseOk ss lines -> ~ Exists blocked (ss_nodes ss) -> Forall plainSelectors (ss_nodes ss) -> transform o None n ss = TOk ss' t ->
  t_reports t = complaints false [] (ss_nodes ss).
Proof. intros Hp Hc Hr Hi H Hb Pl Ht. eapply C58_only_lemma; eauto. eapply C31_parsed_lemma; eauto. Qed.

Definition uses : bytes := B ":root {--x:1px;--q:var(--w)}a{b:var(--x) var(--y) var(--z,3px) var();c:calc(1px + var(--w))}p{c:var(4)}".
Definition propsOnly : topts := mkOpts ImportPassthrough false true true true false.
Ltac plainNodes := repeat (apply Forall_cons || apply Forall_nil); cbn [plainSelectors]; try exact Logic.I; eexists _, _, _, _; (split; [reflexivity|]);
  first [left; split; [reflexivity|]; split; [cbn [length]; lia|]; eexists _, _, _; reflexivity | right; split; [reflexivity|]; intros (? & ? & ? & K); discriminate K].
Ltac noneBlocked := intros K; repeat (apply Exists_cons in K; destruct K as [K|K]; [unfold blocked, noSelectors in K; cbn in K; first [discriminate K|tauto]|]); apply Exists_nil in K; exact K.
Lemma C58_sample_lemma : exists ss lines, @parse asciiOnly 0 100 uses = ParseOk ss lines /\ ~ Exists blocked (ss_nodes ss) /\ Forall plainSelectors (ss_nodes ss) /\
  exists ss' t, @transform milli allOpts None 100 ss = TOk ss' t /\ map rp_msg (complaints true [] (ss_nodes ss)) = [undefinedMsg (B "--y"); noArgMsg; undefinedMsg (B "--w"); noNameMsg].
Proof.
  eexists _, _. split; [vm_compute; reflexivity|]. split; [noneBlocked|]. split; [plainNodes|].
  eexists _, _. split; [vm_compute; reflexivity|]. vm_compute. reflexivity.
Qed.
Lemma C58_only_sample_lemma : exists ss lines, @parse asciiOnly 0 100 uses = ParseOk ss lines /\
  exists ss' t, @transform milli propsOnly None 100 ss = TOk ss' t /\ map rp_msg (t_reports t) = [undefinedMsg (B "--y"); noArgMsg; noNameMsg].
Proof. eexists _, _. split; [vm_compute; reflexivity|]. eexists _, _. split; [vm_compute; reflexivity|]. vm_compute. reflexivity. Qed.
Lemma C58_inlined_sample_lemma : exists i a, sheetOf (B "@import 'x';a{b:var(--y) var(--z)}") = [NAt i; a] /\
  let flat := sheetOf (B ":root {--y:2px}p{b:var(--z)}") ++ [a] in
  flattens (fun p => plookup p [(atRuleId i, sheetOf (B ":root {--y:2px}p{b:var(--z)}"))]) [NAt i; a] flat /\ Forall plainSelectors flat /\ length (complaints true [] flat) = 2%nat.
Proof.
  eexists _, _. split; [vm_compute; reflexivity|]. cbv zeta. split; [|split; [|vm_compute; reflexivity]].
  - eapply fl_import; [reflexivity|vm_compute; reflexivity| |].
    + vm_compute sheetOf. repeat (apply fl_other; [discriminate|]). apply fl_nil.
    + apply fl_other; [discriminate|]. apply fl_nil.
  - vm_compute sheetOf. cbn [app]. plainNodes.
Qed.
