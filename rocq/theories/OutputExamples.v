(** Projects that meet the hypotheses of C54, and some that do not. *)
From Verif Require Import Bytes Utf8 Source Lexer Ast BytesFacts Parser ParseRerun Printer Transformer Resolver Strip Compile CompileSpec CompileSteps CompileEnd
  TransMedia TransInline TransStable InlineSpec InlineProofs RoundSpec OutputSpec OutputProofs Samples TransSamples CompileSamples CompileWitness CompileExamples InlineExamples.
Open Scope Z_scope.
#[local] Existing Instance asciiOnly.

Lemma digit_numeric z : 0 <= z <= 9 -> isNumeric (digitOf z) = true.
Proof.
  intros H. assert (X : z = 0 \/ z = 1 \/ z = 2 \/ z = 3 \/ z = 4 \/ z = 5 \/ z = 6 \/ z = 7 \/ z = 8 \/ z = 9) by lia.
  repeat (destruct X as [->|X]; [reflexivity|]). subst. reflexivity.
Qed.
Lemma mod_numeric z : isNumeric (digitOf (z mod 10)) = true.
Proof. apply digit_numeric. pose proof (Z.mod_pos_bound z 10). lia. Qed.
Lemma digits_numeric n : forall z, forallb isNumeric (TransSamples.digits n z) = true.
Proof.
  induction n as [|n IH]; intros z; [reflexivity|]. cbn [TransSamples.digits]. rewrite forallb_app. cbn [forallb]. rewrite mod_numeric.
  destruct (z <? 10); [reflexivity|]. rewrite IH. reflexivity.
Qed.
Lemma decimal_more a t : forallb isNumeric a = true -> decimal t = true -> decimal (a ++ t) = true.
Proof.
  induction a as [|c a IH]; [auto|]. cbn [forallb app decimal]. intros H T. apply andb_true_iff in H as [H1 H]. specialize (IH H T).
  destruct (bz c =? 46) eqn:E; [apply Z.eqb_eq in E; unfold isNumeric in H1; rewrite E in H1; discriminate|].
  rewrite H1, IH, orb_true_r. reflexivity.
Qed.
Lemma decimal_digit c t : isNumeric c = true -> t = [] \/ decimal t = true -> decimal (c :: t) = true.
Proof.
  intros H T. cbn [decimal]. destruct (bz c =? 46) eqn:E; [apply Z.eqb_eq in E; unfold isNumeric in H; rewrite E in H; discriminate|].
  rewrite H. destruct T as [->|T]; [reflexivity|]. rewrite T, orb_true_r. reflexivity.
Qed.
Lemma fraction_decimal z : 0 <= z < 1000 -> fraction z = [] \/ decimal (fraction z) = true.
Proof.
  intros H. unfold fraction. destruct (z =? 0); [left; reflexivity|right]. cbn [decimal]. change (bz "."%byte =? 46) with true. cbv iota.
  assert (A : isNumeric (digitOf (z / 100)) = true).
  { apply digit_numeric. split; [apply Z.div_pos; lia|]. apply Z.lt_succ_r. apply Z.div_lt_upper_bound; lia. }
  destruct (z mod 100 =? 0); [|destruct (z mod 10 =? 0)]; unfold RoundSpec.digits; cbn [forallb isEmpty]; rewrite A, ?mod_numeric; reflexivity.
Qed.
Lemma milli_numeral f : numeral (milliFormat f) = true.
Proof.
  assert (X : forall z r, 0 <= r < 1000 -> decimal (TransSamples.digits 30 z ++ fraction r) = true /\ exists c t, TransSamples.digits 30 z ++ fraction r = c :: t /\ isNumeric c = true).
  { intros z r H. pose proof (digits_numeric 30 z) as N. destruct (fraction_decimal r H) as [-> | F].
    - rewrite app_nil_r. revert N. change (TransSamples.digits 30 z) with ((if z <? 10 then [] else TransSamples.digits 29 (z / 10)) ++ [digitOf (z mod 10)]). intros N. split.
      + rewrite forallb_app in N. apply andb_true_iff in N as [N _]. apply decimal_more; auto. apply decimal_digit; [apply mod_numeric|auto].
      + destruct ((if z <? 10 then [] else TransSamples.digits 29 (z / 10)) ++ [digitOf (z mod 10)]) as [|c t] eqn:E; [destruct (if z <? 10 then [] else TransSamples.digits 29 (z / 10)); discriminate|].
        cbn [forallb] in N. apply andb_true_iff in N as [N _]. eauto.
    - split; [apply decimal_more; auto|]. destruct (TransSamples.digits 30 z) as [|c t] eqn:E.
      + change (TransSamples.digits 30 z) with ((if z <? 10 then [] else TransSamples.digits 29 (z / 10)) ++ [digitOf (z mod 10)]) in E. destruct (if z <? 10 then [] else TransSamples.digits 29 (z / 10)); discriminate.
      + cbn [forallb] in N. apply andb_true_iff in N as [N _]. eexists _, _. split; [reflexivity|auto]. }
  unfold milliFormat. destruct (X (Z.abs f / 1000) (Z.abs f mod 1000)) as [A (c & t & E & N)]; [apply Z.mod_pos_bound; lia|].
  destruct (f <? 0).
  - change (B "-" ++ ?x) with ("-"%byte :: x). cbn [numeral]. exact A.
  - cbn [app]. rewrite E in *. cbn [numeral]. destruct ((bz c =? 43) || (bz c =? 45)) eqn:S1; [|exact A].
    apply orb_true_iff in S1 as [S1|S1]; apply Z.eqb_eq in S1; unfold isNumeric in N; rewrite S1 in N; discriminate.
Qed.
Lemma milli_decimals o : @decimals milli o.
Proof. intros _ f. apply milli_numeral. Qed.

#[local] Existing Instance milli.
Definition plainb {FO : FloatOps} (o : topts) (c : bytes) : bool :=
  match parse 0 300 c with ParseOk ss _ => forallb (readySource o) (ss_nodes ss) | ParseTimeout => false | _ => true end.
Lemma plain_run {FO : FloatOps} o k n : readySource o (nodeOfRun k n) = readySource o n.
Proof.
  destruct n as [r|a]; [reflexivity|]. cbn [nodeOfRun readySource]. unfold plainSource. cbn [writable bareLinks]. f_equal. unfold okAtRule. cbn [atOfRun ar_name ar_preludes ar_block].
  destruct (ar_block a) as [[sp ds|sp rs]|]; cbn [option_map blockOfRun]; try reflexivity.
  assert (X : forall f : qrule -> bool, (forall r, f (ruleOfRun k r) = f r) -> forallb f (map (ruleOfRun k) rs) = forallb f rs).
  { intros f Hf. induction rs as [|r rs IH]; [reflexivity|]. cbn [map forallb]. rewrite Hf, IH. reflexivity. }
  rewrite !X; auto.
Qed.
Lemma plainb_file {FO : FloatOps} l o es f : forallb (fun kv => plainb o (snd kv)) l = true -> plainFile (simple es l o) f.
Proof.
  intros H c run n ss lines R Hp. change (lookup f l = Some c) in R. apply lookup_In in R. rewrite forallb_forall in H. specialize (H _ R). cbn [snd] in H.
  unfold plainb in H. pose proof (CompileEnd.parse_agree 0 300 run n c) as E. rewrite Hp in E.
  destruct (parse 0 300 c) as [ss0 l0| | |] eqn:E0; try discriminate; specialize (E ltac:(discriminate) ltac:(discriminate)); cbn in E; try discriminate E.
  injection E as -> _. cbn [sheetOfRun ss_nodes]. clear -H. change (p_opts (simple es l o)) with o. induction (ss_nodes ss0) as [|x ns IH]; [reflexivity|]. cbn [forallb map] in *.
  apply andb_true_iff in H as [H1 H]. rewrite plain_run, H1. auto.
Qed.

(** Variables, calc, ranges, custom media and :any-link. *)
Definition mixed : bytes := B ":root { --v: 2px } @custom-media --wide (width > 30px); a:any-link > b, i { c: var(--v) calc(2px * 3 + 1px); d: ""x"" } @media (--wide), (height > 5px) { a { b: c } }".
Definition mixedTree : list (bytes * bytes) := [(B "/a", mixed)].
Definition mixedProject : project := simple [B "/a"] mixedTree allOpts.
Lemma mixed_alone f g : ~ edge mixedProject f g.
Proof.
  intros (spec & rel & I & _). pose proof I as (c & _ & _ & _ & _ & R & _). apply lookup_In in R as [R|[]]; injection R as <- <-.
  apply (imports_compute mixedProject _ _ mixed) in I; [|reflexivity|vm_compute; discriminate].
  replace (importsIn _) with (@nil bytes) in I by (vm_compute; reflexivity). destruct I.
Qed.
Lemma first_edge P f g : leads P f g -> exists h, edge P f h.
Proof. induction 1; eauto. Qed.
Lemma mixed_plain f : plainFile mixedProject f.
Proof. apply plainb_file. vm_compute. reflexivity. Qed.
Lemma C54_one_example : p_entries mixedProject = [B "/a"] /\ o_imports (p_opts mixedProject) = ImportPassthrough /\ decimals (p_opts mixedProject) /\
  (forall f, ~ leads mixedProject f f /\ plainFile mixedProject f) /\
  exists g out rest, reach mixedProject (g, Finished [(B "/a", out)]) /\
    out = B "a:visited > b,a:link > b,i{c:2px 7px;d:""x""}@media (width>30px),(min-height:5.001px){a{b:c}}" ++ rest.
Proof.
  split; [reflexivity|]. split; [reflexivity|]. split; [apply milli_decimals|]. split.
  { intros f. split; [|apply mixed_plain]. intros L. apply first_edge in L as [h X]. exact (mixed_alone _ _ X). }
  exists (fst (greedy mixedProject true 200 start)), (match outputs (greedy mixedProject true 200 start) with [(_, out)] => out | _ => [] end).
  eexists. split.
  - replace (Finished _) with (Finished (outputs (greedy mixedProject true 200 start))) by (vm_compute; reflexivity).
    apply greedy_finished; [constructor|vm_compute; reflexivity].
  - vm_compute. reflexivity.
Qed.

Lemma C54_many_example : o_imports (p_opts manyEntries) <> ImportInline /\ decimals (p_opts manyEntries) /\ (forall f, plainFile manyEntries f) /\
  exists g fs, reachApart manyEntries (g, Finished fs) /\ length fs = 3%nat.
Proof.
  split; [discriminate|]. split; [apply milli_decimals|]. split; [intros f; apply plainb_file; vm_compute; reflexivity|].
  do 2 eexists. split; [apply (greedy_apart_finished manyEntries true 400 start); [constructor|vm_compute; reflexivity]|vm_compute; reflexivity].
Qed.
Lemma C54_inline_example : decimals (p_opts row) /\ forall f, plainFile row f.
Proof. split; [apply milli_decimals|]. intros f. apply plainb_file. vm_compute. reflexivity. Qed.

(** ** What is not read back *)
(** An arithmetic that overflows, as that of Go does, only sooner. *)
Definition capped : FloatOps := Build_FloatOps Z milliParse (fun z => if z >? 999000 then B "+Inf" else milliFormat z) Z.add Z.sub
  (fun a b => a * b / 1000) (fun a b => a * 1000 / b) (Z.eqb 0) 1 Z.opp.
Definition huge : bytes := B "a{b:calc(999px*10)}".
Definition hugeProject : project := simple [B "/a"] [(B "/a", huge)] allOpts.
(** :any-link with arguments loses them, and what follows is read as part of
    its name. *)
Definition linked : bytes := B ":any-link(a)b{c:d}".
Definition linkedProject : project := simple [B "/a"] [(B "/a", linked)] allOpts.

Lemma transformed_unique {U : UnicodeDigits} {FO : FloatOps} P f ns ns' : transformed P f ns -> transformed P f ns' -> ns = ns'.
Proof.
  intros (c & n & m & ss & l & s1 & t & R & Hp & T & ->) (c' & n' & m' & ss' & l' & s1' & t' & R' & Hp' & T' & ->).
  assert (c' = c) by congruence. subst c'. pose proof (parsed_same _ _ _ _ _ _ Hp Hp' ltac:(discriminate) ltac:(discriminate)) as E. injection E as <- <-.
  f_equal. pose proof (transform_one (p_opts P) None m m' ss) as X. rewrite T, T' in X. destruct (X ltac:(discriminate)); congruence.
Qed.
Definition nodesOf (FO : FloatOps) (c : bytes) : list node :=
  match parse 0 300 c with ParseOk ss _ => match transform allOpts None 300 ss with TOk ss' _ => ss_nodes ss' | _ => [] end | _ => [] end.
Definition rereadOf (out : bytes) : list node := match parse 0 300 out with ParseOk ss _ => strip (ss_nodes ss) | _ => [] end.
Definition works (FO : FloatOps) (c : bytes) : bool :=
  match parse 0 300 c with ParseOk ss _ => match transform allOpts None 300 ss with TOk ss' _ => true | _ => false end | _ => false end.
Definition parses (c : bytes) : bool := match parse 0 300 c with ParseOk _ _ => true | _ => false end.
Lemma unread_intro FO c ns out : parses out = true -> works FO c = true -> rereadOf out <> strip (tidy (nodesOf FO c)) ->
  @transformed asciiOnly FO (simple [B "/a"] [(B "/a", c)] allOpts) (B "/a") ns -> ~ readsBack out ns.
Proof.
  unfold works, parses, rereadOf. intros E W Ne H R.
  assert (X : ns = nodesOf FO c).
  { eapply (@transformed_unique asciiOnly FO); [exact H|]. unfold nodesOf. destruct (parse 0 300 c) as [ss l| | |] eqn:Hp; try discriminate.
    destruct (@transform FO allOpts None 300 ss) as [ss' t| |] eqn:T; try discriminate.
    exists c, 300%nat, 300%nat, ss, l, ss', t. auto. }
  subst ns. destruct (R 0%nat) as (ss3 & l3 & n0 & Q & D). destruct (parse 0 300 out) as [ss2 l2| | |] eqn:E2; try discriminate.
  apply Ne. rewrite <- D. f_equal. f_equal.
  specialize (Q (Nat.max n0 300) ltac:(lia)). pose proof (parsed_same _ _ _ _ _ _ Q E2 ltac:(discriminate) ltac:(discriminate)) as Y. congruence.
Qed.
Definition outOf (FO : FloatOps) (P : project) : bytes := match outputs (@greedy asciiOnly FO P true 200 start) with [(_, out)] => out | _ => [] end.
Lemma C54_overflow_lemma : exists FO P g out, p_entries P = [B "/a"] /\ o_imports (p_opts P) = ImportPassthrough /\
  (forall f, ~ leads P f f /\ @plainFile asciiOnly FO P f) /\ @reach asciiOnly FO P (g, Finished [(B "/a", out)]) /\
  forall ns, transformed P (B "/a") ns -> ~ readsBack out ns.
Proof.
  exists capped, hugeProject, (fst (@greedy asciiOnly capped hugeProject true 200 start)), (outOf capped hugeProject).
  split; [reflexivity|]. split; [reflexivity|]. split.
  { intros f. split; [|apply plainb_file; vm_compute; reflexivity]. intros L. apply first_edge in L as [h (spec & rel & I & _)].
    pose proof I as (c & _ & _ & _ & _ & R & _). apply lookup_In in R as [R|[]]; injection R as <- <-.
    apply (imports_compute hugeProject _ _ huge) in I; [|reflexivity|vm_compute; discriminate].
    replace (importsIn _) with (@nil bytes) in I by (vm_compute; reflexivity). destruct I. }
  split.
  - replace (Finished _) with (Finished (outputs (@greedy asciiOnly capped hugeProject true 200 start))) by (vm_compute; reflexivity).
    rewrite <- (finished_eq (@greedy asciiOnly capped hugeProject true 200 start)) by (vm_compute; reflexivity). apply greedy_reach. constructor.
  - intros ns. apply (unread_intro capped huge); [vm_compute; reflexivity|vm_compute; reflexivity|vm_compute; discriminate].
Qed.
Lemma linked_writable : exists ss lines, parse 0 300 linked = ParseOk ss lines /\ p_read linkedProject (B "/a") = Some linked /\ forallb writable (ss_nodes ss) = true.
Proof.
  assert (X : match parse 0 300 linked with ParseOk ss _ => forallb writable (ss_nodes ss) | _ => false end = true) by (vm_compute; reflexivity).
  destruct (parse 0 300 linked) as [ss l| | |]; try discriminate. exists ss, l. split; [reflexivity|]. split; [reflexivity|exact X].
Qed.
Lemma C54_link_lemma : exists P g out, p_entries P = [B "/a"] /\ o_imports (p_opts P) = ImportPassthrough /\ decimals (p_opts P) /\
  (forall f, ~ leads P f f) /\ (exists ss lines, parse 0 300 linked = ParseOk ss lines /\ p_read P (B "/a") = Some linked /\ forallb writable (ss_nodes ss) = true) /\
  @reach asciiOnly milli P (g, Finished [(B "/a", out)]) /\ forall ns, transformed P (B "/a") ns -> ~ readsBack out ns.
Proof.
  exists linkedProject, (fst (@greedy asciiOnly milli linkedProject true 200 start)), (outOf milli linkedProject).
  split; [reflexivity|]. split; [reflexivity|]. split; [apply milli_decimals|]. split.
  { intros f L. apply first_edge in L as [h (spec & rel & I & _)].
    pose proof I as (c & _ & _ & _ & _ & R & _). apply lookup_In in R as [R|[]]; injection R as <- <-.
    apply (imports_compute linkedProject _ _ linked) in I; [|reflexivity|vm_compute; discriminate].
    replace (importsIn _) with (@nil bytes) in I by (vm_compute; reflexivity). destruct I. }
  split; [exact linked_writable|]. split.
  - replace (Finished _) with (Finished (outputs (@greedy asciiOnly milli linkedProject true 200 start))) by (vm_compute; reflexivity).
    apply greedy_finished; [constructor|vm_compute; reflexivity].
  - intros ns. apply (unread_intro milli linked); [vm_compute; reflexivity|vm_compute; reflexivity|vm_compute; discriminate].
Qed.
(** A sum that defines a variable is not computed where the variable is used. *)
Definition summed : bytes := B ":root {--v:calc(1px + 2px)}a{b:var(--v);c:calc(1px + 2px)}".
Definition summedProject : project := simple [B "/a"] [(B "/a", summed)] allOpts.
Lemma C54_sum_lemma : exists P g out rest, p_entries P = [B "/a"] /\ o_imports (p_opts P) = ImportPassthrough /\ decimals (p_opts P) /\
  (forall f, ~ leads P f f) /\ p_read P (B "/a") = Some (B ":root {--v:calc(1px + 2px)}a{b:var(--v);c:calc(1px + 2px)}") /\
  @reach asciiOnly milli P (g, Finished [(B "/a", out)]) /\ out = B "a{b:calc(1px+2px);c:3px}" ++ rest /\ forall ns, transformed P (B "/a") ns -> ~ readsBack out ns.
Proof.
  exists summedProject, (fst (@greedy asciiOnly milli summedProject true 200 start)), (outOf milli summedProject). eexists.
  split; [reflexivity|]. split; [reflexivity|]. split; [apply milli_decimals|]. split.
  { intros f L. apply first_edge in L as [h (spec & rel & I & _)].
    pose proof I as (c & _ & _ & _ & _ & R & _). apply lookup_In in R as [R|[]]; injection R as <- <-.
    apply (imports_compute summedProject _ _ summed) in I; [|reflexivity|vm_compute; discriminate].
    replace (importsIn _) with (@nil bytes) in I by (vm_compute; reflexivity). destruct I. }
  split; [reflexivity|]. split; [|split; [vm_compute; reflexivity|]].
  - replace (Finished _) with (Finished (outputs (@greedy asciiOnly milli summedProject true 200 start))) by (vm_compute; reflexivity).
    apply greedy_finished; [constructor|vm_compute; reflexivity].
  - intros ns. apply (unread_intro milli summed); [vm_compute; reflexivity|vm_compute; reflexivity|vm_compute; discriminate].
Qed.
