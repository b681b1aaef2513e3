(** Property theorems C65: which rules apply before and after inlining. *)
From Verif Require Import Bytes Utf8 Source Lexer Ast Parser ParserSpec Printer Transformer TransSpec TransProofs TransMedia TransInline Resolver Compile CompileSpec InlineSpec
  ApplySpec ApplyProofs ApplyChain ApplyWarn Samples TransSamples CompileSamples CompileWitness ApplyExamples.

(** ** C65 *)
(** One transform with the other options off.  [m] holds the rules for some of
    the @imports, none of which [m] replaces again.  If all @imports come first,
    before and after, and the replaced ones have no condition, then on every
    device the same rules apply in the same order as when the device loads the
    stylesheets in [m]. *)
Theorem C65_transform_partial : forall (FO : FloatOps) holds o m n ss ss' t, passOpts o -> separate m -> inFront (ss_nodes ss) -> inFront (replaced m (ss_nodes ss)) ->
  (forall a, In (NAt a) (ss_nodes ss) -> ar_name a = B "import" -> isReplaced m a -> unconditional a) ->
  transform o (Some m) n ss = TOk ss' t -> view holds (ss_nodes ss') = viewWith holds m (ss_nodes ss).
Proof. exact @C65_transform_lemma. Qed.
Print Assumptions C65_transform_partial.
Example C65_transform_sample : passOpts plainInline /\ separate second /\ inFront (ss_nodes twoTops) /\ inFront (replaced second (ss_nodes twoTops)) /\
  (forall a, In (NAt a) (ss_nodes twoTops) -> ar_name a = B "import" -> isReplaced second a -> unconditional a) /\
  length (view everywhere (replaced second (ss_nodes twoTops))) = 4%nat /\
  exists ss' t, @transform milli plainInline (Some second) 50 twoTops = TOk ss' t /\ (length (ss_nodes ss') =? 4)%nat = true.
Proof. exact C65_transform_sample_lemma. Qed.

(** Compile, one entry, imports inlined, the other options off, no file with
    two @imports or leading back to itself, every @import before all other
    rules and without a condition unless it cannot be resolved: under every
    schedule the output is the printing of rules of which the same apply, on
    every device and in the same order, as of the entry file when the device
    loads the imported files itself.
    Missing: files with several @imports; several entries; other options. *)
Theorem C65_chain_partial : forall (U : UnicodeDigits) (FO : FloatOps) P e, o_imports (p_opts P) = ImportInline -> passOpts (p_opts P) -> oneImportEach P -> p_entries P = [e] ->
  (forall f, involved P f -> tidyImports P f) -> forall g fs, reach P (g, Finished fs) -> forall p out, lookup p fs = Some out ->
  exists src nds, print (Some src) nds = Some out /\ forall holds, means holds P 0 p (view holds nds).
Proof. exact @C65_chain_lemma. Qed.
Print Assumptions C65_chain_partial.
Example C65_chain_sample : p_entries top = [B "/a"] /\ o_imports (p_opts top) = ImportInline /\ passOpts (p_opts top) /\ @oneImportEach asciiOnly top /\ (forall f, @tidyImports asciiOnly top f) /\
  exists g out rest, @reach asciiOnly milli top (g, Finished [(B "/a", out)]) /\ out = B "@import ""/gone"";x{y:z}@media print{p{q:r}}a{b:c}" ++ rest.
Proof. exact C65_sample_lemma. Qed.
Example C65_devices : exists v v', @means everywhere asciiOnly top 0 (B "/a") v /\ @means nowhere asciiOnly top 0 (B "/a") v' /\ length v = 4%nat /\ length v' = 3%nat.
Proof. exact C65_devices_lemma. Qed.
(** What applies of a file is determined. *)
Theorem C65_means_unique : forall (U : UnicodeDigits) holds P d f v v', means holds P d f v -> means holds P d f v' -> v = v'.
Proof. exact (fun U holds P d f v v' H => proj1 (means_unique_both holds P) d f v H v'). Qed.
Print Assumptions C65_means_unique.

(** Inlining changes what applies when a condition above is not met. *)
(** An @import with a condition: inlined, its rules apply everywhere. *)
Theorem C65_condition_refuted : @changes asciiOnly milli nowhere (simple [B "/a"]
  [(B "/a", B "@import ""/x"" print;a{b:c}"); (B "/x", B "x{y:z}")] plainInline).
Proof. exact C65_condition_lemma. Qed.
Print Assumptions C65_condition_refuted.
(** An @import after a rule: a browser ignores it; inlined, its rules apply. *)
Theorem C65_late_refuted : @changes asciiOnly milli everywhere (simple [B "/a"]
  [(B "/a", B "a{b:c}@import ""/x"";"); (B "/x", B "x{y:z}")] plainInline).
Proof. exact C65_late_lemma. Qed.
Print Assumptions C65_late_refuted.
(** An @import that stays behind one that is inlined no longer counts. *)
Theorem C65_kept_refuted : @changes asciiOnly milli everywhere (simple [B "/a"]
  [(B "/a", B "@import ""/x"";@import ""/gone"";a{b:c}"); (B "/x", B "x{y:z}")] plainInline).
Proof. exact C65_kept_lemma. Qed.
Print Assumptions C65_kept_refuted.
(** An @import that stays after a rule without declarations, which is dropped,
    starts to count. *)
Theorem C65_empty_refuted : @changes asciiOnly milli everywhere (simple [B "/a"]
  [(B "/a", B "a{}@import ""/gone"";d{e:f}")] plainInline).
Proof. exact C65_empty_lemma. Qed.
Print Assumptions C65_empty_refuted.
(** A condition that gets lost is reported, whatever the options. *)
Theorem C65_lost_condition_reported : forall (FO : FloatOps) o m n ss ss' t a nds, transform o (Some m) n ss = TOk ss' t ->
  In (NAt a) (ss_nodes ss) -> ar_name a = B "import" -> plookup (atRuleId a) m = Some nds -> ~ unconditional a ->
  In (mkReport true (ar_sp a) (B "@import transform does not yet support @supports or media queries")) (t_reports t).
Proof. exact @C65_warn_lemma. Qed.
Print Assumptions C65_lost_condition_reported.
Example C65_reported_sample : exists a nds ss' t, In (NAt a) (ss_nodes condTop) /\ ar_name a = B "import" /\ plookup (atRuleId a) condRepl = Some nds /\ ~ unconditional a /\
  @transform milli plainInline (Some condRepl) 50 condTop = TOk ss' t /\ (length (t_reports t) =? 1)%nat = true.
Proof. exact C65_warn_sample_lemma. Qed.
