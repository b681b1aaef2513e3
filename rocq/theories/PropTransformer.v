(** Property theorems C23-C32: the transformer on one stylesheet. *)
From Coq Require Import QArith.
From Verif Require Import Bytes Utf8 Source Lexer Ast Parser Printer Transformer TransSpec TransProofs TransMedia TransGap
  TransVars TransCalc TransOrder TransInline Samples TransSamples TransWitness.
Open Scope Z_scope.

(** ** C23 *)
(** With every transform off, on any sheet of sound nodes: exactly the empty
    rules and the @custom-media rules disappear, every @import is written
    twice, everything else comes back unchanged.  The full claim ("the sheet is
    unchanged") is refuted below; it holds for sheets without these three. *)
Theorem C23_passthrough_partial : forall (FO : FloatOps) o n ss, passOpts o -> Forall nodeOk (ss_nodes ss) ->
  transform o None (S (S n)) ss = TOk (mkSheet (flat_map passNode (ss_nodes ss)) (ss_imports ss)) (initState o None).
Proof. exact C23_lemma. Qed.
Print Assumptions C23_passthrough_partial.

Theorem C23_identity : forall (FO : FloatOps) o n ss, passOpts o -> Forall nodeOk (ss_nodes ss) ->
  Forall (fun nd => isImport nd = false /\ isCustomMedia nd = false /\ isEmptyRule nd = false) (ss_nodes ss) ->
  transform o None (S (S n)) ss = TOk ss (initState o None).
Proof. exact C23_identity_lemma. Qed.
Print Assumptions C23_identity.

Theorem C23_unchanged_refuted : exists content ss lines ss' t,
  @parse asciiOnly 0 100 content = ParseOk ss lines /\
  @transform milli noOpts None 100 ss = TOk ss' t /\ (length (ss_nodes ss) < length (ss_nodes ss'))%nat.
Proof. exact C23_refuted_lemma. Qed.
Print Assumptions C23_unchanged_refuted.

Example C23_sample : @css milli noOpts (B "@import ""x"";a{}@custom-media --m (width>=1px);b{c:calc(1px + 2px)}")
  = Some (B "@import ""x"";@import ""x"";b{c:calc(1px+2px)}").
Proof. vm_compute. reflexivity. Qed.
Example C23_identity_sample : let ns := sheetOf (B "a:any-link{c:var(--x)}@media (1px<width){d{e:f}}") in
  length ns = 2%nat /\ Forall nodeOk ns /\
  Forall (fun nd => isImport nd = false /\ isCustomMedia nd = false /\ isEmptyRule nd = false) ns.
Proof. exact C23_sample_lemma. Qed.

(** ** C24 *)
(** On every document in which :any-link means :link or :visited: the new list
    matches nothing the old one did not match ... *)
Theorem C24_any_link_sound : forall E simple (rel : bytes -> E -> E -> Prop) o l e,
  anyLinkLaw simple -> Forall (fun s => bareAnyLink (snd s)) l ->
  matchesList simple rel (transformSelectors o l) e -> matchesList simple rel l e.
Proof. exact selectors_sound. Qed.
Print Assumptions C24_any_link_sound.
(** ... and exactly the same elements if no selector uses :any-link twice.
    Missing for the full claim: selectors with two of them (refuted below). *)
Theorem C24_any_link_partial : forall E simple (rel : bytes -> E -> E -> Prop) o l e,
  anyLinkLaw simple -> Forall (fun s => atMostOne (snd s)) l ->
  (matchesList simple rel (transformSelectors o l) e <-> matchesList simple rel l e).
Proof. exact selectors_equiv. Qed.
Print Assumptions C24_any_link_partial.
(** Two in one selector: a visited link inside an unvisited one is lost. *)
Theorem C24_any_link_refuted : exists content lsp sels bsp ds sp,
  sheetOf content = [NRule (mkRule 0 sp (PrSel (lsp, sels)) bsp ds)] /\
  exists (E : Type) simple (rel : bytes -> E -> E -> Prop) e, anyLinkLaw simple /\
    matchesList simple rel sels e /\ ~ matchesList simple rel (transformSelectors allOpts sels) e.
Proof. exact C24_refuted_lemma. Qed.
Print Assumptions C24_any_link_refuted.

Example C24_sample : @css milli allOpts (B "nav>a:any-link .x,p{c:d}") = Some (B "nav>a:visited .x,nav>a:link .x,p{c:d}").
Proof. vm_compute. reflexivity. Qed.
Example C24_document : exists (simple : selpart -> bool -> Prop), anyLinkLaw simple /\
  simple (SPseudo zsp (B "link") PANone) true /\ ~ simple (SPseudo zsp (B "visited") PANone) true.
Proof. exact C24_document_lemma. Qed.

(** ** C25 *)
Theorem C25_inclusive : forall (FO : FloatOps) o d sp psp f lhs op rhs t,
  o_ranges o = true -> (op = B "<=" \/ op = B ">=") ->
  exists ps, transformRange o (MRange sp psp f lhs op rhs) psp f lhs op rhs t = TOk ps t /\
    (Forall (simplePart d) ps <-> rangeHolds d f lhs op rhs).
Proof. exact @range_inclusive. Qed.
Print Assumptions C25_inclusive.
(** For < and >: the lowered query implies the range, and where they differ the
    feature is within [g] units of a bound.  [g] is how far adding .001 can
    move a bound (in exact arithmetic .001; rounding included it may be a
    little more).  The law: formatting a float and parsing it gives it back. *)
Theorem C25_strict : forall (FO : FloatOps) o d val px g sp psp f lhs op rhs t,
  o_ranges o = true -> (op = B "<" \/ op = B ">") ->
  (forall x, fparse (fformat x) = Some x) -> measures d val px -> boundOk val g lhs -> boundOk val g rhs ->
  exists ps, transformRange o (MRange sp psp f lhs op rhs) psp f lhs op rhs t = TOk ps t /\
    (Forall (simplePart d) ps -> rangeHolds d f lhs op rhs) /\
    (rangeHolds d f lhs op rhs -> Forall (simplePart d) ps \/ near d px g f lhs \/ near d px g f rhs).
Proof. exact @range_gap. Qed.
Print Assumptions C25_strict.
(** The condition that .001 moves the bound is needed: a bound so large that
    adding .001 changes nothing is itself admitted by the lowered query. *)
Theorem C25_large_bound : forall (FO : FloatOps) o d sp psp f vsp n u x t,
  o_ranges o = true -> fparse n = Some x -> fadd x fthousandth = x -> fformat x = n ->
  (forall s1 s2 m w, size d (VDim s1 m w) = size d (VDim s2 m w)) ->
  (feat d f == size d (VDim vsp n u))%Q ->
  exists ps, transformRange o (MRange sp psp f (VDim vsp n u) (B "<") VNil) psp f (VDim vsp n u) (B "<") VNil t = TOk ps t /\
    Forall (simplePart d) ps /\ ~ rangeHolds d f (VDim vsp n u) (B "<") VNil.
Proof. exact @gap_lost. Qed.
Print Assumptions C25_large_bound.

Example C25_sample : @css milli allOpts (B "@media (100px<width<200.5px),(height>=2rem){a{b:c}}") =
  Some (B "@media (min-width:100.001px) and (max-width:200.499px),(min-height:2rem){a{b:c}}").
Proof. vm_compute. reflexivity. Qed.
(** The hypotheses of C25_strict hold together: numbers counted in units of
    .001, a device one of whose pixels is one unit. *)
Example C25_hypotheses : exists d (val : @F unary -> Q) px,
  (forall x, @fparse unary (fformat x) = Some x) /\ @measures unary d val px /\
  @boundOk unary val (1 # 1000) (VDim zsp (B "+111") (B "px")) /\ @boundOk unary val (1 # 1000) VNil.
Proof. exact C25_sample_lemma. Qed.

(** ** C26 *)
(** If a definition in force at a media rule neither uses another custom query
    nor starts with "not", the rule applies on a device after replacement
    exactly when it applied before (strict ranges in the query itself are
    C25).  Missing for the full claim: the three refuted forms below. *)
Theorem C26_custom_media_partial : forall (FO : FloatOps) o n pre a lsp qs pres post out t', o_cmedia o = true ->
  ar_name a = B "media" -> ar_preludes a = APMql (lsp, qs) :: pres ->
  (o_ranges o = true -> Forall (fun q : mquery => Forall inclusive (snd q)) qs) ->
  (forall x q, mediaEnvOf pre x = Some q -> flatDef q) ->
  transformNodes o None (S n) (pre ++ NAt a :: post) (initState o None) = TOk out t' ->
  exists opre qs' opost,
    out = opre ++ NAt (mkAt (ar_run a) (ar_sp a) (ar_name a) (APMql (lsp, qs') :: pres) (ar_block a)) :: opost /\
    forall d, listHolds d noMedia qs' <-> listHolds d (mediaEnvOf pre) qs.
Proof. exact @C26_lemma. Qed.
Print Assumptions C26_custom_media_partial.
(** A use before the definition keeps its name while the definition goes. *)
Theorem C26_use_before_definition_refuted :
  @css milli allOpts (B "@media (--a){a{b:c}}@custom-media --a (width>=100px);") = Some (B "@media (--a){a{b:c}}").
Proof. exact C26_refuted1_lemma. Qed.
Print Assumptions C26_use_before_definition_refuted.
(** A definition by another custom query leaves the inner name. *)
Theorem C26_nested_definition_refuted :
  @css milli allOpts (B "@custom-media --b (width>=100px);@custom-media --a (--b);@media (--a){a{b:c}}")
  = Some (B "@media (--b){a{b:c}}").
Proof. exact C26_refuted2_lemma. Qed.
Print Assumptions C26_nested_definition_refuted.
(** A negated definition is pasted behind "screen and": on a screen that is no
    printer the rule applied and applies no longer. *)
Theorem C26_negated_definition_refuted : exists content pre a lsp qs pres t' qs' d,
  sheetOf content = pre ++ [NAt a] /\ ar_preludes a = APMql (lsp, qs) :: pres /\
  @transformNodes milli allOpts None 100 (sheetOf content) (initState allOpts None) =
    TOk [NAt (mkAt (ar_run a) (ar_sp a) (ar_name a) (APMql (lsp, qs') :: pres) (ar_block a))] t' /\
  listHolds d (mediaEnvOf pre) qs /\ ~ listHolds d noMedia qs'.
Proof. exact C26_refuted3_lemma. Qed.
Print Assumptions C26_negated_definition_refuted.

Example C26_sample : @css milli allOpts (B "@custom-media --a (width>=100px) and (height<=2px);@media screen and (--a),print{a{b:c}}")
  = Some (B "@media screen and (width>=100px) and (height<=2px),print{a{b:c}}").
Proof. vm_compute. reflexivity. Qed.

(** ** C27 *)
(** In a sheet whose :root rules are written ":root {" and whose other rules do
    not begin with :root, a rule whose values use var() only at top level, with
    definitions and fallbacks that themselves use none, has every reference
    replaced by what the rules so far define.  Missing for the full claim: the
    forms refuted below. *)
Theorem C27_var_partial : forall (FO : FloatOps) o n pre r post out t', o_props o = true ->
  Forall plainSelectors (pre ++ [NRule r]) -> Forall nodeOk (pre ++ [NRule r]) ->
  Forall (flatDecl (o_calc o) (varEnvOf (pre ++ [NRule r]))) (keptDecls r) -> keptDecls r <> [] ->
  transformNodes o None (S (S n)) (pre ++ NRule r :: post) (initState o None) = TOk out t' ->
  exists opre r' opost, out = opre ++ NRule r' :: opost /\
    Forall2 (declResolves (varEnvOf (pre ++ [NRule r]))) (keptDecls r) (r_decls r').
Proof. exact @C27_lemma. Qed.
Print Assumptions C27_var_partial.
(** The usual spelling ":root{" is not recognised. *)
Theorem C27_root_without_space_refuted :
  @css milli allOpts (B ":root{--x:1px}a{b:var(--x)}") = Some (B ":root{--x:1px}a{b:var(--x)}").
Proof. exact eq_refl. Qed.
Print Assumptions C27_root_without_space_refuted.
(** The definition goes, a reference inside another function stays. *)
Theorem C27_nested_use_refuted :
  @css milli allOpts (B ":root {--x:1px}a{b:foo(var(--x))}") = Some (B "a{b:foo(var(--x))}").
Proof. exact eq_refl. Qed.
Print Assumptions C27_nested_use_refuted.
(** So does a reference inside a definition. *)
Theorem C27_chained_definition_refuted :
  @css milli allOpts (B ":root {--x:1px;--y:var(--x)}a{b:var(--y)}") = Some (B "a{b:var(--x)}").
Proof. exact eq_refl. Qed.
Print Assumptions C27_chained_definition_refuted.
(** And a reference before the definition. *)
Theorem C27_use_before_definition_refuted :
  @css milli allOpts (B "a{b:var(--x)}:root {--x:1px}") = Some (B "a{b:var(--x)}").
Proof. exact eq_refl. Qed.
Print Assumptions C27_use_before_definition_refuted.
(** Properties of ":root .t" are taken for global ones and removed. *)
Theorem C27_not_root_refuted :
  @css milli allOpts (B ":root .t{--x:1px}a{b:var(--x)}") = Some (B "a{b:1px}").
Proof. exact eq_refl. Qed.
Print Assumptions C27_not_root_refuted.

Example C27_sample : @css milli allOpts (B ":root {--x:1px 2px;c:d}a{b:var(--x) var(--y,3px) var(--z)}") =
  Some (B ":root{c:d}a{b:1px 2px 3px var(--z)}").
Proof. vm_compute. reflexivity. Qed.
Example C27_hypotheses : exists n0 r, sheetOf (B ":root {--x:1px 2px;c:d}a{b:var(--x) var(--y,3px) var(--z)}") = [n0; NRule r] /\
  Forall plainSelectors ([n0] ++ [NRule r]) /\ Forall nodeOk ([n0] ++ [NRule r]) /\
  Forall (flatDecl true (varEnvOf ([n0] ++ [NRule r]))) (keptDecls r) /\ keptDecls r <> [].
Proof. exact C27_sample_lemma. Qed.

(** ** C28 *)
(** The laws: formatting a float and parsing it gives it back; multiplication
    commutes.  A calc() call is left as it is or replaced by its value. *)
Theorem C28_calc_sound : forall (FO : FloatOps) o,
  (forall f, fparse (fformat f) = Some f) -> (forall a b, fmul a b = fmul b a) ->
  forall n sp args t out t', transformValue o n (VFunc sp (B "calc") args) t = TOk out t' ->
  out = [VFunc sp (B "calc") args] \/
  exists f u, out = [VDim zsp (fformat f) u] /\
    calcValue F fparse fadd fsub fmul fdiv fisZero (varsOf t) (VFunc sp (B "calc") args) f u.
Proof. exact calc_sound_lemma. Qed.
Print Assumptions C28_calc_sound.
(** The value of an expression is unique, so the replacement is the value. *)
Theorem C28_value_unique : forall (FO : FloatOps) env v a u,
  calcValue F fparse fadd fsub fmul fdiv fisZero env v a u ->
  forall a' u', calcValue F fparse fadd fsub fmul fdiv fisZero env v a' u' -> a = a' /\ u = u'.
Proof. exact @calc_fun. Qed.
Print Assumptions C28_value_unique.
(** Every well-typed expression of numbers and operators is reduced. *)
Theorem C28_calc_complete : forall (FO : FloatOps) o,
  (forall f, fparse (fformat f) = Some f) -> (forall a b, fmul a b = fmul b a) ->
  forall n sp msp op l r f u t, o_calc o = true -> plainMath l -> plainMath r ->
  calcValue F fparse fadd fsub fmul fdiv fisZero (varsOf t) (VMath msp op l r) f u ->
  transformValue o (S (S n)) (VFunc sp (B "calc") [VMath msp op l r]) t = TOk [VDim zsp (fformat f) u] t.
Proof. exact @calc_complete. Qed.
Print Assumptions C28_calc_complete.

Example C28_sample : @css milli allOpts
  (B "a{b:calc(1.5px + 2 * 3px - 8px / 4) calc(1px + 1em) calc(1px / 0) calc(2px * 3px) calc((1px + 2px) * 2)}") =
  Some (B "a{b:5.5px calc(1px+1em) calc(1px/0) calc(2px*3px) calc((1px+2px)*2)}").
Proof. vm_compute. reflexivity. Qed.
Example C28_laws : (forall f, @fparse unary (fformat f) = Some f) /\ (forall a b, @fmul unary a b = fmul b a) /\
  calcValue Z unaryParse Z.add Z.sub Z.mul Z.div (Z.eqb 0) (fun _ => None)
    (VMath zsp (B "+") (VDim zsp (B "+1") (B "px")) (VMath zsp (B "*") (VDim zsp (B "+11") []) (VDim zsp (B "-111") (B "px")))) (-5) (B "px").
Proof. exact C28_sample_lemma. Qed.

(** ** C29 *)
(** Without inlining the nodes of the output are, in order, some of the nodes of
    the source; only @import rules appear twice.  The full claim (no
    duplicates) fails for @import. *)
Theorem C29_order_partial : forall (FO : FloatOps) o n ns t out t', transformNodes o None n ns t = TOk out t' ->
  sub (map origin out) (map origin (twiceImports ns)).
Proof. exact @nodes_order_none. Qed.
Print Assumptions C29_order_partial.
(** With inlining, those of the sheet with the imports put in place. *)
Theorem C29_order_inlined : forall (FO : FloatOps) o m n ns t out t', transformNodes o (Some m) n ns t = TOk out t' ->
  exists flat, flattens (fun p => plookup p m) ns flat /\ sub (map origin out) (map origin flat).
Proof. exact @nodes_order. Qed.
Print Assumptions C29_order_inlined.
Theorem C29_duplicated_import_refuted : exists content out t nd,
  sheetOf content = [nd] /\ @transformNodes milli noOpts None 100 (sheetOf content) (initState noOpts None) = TOk out t /\
  map origin out = [origin nd; origin nd].
Proof. exact C29_refuted_lemma. Qed.
Print Assumptions C29_duplicated_import_refuted.
Example C29_sample : match @transformNodes milli allOpts None 100
    (sheetOf (B "a{b:c}:root {--x:y}@import 'i';d{}e{f:g}")) (initState allOpts None) with
  | TOk out _ => map origin out = [(true, 0%nat, mkSpan 0 6); (false, 0%nat, mkSpan 19 30); (false, 0%nat, mkSpan 19 30); (true, 0%nat, mkSpan 34 40)]
  | _ => False end.
Proof. vm_compute. reflexivity. Qed.

(** ** C30 *)
(** The block of a media rule is never touched: transforms do not reach it. *)
Theorem C30_media_block_untouched : forall (FO : FloatOps) o repl n pre a post t out t', ar_name a = B "media" ->
  transformNodes o repl n (pre ++ NAt a :: post) t = TOk out t' ->
  exists opre a' opost, out = opre ++ NAt a' :: opost /\ origin (NAt a') = origin (NAt a) /\
    ar_name a' = B "media" /\ ar_block a' = ar_block a.
Proof. exact @media_block. Qed.
Print Assumptions C30_media_block_untouched.
Theorem C30_transforms_reach_media_refuted : exists inner,
  @css milli allOpts inner = Some (B "a:visited,a:link{b:3px}") /\
  @css milli allOpts (B "@media print{" ++ inner ++ B "}") = Some (B "@media print{" ++ inner ++ B "}").
Proof. exact C30_refuted_lemma. Qed.
Print Assumptions C30_transforms_reach_media_refuted.

(** ** C31 *)
(** On a sheet in which every rule has selectors, every media rule a query and
    every math expression two sides, Transform returns, for every arithmetic
    and every options. *)
Theorem C31_transform_returns_partial : forall (FO : FloatOps) o ss, sheetOk (ss_nodes ss) ->
  exists N, forall n, (N <= n)%nat -> exists ss' t, transform o None n ss = TOk ss' t.
Proof. exact C31_lemma. Qed.
Print Assumptions C31_transform_returns_partial.
Theorem C31_inlining_returns_partial : forall (FO : FloatOps) o m ss flat,
  flattens (fun p => plookup p m) (ss_nodes ss) flat -> sheetOk flat ->
  exists N, forall n, (N <= n)%nat -> exists ss' t, transform o (Some m) n ss = TOk ss' t.
Proof. exact C31_inline_lemma. Qed.
Print Assumptions C31_inlining_returns_partial.
(** Two short files the parser accepts and the transformer panics on. *)
Theorem C31_transform_crash_refuted :
  (exists ss lines, @parse asciiOnly 0 100 (B "{}") = ParseOk ss lines /\
     forall (FO : FloatOps) o n, transform o None (S (S n)) ss = TCrash) /\
  (exists ss lines, @parse asciiOnly 0 100 (B "@media{}") = ParseOk ss lines /\
     forall (FO : FloatOps) o n, transform o None (S (S n)) ss = TCrash).
Proof. exact C31_refuted_lemma. Qed.
Print Assumptions C31_transform_crash_refuted.
Example C31_sample : let ns := sheetOf (B "a{b:calc(1px + var(--x))}@media (1px<width){d{e:f}}") in length ns = 2%nat /\ sheetOk ns.
Proof. exact C31_sample_lemma. Qed.

(** ** C32 *)
(** Whatever Transform returns with a replacement for some imports is what it
    returns, with no replacements, for the sheet in which these imports are
    replaced by the (again flattened) nodes of their files. *)
Theorem C32_inlining : forall (FO : FloatOps) o m n ss ss' t, transform o (Some m) n ss = TOk ss' t ->
  exists flat, flattens (fun p => plookup p m) (ss_nodes ss) flat /\
    exists t2, transform o (Some []) n (mkSheet flat (ss_imports ss)) = TOk ss' t2.
Proof. exact C32_lemma. Qed.
Print Assumptions C32_inlining.
Example C32_sample : exists nd1 nd2, sheetOf (B "a{b:c}@import 'x';d{e:var(--y)}") = [nd1; NAt nd2; nth 2 (sheetOf (B "a{b:c}@import 'x';d{e:var(--y)}")) nd1] /\
  match @transform milli allOpts (Some [(atRuleId nd2, sheetOf (B ":root {--y:2px;z:w}"))]) 100
          (mkSheet (sheetOf (B "a{b:c}@import 'x';d{e:var(--y)}")) []) with
  | TOk ss _ => print None (ss_nodes ss) = Some (B "a{b:c}:root{z:w}d{e:2px}")
  | _ => False end.
Proof. exact C32_sample_lemma. Qed.
