(** Lemmas behind the theorems and counterexamples of PropTransformer.v. *)
From Coq Require Import QArith.
From Verif Require Import Bytes Utf8 Source Lexer Ast Parser Printer BytesFacts Transformer TransSpec TransProofs TransMedia TransGap
  TransVars TransCalc TransOrder TransInline Samples TransSamples.
Open Scope Z_scope.

Lemma C23_lemma : forall (FO : FloatOps) o n ss, passOpts o -> Forall nodeOk (ss_nodes ss) ->
  transform o None (S (S n)) ss = TOk (mkSheet (flat_map passNode (ss_nodes ss)) (ss_imports ss)) (initState o None).
Proof.
  intros FO o n ss Ho H. unfold transform. destruct Ho as (O1 & O2 & O3 & O4 & O5) eqn:E.
  rewrite nodes_pass; auto.
  - unfold initState. cbn [t_vars]. rewrite O3. reflexivity.
  - unfold initState. cbn [t_cmedia]. rewrite O4. reflexivity.
Qed.
Lemma C23_identity_lemma : forall (FO : FloatOps) o n ss, passOpts o -> Forall nodeOk (ss_nodes ss) ->
  Forall (fun nd => isImport nd = false /\ isCustomMedia nd = false /\ isEmptyRule nd = false) (ss_nodes ss) ->
  transform o None (S (S n)) ss = TOk ss (initState o None).
Proof.
  intros FO o n [ns im] Ho H K. rewrite C23_lemma; auto. cbn [ss_nodes ss_imports] in *. f_equal. f_equal.
  clear H. induction K as [|nd r (A & C & D) _ IH]; [reflexivity|]. cbn [flat_map]. rewrite IH. unfold passNode.
  rewrite A, C, D. reflexivity.
Qed.
Lemma C23_refuted_lemma : exists content ss lines ss' t,
  @parse asciiOnly 0 100 content = ParseOk ss lines /\
  @transform milli noOpts None 100 ss = TOk ss' t /\ (length (ss_nodes ss) < length (ss_nodes ss'))%nat.
Proof.
  exists (B "@import ""a"";"). eexists _, _, _, _. split; [vm_compute; reflexivity|].
  split; [vm_compute; reflexivity|]. vm_compute. lia.
Qed.

Ltac okNodes := repeat (apply Forall_cons || apply Forall_nil); cbn [nodeOk];
  try (eexists _, _; split; [reflexivity|repeat (apply Forall_cons || apply Forall_nil); discriminate]);
  try (let H := fresh in intros H; first [discriminate H|eexists _, _; reflexivity]).
Lemma C23_sample_lemma : let ns := sheetOf (B "a:any-link{c:var(--x)}@media (1px<width){d{e:f}}") in
  length ns = 2%nat /\ Forall nodeOk ns /\
  Forall (fun nd => isImport nd = false /\ isCustomMedia nd = false /\ isEmptyRule nd = false) ns.
Proof.
  vm_compute sheetOf. cbv zeta. split; [reflexivity|]. split; [okNodes|].
  repeat (apply Forall_cons || apply Forall_nil); repeat split.
Qed.

(** Two elements: the outer one an unvisited link, the inner one visited. *)
Definition linkDoc (p : selpart) (inner : bool) : Prop :=
  match p with
  | SPseudo _ n PANone => n = B "any-link" \/ n = B "link" /\ inner = false \/ n = B "visited" /\ inner = true
  | _ => False
  end.
Lemma linkDoc_law : anyLinkLaw linkDoc.
Proof.
  intros sp sp1 sp2 e. cbn [linkDoc]. split; [|auto]. intros _. destruct e; [right|left]; auto.
Qed.
Lemma C24_refuted_lemma : exists content lsp sels bsp ds sp,
  sheetOf content = [NRule (mkRule 0 sp (PrSel (lsp, sels)) bsp ds)] /\
  exists (E : Type) simple (rel : bytes -> E -> E -> Prop) e, anyLinkLaw simple /\
    matchesList simple rel sels e /\ ~ matchesList simple rel (transformSelectors allOpts sels) e.
Proof.
  exists (B ":any-link>:any-link{b:c}"). eexists _, _, _, _, _. split; [vm_compute; reflexivity|].
  exists bool, linkDoc, (fun op e e' => e = true /\ e' = false), true. split; [apply linkDoc_law|]. split.
  - eexists. split; [left; reflexivity|]. vm_compute. split; [left; reflexivity|].
    exists false. repeat split. left. reflexivity.
  - intros (s & Hin & Hm). revert Hm. vm_compute in Hin.
    destruct Hin as [<-|[<-|[<-|[]]]]; vm_compute; intros (A & e' & (_ & ->) & C & _);
      repeat match goal with
      | H : _ \/ _ |- _ => destruct H
      | H : _ /\ _ |- _ => destruct H
      end; discriminate.
Qed.
Lemma C24_document_lemma : exists (simple : selpart -> bool -> Prop), anyLinkLaw simple /\
  simple (SPseudo zsp (B "link") PANone) true /\ ~ simple (SPseudo zsp (B "visited") PANone) true.
Proof.
  exists (fun p e => linkDoc p (negb e)). split; [intros sp sp1 sp2 e; apply linkDoc_law|]. cbn [linkDoc negb]. split; [auto|].
  intros [H|[[H _]|[_ H]]]; discriminate.
Qed.

Definition unaryDevice : device := mkDevice (fun _ => 0%Q)
  (fun v => match v with VDim _ n _ => match unaryParse n with Some z => inject_Z z * (1 # 1000) | None => 0 end | _ => 0 end)%Q
  (fun _ => False) (fun _ _ => False).
Lemma C25_sample_lemma : exists d (val : @F unary -> Q) px,
  (forall x, @fparse unary (fformat x) = Some x) /\ @measures unary d val px /\
  @boundOk unary val (1 # 1000) (VDim zsp (B "+111") (B "px")) /\ @boundOk unary val (1 # 1000) VNil.
Proof.
  exists unaryDevice, (fun z => inject_Z z * (1 # 1000))%Q, (fun _ => 1%Q). split; [apply unary_roundTrip|].
  split; [split; [intros; reflexivity|]|split; [|left; reflexivity]].
  - intros sp n u f H. cbn [size unaryDevice]. cbn [fparse unary] in H. rewrite H. ring.
  - right. exists zsp, (B "+111"), (B "px"), 3. split; [reflexivity|]. split; [reflexivity|].
    unfold moves. cbn [fadd fthousandth fneg unary]. vm_compute. repeat split; discriminate.
Qed.

Lemma C26_refuted1_lemma :
  @css milli allOpts (B "@media (--a){a{b:c}}@custom-media --a (width>=100px);") = Some (B "@media (--a){a{b:c}}").
Proof. vm_compute. reflexivity. Qed.
Lemma C26_refuted2_lemma :
  @css milli allOpts (B "@custom-media --b (width>=100px);@custom-media --a (--b);@media (--a){a{b:c}}")
  = Some (B "@media (--b){a{b:c}}").
Proof. vm_compute. reflexivity. Qed.
Lemma C26_refuted3_lemma : exists content pre a lsp qs pres t' qs' d,
  sheetOf content = pre ++ [NAt a] /\ ar_preludes a = APMql (lsp, qs) :: pres /\
  @transformNodes milli allOpts None 100 (sheetOf content) (initState allOpts None) =
    TOk [NAt (mkAt (ar_run a) (ar_sp a) (ar_name a) (APMql (lsp, qs') :: pres) (ar_block a))] t' /\
  listHolds d (mediaEnvOf pre) qs /\ ~ listHolds d noMedia qs'.
Proof.
  exists (B "@custom-media --a not print;@media screen and (--a){a{b:c}}"). eexists [_], _, _, _, _, _, _, _.
  split; [vm_compute; reflexivity|]. split; [reflexivity|]. split; [vm_compute; reflexivity|]. split.
  - eexists. split; [left; reflexivity|]. cbn [snd queryHolds].
    change (beq _ (B "not")) with false. cbv iota.
    instantiate (1 := mkDevice (fun _ => 0%Q) (fun _ => 0%Q) (fun x => x = B "screen") (fun _ _ => False)).
    repeat apply Forall_cons; [right; reflexivity|left; reflexivity| |apply Forall_nil].
    cbn [partHolds]. change (mediaEnvOf _ _) with (Some [MIdent (mkSpan 18 21) (B "not"); MIdent (mkSpan 22 27) (B "print")]).
    cbn [simpleQuery]. change (beq (B "not") (B "not")) with true. cbv iota. intros K. apply Forall_inv in K.
    destruct K as [K|K]; discriminate.
  - intros (q & [<-|[]] & K). revert K. cbn [snd queryHolds]. change (beq _ (B "not")) with false. cbv iota.
    intros K. apply Forall_inv_tail, Forall_inv_tail, Forall_inv in K. destruct K as [K|K]; discriminate.
Qed.

Lemma C31_lemma : forall (FO : FloatOps) o ss, sheetOk (ss_nodes ss) ->
  exists N, forall n, (N <= n)%nat -> exists ss' t, transform o None n ss = TOk ss' t.
Proof.
  intros FO o ss H. exists (S (S (nmax (ss_nodes ss)))). intros [|n] Hn; [lia|].
  destruct (nodes_total_none o n (ss_nodes ss) (initState o None)) as (out & t & E & _); [lia|auto| |].
  - unfold varsOk, initState. cbn [t_vars]. destruct (o_props o); [|exact I]. intros x vs K; discriminate.
  - unfold transform. rewrite E. eauto.
Qed.
Lemma C31_inline_lemma : forall (FO : FloatOps) o m ss flat, flattens (fun p => plookup p m) (ss_nodes ss) flat -> sheetOk flat ->
  exists N, forall n, (N <= n)%nat -> exists ss' t, transform o (Some m) n ss = TOk ss' t.
Proof.
  intros FO o m ss flat Hf H. destruct (nodes_total o m _ _ Hf H) as (N & K). exists N. intros n Hn.
  destruct (K n (initState o (Some m)) Hn) as (out & t & E & _).
  - unfold varsOk, initState. cbn [t_vars]. destruct (o_props o); [|exact I]. intros x vs E; discriminate.
  - unfold transform. rewrite E. eauto.
Qed.
Lemma C32_lemma : forall (FO : FloatOps) o m n ss ss' t, transform o (Some m) n ss = TOk ss' t ->
  exists flat, flattens (fun p => plookup p m) (ss_nodes ss) flat /\
    exists t2, transform o (Some []) n (mkSheet flat (ss_imports ss)) = TOk ss' t2.
Proof.
  intros FO o m n ss ss' t H. unfold transform in H.
  destruct (transformNodes o (Some m) n (ss_nodes ss) (initState o (Some m))) as [out t1| |] eqn:E; try discriminate.
  injection H as <- <-. destruct (nodes_flat o m n _ _ _ _ E) as (flat & F1 & F2). exists flat. split; [exact F1|].
  destruct (F2 (initState o (Some []))) as (t2 & E2 & _); [split; reflexivity|].
  exists t2. unfold transform. cbn [ss_nodes ss_imports]. rewrite E2. reflexivity.
Qed.
Lemma calc_sound_lemma : forall (FO : FloatOps) o, (forall f, fparse (fformat f) = Some f) -> (forall a b, fmul a b = fmul b a) ->
  forall n sp args t out t', transformValue o n (VFunc sp (B "calc") args) t = TOk out t' ->
  out = [VFunc sp (B "calc") args] \/
  exists f u, out = [VDim zsp (fformat f) u] /\
    calcValue F fparse fadd fsub fmul fdiv fisZero (varsOf t) (VFunc sp (B "calc") args) f u.
Proof. intros FO o RT MC n sp args t out t' H. destruct (calc_sound o RT MC n _ _ _ _ H) as [_ K]. eauto. Qed.

Lemma C27_sample_lemma : exists n0 r, sheetOf (B ":root {--x:1px 2px;c:d}a{b:var(--x) var(--y,3px) var(--z)}") = [n0; NRule r] /\
  Forall plainSelectors ([n0] ++ [NRule r]) /\ Forall nodeOk ([n0] ++ [NRule r]) /\
  Forall (flatDecl true (varEnvOf ([n0] ++ [NRule r]))) (keptDecls r) /\ keptDecls r <> [].
Proof.
  eexists _, _. split; [vm_compute; reflexivity|]. split; [|split; [okNodes|split]].
  - repeat (apply Forall_cons || apply Forall_nil); cbn [plainSelectors]; eexists _, _, _, _; (split; [reflexivity|]).
    + left. split; [reflexivity|]. split; [cbn [length]; lia|]. eexists _, _, _. reflexivity.
    + right. split; [reflexivity|]. intros (? & ? & ? & K). discriminate K.
  - match goal with |- Forall _ (keptDecls ?r) => let k := eval vm_compute in (keptDecls r) in change (keptDecls r) with k end.
    repeat (apply Forall_cons || apply Forall_nil). cbn [flatDecl]. split; [|intros _; repeat constructor].
    repeat (apply Forall_cons || apply Forall_nil); right; eexists _, _, _, _; (split; [reflexivity|]).
    + match goal with |- match varEnvOf ?a ?b with _ => _ end => let k := eval vm_compute in (varEnvOf a b) in change (varEnvOf a b) with k end.
      repeat constructor.
    + match goal with |- match varEnvOf ?a ?b with _ => _ end => let k := eval vm_compute in (varEnvOf a b) in change (varEnvOf a b) with k end.
      right. eexists _, _. split; [reflexivity|]. split; [discriminate|repeat constructor].
    + match goal with |- match varEnvOf ?a ?b with _ => _ end => let k := eval vm_compute in (varEnvOf a b) in change (varEnvOf a b) with k end.
      left. reflexivity.
  - vm_compute. discriminate.
Qed.
Lemma C28_sample_lemma : (forall f, @fparse unary (fformat f) = Some f) /\ (forall a b, @fmul unary a b = fmul b a) /\
  calcValue Z unaryParse Z.add Z.sub Z.mul Z.div (Z.eqb 0) (fun _ => None)
    (VMath zsp (B "+") (VDim zsp (B "+1") (B "px")) (VMath zsp (B "*") (VDim zsp (B "+11") []) (VDim zsp (B "-111") (B "px")))) (-5) (B "px").
Proof.
  split; [apply unary_roundTrip|]. split; [intros a b; apply Z.mul_comm|].
  change (-5) with (Z.add 1 (Z.mul 2 (-3))). apply cv_add; [apply cv_dim; reflexivity|].
  apply cv_mul_l; apply cv_dim; reflexivity.
Qed.
Lemma C29_refuted_lemma : exists content out t nd,
  sheetOf content = [nd] /\ @transformNodes milli noOpts None 100 (sheetOf content) (initState noOpts None) = TOk out t /\
  map origin out = [origin nd; origin nd].
Proof.
  exists (B "@import ""a"";"). eexists _, _, _. split; [vm_compute; reflexivity|]. split; [vm_compute; reflexivity|]. reflexivity.
Qed.
Lemma C30_refuted_lemma : exists inner,
  @css milli allOpts inner = Some (B "a:visited,a:link{b:3px}") /\
  @css milli allOpts (B "@media print{" ++ inner ++ B "}") = Some (B "@media print{" ++ inner ++ B "}").
Proof. exists (B "a:any-link{b:calc(1px*3)}"). split; vm_compute; reflexivity. Qed.
Lemma C31_refuted_lemma :
  (exists ss lines, @parse asciiOnly 0 100 (B "{}") = ParseOk ss lines /\
     forall (FO : FloatOps) o n, transform o None (S (S n)) ss = TCrash) /\
  (exists ss lines, @parse asciiOnly 0 100 (B "@media{}") = ParseOk ss lines /\
     forall (FO : FloatOps) o n, transform o None (S (S n)) ss = TCrash).
Proof. split; eexists _, _; (split; [vm_compute; reflexivity|]); intros; reflexivity. Qed.
Lemma C31_sample_lemma : let ns := sheetOf (B "a{b:calc(1px + var(--x))}@media (1px<width){d{e:f}}") in length ns = 2%nat /\ sheetOk ns.
Proof.
  vm_compute sheetOf. cbv zeta. split; [reflexivity|]. split; [okNodes|].
  repeat (apply Forall_cons || apply Forall_nil); cbn [declOk]; repeat (apply Forall_cons || apply Forall_nil).
  split.
  - cbn [valueOk]. repeat split; try discriminate; try (intros K; discriminate K).
    intros _. repeat (apply Forall_cons || apply Forall_nil). split; [discriminate|]. intros (? & ? & ? & ? & K). discriminate K.
  - split; [discriminate|]. intros (? & ? & ? & ? & K). discriminate K.
Qed.
Lemma C32_sample_lemma : exists nd1 nd2, sheetOf (B "a{b:c}@import 'x';d{e:var(--y)}") = [nd1; NAt nd2; nth 2 (sheetOf (B "a{b:c}@import 'x';d{e:var(--y)}")) nd1] /\
  match @transform milli allOpts (Some [(atRuleId nd2, sheetOf (B ":root {--y:2px;z:w}"))]) 100
          (mkSheet (sheetOf (B "a{b:c}@import 'x';d{e:var(--y)}")) []) with
  | TOk ss _ => print None (ss_nodes ss) = Some (B "a{b:c}:root{z:w}d{e:2px}")
  | _ => False end.
Proof. eexists _, _. split; [vm_compute; reflexivity|]. vm_compute. reflexivity. Qed.
