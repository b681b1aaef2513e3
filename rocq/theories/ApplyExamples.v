(** C65: the theorem for Compile, files that meet its hypotheses, and files
    that show that each of them is needed. *)
From Verif Require Import Bytes Utf8 Source Lexer Ast BytesFacts Parser ParserSpec ParseRerun Printer Transformer TransSpec TransProofs TransMedia TransInline TransDefs Resolver Compile CompileSpec CompileSteps CompileEnd
  InlineSpec InlineRefs InlineProofs ApplySpec ApplyProofs ApplyChain ApplyWarn Samples TransSamples CompileSamples CompileWitness.

Lemma C65_transform_lemma {FO : FloatOps} holds o m n ss ss' t : passOpts o -> separate m -> inFront (ss_nodes ss) -> inFront (replaced m (ss_nodes ss)) ->
  (forall a, In (NAt a) (ss_nodes ss) -> ar_name a = B "import" -> isReplaced m a -> unconditional a) ->
  transform o (Some m) n ss = TOk ss' t -> view holds (ss_nodes ss') = viewWith holds m (ss_nodes ss).
Proof.
  intros Ho Hm F1 F2 Un H. rewrite (transform_off o Ho m n ss ss' t Hm H). rewrite (proj2 (keep_front holds _ F2)). apply replaced_view; auto.
Qed.
Lemma C65_chain_lemma {U : UnicodeDigits} {FO : FloatOps} P e : o_imports (p_opts P) = ImportInline -> passOpts (p_opts P) -> oneImportEach P -> p_entries P = [e] ->
  (forall f, involved P f -> tidyImports P f) -> forall g fs, reach P (g, Finished fs) -> forall p out, lookup p fs = Some out ->
  exists src nds, print (Some src) nds = Some out /\ forall holds, means holds P 0 p (view holds nds).
Proof.
  intros Im Ho One Ee Ht g fs H p out L. apply (C53_lemma P Im One e Ee g fs H) in L as [Ea (c & n & ss & lines & nds & Rd & Hp & In_ & Pr)].
  exists (mkSource p c lines), nds. split; [exact Pr|]. intros holds. apply (chain_means holds P Ho _ _ _ In_).
  intros g' Hg. apply Ht. exists e, p. rewrite Ee. split; [left; reflexivity|]. split; [exact Ea|]. destruct Hg as [-> | Hg]; auto.
Qed.

#[local] Existing Instance asciiOnly.
#[local] Existing Instance milli.
(** What applies of a file, computed. *)
Section Meaning.
Variable holds : list mquery -> bool.
Variable P : project.
Fixpoint meaning (k d : nat) (f : bytes) : option (list node) :=
  match k with
  | O => None
  | S k =>
    match p_read P f with
    | None => None
    | Some c =>
      match parse d 200 c with
      | ParseOk ss _ =>
        match (fix go (l : list atrule) : option (list node) :=
          match l with
          | [] => Some []
          | a :: r =>
            match go r with
            | None => None
            | Some vs =>
              if importApplies holds a then
                match importOf (NAt a) with
                | [(spec, _)] =>
                  match p_resolve P spec (fpDir f) with
                  | None => Some (NAt a :: vs)
                  | Some rel =>
                    match p_abs P rel with
                    | None => Some (NAt a :: vs)
                    | Some f' =>
                      match p_read P f' with
                      | None => Some (NAt a :: vs)
                      | Some _ => match meaning k (S d) f' with Some v => Some (v ++ vs) | None => None end
                      end
                    end
                  end
                | _ => None
                end
              else Some vs
            end
          end) (heads (ss_nodes ss)) with
        | Some vs => Some (vs ++ flat_map (contributes holds) (ss_nodes ss))
        | None => None
        end
      | _ => None
      end
    end
  end.
Lemma importOf_self a spec i : importOf (NAt a) = [(spec, i)] -> i = atRuleId a.
Proof. cbn [importOf]. destruct (beq _ _); [|discriminate]. destruct (ar_preludes a) as [|[] ?]; try discriminate. intros E. injection E as _ <-. reflexivity. Qed.
Lemma meaning_means k : forall d f v, meaning k d f = Some v -> means holds P d f v.
Proof.
  induction k as [|k IH]; intros d f v H; [discriminate H|]. cbn [meaning] in H. destruct (p_read P f) as [c|] eqn:Rd; [|discriminate H].
  destruct (parse d 200 c) as [ss lines| | |] eqn:Hp; try discriminate H.
  match type of H with match ?e with _ => _ end = _ => destruct e as [vs|] eqn:G; [|discriminate H] end. injection H as <-. eapply meFile; eauto.
  clear Hp. revert vs G. induction (heads (ss_nodes ss)) as [|a r IHl]; intros vs G; [injection G as <-; constructor|].
  match type of G with match ?e with _ => _ end = _ => destruct e as [vs'|] eqn:G'; [|discriminate G] end. specialize (IHl _ eq_refl).
  destruct (importApplies holds a) eqn:Ap; [|injection G as <-; apply foOff; auto].
  destruct (importOf (NAt a)) as [|[spec i] [|]] eqn:Im; try discriminate G. pose proof (importOf_self _ _ _ Im) as ->.
  destruct (p_resolve P spec (fpDir f)) as [rel|] eqn:R; [|injection G as <-; eapply foUnknown; eauto; left; exact R].
  destruct (p_abs P rel) as [f'|] eqn:A; [|injection G as <-; eapply foUnknown; eauto; right; eauto].
  destruct (p_read P f') eqn:Rd'; [|injection G as <-; eapply foUnknown; eauto; right; exists rel; split; [exact R|right; eauto]].
  destruct (meaning k (S d) f') as [v|] eqn:M; [|discriminate G]. injection G as <-. eapply foFile; eauto.
Qed.
End Meaning.

Definition plainInline : topts := mkOpts ImportInline false false false false false.
Definition nowhere : list mquery -> bool := fun _ => false.
Definition everywhere : list mquery -> bool := fun _ => true.
Definition sheetOf (c : bytes) : stylesheet := match parse 0 400 c with ParseOk ss _ => ss | _ => mkSheet [] [] end.
Definition linesOf (c : bytes) : list nat := match parse 0 400 c with ParseOk _ l => l | _ => [] end.
Definition textOf (P : project) : bytes := match outputs (greedy P true 200 start) with [(_, out)] => out | _ => [] end.
Lemma changes_compute holds tree_ v : let P := simple [B "/a"] tree_ plainInline in
  finished (greedy P true 200 start) = true -> outputs (greedy P true 200 start) = [(B "/a", textOf P)] ->
  meaning holds P 20 0 (B "/a") = Some v -> parse 0 400 (textOf P) = ParseOk (sheetOf (textOf P)) (linesOf (textOf P)) ->
  (length (view holds (ss_nodes (sheetOf (textOf P)))) =? length v)%nat = false -> changes holds P.
Proof.
  intros P F O M Hp L. split; [reflexivity|]. exists (B "/a"), (B "/a"), (fst (greedy P true 200 start)), (textOf P), v, 400%nat, (sheetOf (textOf P)), (linesOf (textOf P)).
  split; [reflexivity|]. split; [reflexivity|]. split; [rewrite <- O; apply greedy_finished; [constructor|exact F]|]. split; [eapply meaning_means; exact M|]. split; [exact Hp|]. apply Nat.eqb_neq. exact L.
Qed.
Ltac changed := intros; eapply changes_compute; vm_compute; reflexivity.
(** The condition of an inlined @import is dropped. *)
Lemma C65_condition_lemma : changes nowhere (simple [B "/a"] [(B "/a", B "@import ""/x"" print;a{b:c}"); (B "/x", B "x{y:z}")] plainInline).
Proof. changed. Qed.
(** An @import after other rules is ignored by a browser; inlined, it counts. *)
Lemma C65_late_lemma : changes everywhere (simple [B "/a"] [(B "/a", B "a{b:c}@import ""/x"";"); (B "/x", B "x{y:z}")] plainInline).
Proof. changed. Qed.
(** An @import that stays, behind one that was inlined, no longer counts. *)
Lemma C65_kept_lemma : changes everywhere (simple [B "/a"] [(B "/a", B "@import ""/x"";@import ""/gone"";a{b:c}"); (B "/x", B "x{y:z}")] plainInline).
Proof. changed. Qed.
(** An @import behind a rule without declarations starts to count. *)
Lemma C65_empty_lemma : changes everywhere (simple [B "/a"] [(B "/a", B "a{}@import ""/gone"";d{e:f}")] plainInline).
Proof. changed. Qed.

(** Three files, each imported at the top of the one before, and a fourth that
    is missing. *)
Definition topA : bytes := B "@import ""/x"";a{b:c}".
Definition topX : bytes := B "@import ""/y"";@media print{p{q:r}}d{}".
Definition topY : bytes := B "@import ""/gone"";x{y:z}".
Definition topTree : list (bytes * bytes) := [(B "/a", topA); (B "/x", topX); (B "/y", topY)].
Definition top : project := simple [B "/a"] topTree plainInline.
Definition topPlace (f : bytes) : nat := if beq f (B "/a") then 3 else if beq f (B "/x") then 2 else if beq f (B "/y") then 1 else 0.
Lemma top_edge f g : edge top f g -> (topPlace g < topPlace f)%nat.
Proof.
  intros (spec & rel & I & R2 & A). pose proof I as (c & _ & _ & _ & _ & R & _).
  change (Some spec = Some rel) in R2. change (Some rel = Some g) in A. injection R2 as <-. injection A as <-.
  apply lookup_In in R as [R|[R|[R|[]]]]; injection R as <- <-.
  - apply (imports_compute top _ _ topA) in I; [|reflexivity|vm_compute; discriminate].
    replace (importsIn _) with [B "/x"] in I by (vm_compute; reflexivity). destruct I as [<-|[]]; vm_compute; lia.
  - apply (imports_compute top _ _ topX) in I; [|reflexivity|vm_compute; discriminate].
    replace (importsIn _) with [B "/y"] in I by (vm_compute; reflexivity). destruct I as [<-|[]]; vm_compute; lia.
  - apply (imports_compute top _ _ topY) in I; [|reflexivity|vm_compute; discriminate].
    replace (importsIn _) with [B "/gone"] in I by (vm_compute; reflexivity). destruct I as [<-|[]]; vm_compute; lia.
Qed.
Lemma top_leads f g : leads top f g -> (topPlace g < topPlace f)%nat.
Proof. induction 1 as [g H|g h _ IH H]; apply top_edge in H; lia. Qed.
Lemma top_parsed f c run n ss lines : p_read top f = Some c -> parse run n c = ParseOk ss lines ->
  (c = topA \/ c = topX \/ c = topY) /\ exists ss0 l0, parse 0 200 c = ParseOk ss0 l0 /\ ss = sheetOfRun run ss0.
Proof.
  intros R Hp. apply lookup_In in R as [R|[R|[R|[]]]]; injection R as <- <-; (split; [auto|]);
  (match goal with |- exists _ _, parse 0 200 ?c = _ /\ _ => assert (T : parse 0 200 c <> ParseTimeout) by (vm_compute; discriminate);
    pose proof (CompileEnd.parse_agree 0 200 run n c T) as E; rewrite Hp in E; specialize (E ltac:(discriminate)); destruct (parse 0 200 c) as [ss0 l0| | |]; try discriminate E; injection E as -> ->; eauto end).
Qed.
Lemma top_one : oneImportEach top.
Proof.
  intros f _. split; [intros H; apply top_leads in H; lia|]. intros c run n ss lines R Hp.
  destruct (top_parsed _ _ _ _ _ _ R Hp) as ([-> | [-> | ->]] & ss0 & l0 & E & ->); vm_compute in E; injection E as <- <-; cbn; lia.
Qed.
Lemma top_tidy f : tidyImports top f.
Proof.
  intros c run n ss lines R Hp. destruct (top_parsed _ _ _ _ _ _ R Hp) as ([-> | [-> | ->]] & ss0 & l0 & E & ->); vm_compute in E; injection E as <- <-.
  all: split; [eexists [_], _; split; [reflexivity|]; split; repeat constructor|].
  all: intros a I _; left; cbn in I; repeat (destruct I as [I|I]; [first [discriminate I|injection I as <-; cbn; unfold unconditional; cbn; lia]|]); destruct I.
Qed.
Lemma C65_sample_lemma : p_entries top = [B "/a"] /\ o_imports (p_opts top) = ImportInline /\ passOpts (p_opts top) /\ oneImportEach top /\ (forall f, tidyImports top f) /\
  exists g out rest, reach top (g, Finished [(B "/a", out)]) /\ out = B "@import ""/gone"";x{y:z}@media print{p{q:r}}a{b:c}" ++ rest.
Proof.
  split; [reflexivity|]. split; [reflexivity|]. split; [repeat split|]. split; [exact top_one|]. split; [exact top_tidy|].
  exists (fst (greedy top true 200 start)), (textOf top). eexists. split.
  - replace (Finished _) with (Finished (outputs (greedy top true 200 start))) by (vm_compute; reflexivity).
    apply greedy_finished; [constructor|vm_compute; reflexivity].
  - vm_compute. reflexivity.
Qed.
(** How much applies depends on the device. *)
Lemma C65_devices_lemma : exists v v', means everywhere top 0 (B "/a") v /\ means nowhere top 0 (B "/a") v' /\ length v = 4%nat /\ length v' = 3%nat.
Proof.
  eexists; eexists. split; [apply (meaning_means _ _ 20); vm_compute; reflexivity|]. split; [apply (meaning_means _ _ 20); vm_compute; reflexivity|]. split; reflexivity.
Qed.
(** Two @imports, the second of them with the rules of another parse. *)
Definition twoTops : stylesheet := Eval vm_compute in sheetOf (B "@import ""/gone"" print;@import ""/x"";a{b:c}e{}").
Definition brought : list node := Eval vm_compute in match parse 1 200 (B "@import ""/y"";x{y:z}") with ParseOk ss _ => ss_nodes ss | _ => [] end.
Definition second : list (ptr * list node) := Eval vm_compute in match ss_imports twoTops with [_; (_, i)] => [(i, brought)] | _ => [] end.
Definition sheetAfter (r : tres stylesheet) : stylesheet := match r with TOk ss _ => ss | _ => mkSheet [] [] end.
Definition stateAfter (r : tres stylesheet) : tstate := match r with TOk _ t => t | _ => initState plainInline None end.
Lemma C65_transform_sample_lemma : passOpts plainInline /\ separate second /\ inFront (ss_nodes twoTops) /\ inFront (replaced second (ss_nodes twoTops)) /\
  (forall a, In (NAt a) (ss_nodes twoTops) -> ar_name a = B "import" -> isReplaced second a -> unconditional a) /\
  length (view everywhere (replaced second (ss_nodes twoTops))) = 4%nat /\
  exists ss' t, transform plainInline (Some second) 50 twoTops = TOk ss' t /\ (length (ss_nodes ss') =? 4)%nat = true.
Proof.
  split; [repeat split|]. split.
  { intros k l I. vm_compute in I. destruct I as [I|[]]. injection I as <- <-. repeat constructor; intros _; vm_compute; reflexivity. }
  split; [vm_compute; eexists [_; _], _; split; [reflexivity|]; split; repeat constructor|].
  split; [vm_compute; eexists [_; _], _; split; [reflexivity|]; split; repeat constructor|].
  split.
  { intros a I _ (l & J). vm_compute in I, J. destruct J as [J|[]]. repeat (destruct I as [I|I]; [first [discriminate I|injection I as <-; first [discriminate J|vm_compute; lia]]|]). destruct I. }
  split; [vm_compute; reflexivity|].
  exists (sheetAfter (transform plainInline (Some second) 50 twoTops)), (stateAfter (transform plainInline (Some second) 50 twoTops)). split; vm_compute; reflexivity.
Qed.
(** A condition that gets lost. *)
Definition condTop : stylesheet := Eval vm_compute in sheetOf (B "@import ""/x"" print;a{b:c}").
Definition condRepl : list (ptr * list node) := Eval vm_compute in match ss_imports condTop with [(_, i)] => [(i, brought)] | _ => [] end.
Lemma C65_warn_sample_lemma : exists a nds ss' t, In (NAt a) (ss_nodes condTop) /\ ar_name a = B "import" /\ plookup (atRuleId a) condRepl = Some nds /\ ~ unconditional a /\
  transform plainInline (Some condRepl) 50 condTop = TOk ss' t /\ (length (t_reports t) =? 1)%nat = true.
Proof.
  exists (match ss_nodes condTop with NAt a :: _ => a | _ => mkAt 0 zsp [] [] None end), brought,
    (sheetAfter (transform plainInline (Some condRepl) 50 condTop)), (stateAfter (transform plainInline (Some condRepl) 50 condTop)). split; [vm_compute; left; reflexivity|]. split; [reflexivity|]. split; [vm_compute; reflexivity|]. split; [vm_compute; lia|].
  split; vm_compute; reflexivity.
Qed.
