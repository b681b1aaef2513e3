(** One entry file whose imports form a chain, inlined: C53. *)
From Verif Require Import Bytes Utf8 Source Lexer Ast BytesFacts Parser ParseMono ParseResults ParseRerun Printer Transformer TransSpec TransProofs
  TransMedia TransInline Resolver Compile CompileSpec CompileSteps CompileOne CompileEnd InlineSpec InlineRefs.

Section WithProject.
Context {U : UnicodeDigits} {FO : FloatOps}.
Variable P : project.
Let o := p_opts P.

(** ** [inlined] is a function *)
Scheme inlined_ind2 := Induction for inlined Sort Prop with replaces_ind2 := Induction for replaces Sort Prop.
Combined Scheme inlined_both from inlined_ind2, replaces_ind2.
Lemma parsed_same d n n' c x y : parse d n c = x -> parse d n' c = y -> x <> ParseTimeout -> y <> ParseTimeout -> x = y.
Proof. intros <- <- A C. apply ParseMono.parse_agree; auto. Qed.
Lemma inlined_unique_both :
  (forall d f r, inlined P d f r -> forall r', inlined P d f r' -> r = r') /\
  (forall d f is m, replaces P d f is m -> forall m', replaces P d f is m' -> m = m').
Proof.
  apply inlined_both.
  - intros d f Hr r' H. inversion H; subst; auto; congruence.
  - intros d f c n sp msg lines Hr Hp r' H. inversion H; subst; auto.
    assert (content = c) by congruence. subst. pose proof (parsed_same _ _ _ _ _ _ Hp H1 ltac:(discriminate) ltac:(discriminate)). discriminate.
  - intros d f c n ss lines m k ss' t Hr Hp Hm IH Ht r' H. inversion H; subst; [congruence| |].
    + assert (content = c) by congruence. subst. pose proof (parsed_same _ _ _ _ _ _ Hp H1 ltac:(discriminate) ltac:(discriminate)). discriminate.
    + assert (content = c) by congruence. subst. pose proof (parsed_same _ _ _ _ _ _ Hp H1 ltac:(discriminate) ltac:(discriminate)) as E.
      inversion E; subst. assert (m = m0) by auto. subst. f_equal. f_equal. eapply transform_fuel; eauto.
  - intros d f m' H. inversion H; subst; auto.
  - intros d f spec at_ Hr m' H. inversion H; subst; auto; congruence.
  - intros d f spec at_ rel Hr Ha m' H. inversion H; subst; auto; congruence.
  - intros d f spec at_ rel f' Hr Ha Hi IH m' H. inversion H; subst; auto. assert (rel0 = rel) by congruence. subst. assert (f'0 = f') by congruence. subst.
    match goal with X : inlined P _ _ (Some _) |- _ => apply IH in X; discriminate end.
  - intros d f spec at_ rel f' nds Hr Ha Hi IH m' H. inversion H; subst; try congruence.
    + assert (rel0 = rel) by congruence. subst. assert (f'0 = f') by congruence. subst.
      match goal with X : inlined P _ _ None |- _ => apply IH in X; discriminate end.
    + assert (rel0 = rel) by congruence. subst. assert (f'0 = f') by congruence. subst.
      match goal with X : inlined P _ _ (Some _) |- _ => apply IH in X; inversion X; subst; auto end.
Qed.
Lemma inlined_unique d f r r' : inlined P d f r -> inlined P d f r' -> r = r'.
Proof. intros H H'. exact (proj1 inlined_unique_both _ _ _ H _ H'). Qed.

(** ** The chain of files on the way down *)
Record item := mkItem { it_path : bytes; it_content : bytes; it_ss : stylesheet; it_lines : list nat }.
Definition srcOf (it : item) : source := mkSource (it_path it) (it_content it) (it_lines it).
Definition refsOf (d : nat) (it : item) : list nref := map fst (alloc d 0 (ss_nodes (it_ss it))).
(** The state after the files [L], the last one first, have been parsed and
    before any has been transformed. *)
Fixpoint G (L : list item) : glob :=
  match L with
  | [] => g0
  | it :: L' => let g := G L' in let d := length L' in
    mkG ((it_path it, d) :: g_sources g) (S d) ((d, d) :: g_byIndex g) [] [0%nat] [] (g_srcs g ++ [srcOf it])
        (alloc d 0 (ss_nodes (it_ss it)) ++ g_heap g) (S d)
  end.
Lemma G_next L : g_next (G L) = length L. Proof. destruct L; reflexivity. Qed.
Lemma G_runs L : g_runs (G L) = length L. Proof. destruct L; reflexivity. Qed.
Lemma G_asts L : g_asts (G L) = []. Proof. destruct L; reflexivity. Qed.
Lemma G_errors L : g_errors (G L) = []. Proof. destruct L; reflexivity. Qed.
Lemma G_srcs L : length (g_srcs (G L)) = length L.
Proof. induction L; cbn; auto. rewrite app_length, IHL. cbn. lia. Qed.
Lemma G_sources L p i : lookup p (g_sources (G L)) = Some i -> exists it, In it L /\ it_path it = p.
Proof.
  induction L as [|it L IH]; cbn; [discriminate|]. destruct (beq p (it_path it)) eqn:E.
  - intros _. exists it. apply beq_eq in E. auto.
  - intros H. destruct (IH H) as (x & ? & ?). eauto.
Qed.
Definition outs (L : list item) : list nat := g_outputs (G L).
Definition isNil (L : list item) : bool := match L with [] => true | _ => false end.

Fixpoint good (L : list item) : Prop :=
  match L with
  | [] => True
  | it :: L' => p_read P (it_path it) = Some (it_content it) /\ (exists n, parse (length L') n (it_content it) = ParseOk (it_ss it) (it_lines it)) /\
      involved P (it_path it) /\ Forall (fun x => leads P (it_path x) (it_path it)) L' /\ good L'
  end.
Definition toward (L : list item) (b : bytes) : Prop := involved P b /\ Forall (fun x => leads P (it_path x) b) L.

(** What every state below the files [L] keeps of them. *)
Fixpoint base (L : list item) (g : glob) : Prop :=
  match L with
  | [] => True
  | it :: L' => let d := length L' in
    nth_error (g_srcs g) d = Some (srcOf it) /\ ilookup d (g_byIndex g) = Some d /\
    derefs (g_heap g) (refsOf d it) = Some (ss_nodes (it_ss it)) /\ g_outputs g = [0%nat] /\ base L' g
  end.
Lemma base_keeps L g g' : base L g ->
  (forall i, (i < length L)%nat -> nth_error (g_srcs g') i = nth_error (g_srcs g) i) ->
  (forall i, (i < length L)%nat -> ilookup i (g_byIndex g') = ilookup i (g_byIndex g)) ->
  (forall r, (fst r < length L)%nat -> deref (g_heap g') r = deref (g_heap g) r) ->
  (L <> [] -> g_outputs g' = g_outputs g) -> base L g'.
Proof.
  induction L as [|it L IH]; cbn; auto. intros (B1 & B2 & B3 & B4 & B5) H1 H2 H3 H4.
  rewrite H1, H2, H4 by (auto; discriminate). repeat split; auto.
  - rewrite <- B3. apply derefs_ext. intros r Hi. apply H3. unfold refsOf in Hi. rewrite alloc_refs in Hi. apply in_map_iff in Hi as (x & <- & _). cbn. lia.
  - apply IH; auto. intros _. apply H4. discriminate.
Qed.
Lemma base_G L : base L (G L).
Proof.
  induction L as [|it L IH]; [exact Logic.I|]. cbn [base]. split; [|split; [|split; [|split]]].
  - cbn. rewrite nth_error_app2; rewrite G_srcs; auto. rewrite Nat.sub_diag. reflexivity.
  - cbn. rewrite Nat.eqb_refl. reflexivity.
  - cbn [G g_heap]. apply derefs_alloc.
  - reflexivity.
  - eapply base_keeps; [exact IH| | | |].
    + intros i Hi. cbn. rewrite nth_error_app1; auto. rewrite G_srcs. auto.
    + intros i Hi. cbn. destruct (i =? length L)%nat eqn:E; auto. apply Nat.eqb_eq in E. lia.
    + intros r Hi. cbn. apply deref_alloc_other. lia.
    + intros Hn. destruct L; [tauto|reflexivity].
Qed.

(** ** What a call of parseFile comes to *)
Definition fin (L : list item) (file : bytes) (ret : option (list nref)) (g : glob) : Prop :=
  match ret with
  | None => (forall a, p_abs P file = Some a -> inlined P (length L) a None) /\ g_asts g = [] /\ (g_outputs g = [] \/ g_outputs g = [0%nat])
  | Some rs => let d := length L in exists a content n ss lines nds,
      p_abs P file = Some a /\ p_read P a = Some content /\ parse d n content = ParseOk ss lines /\ inlined P d a (Some nds) /\
      derefs (g_heap g) rs = Some nds /\ NoDup rs /\ Forall (fun r => (d <= fst r)%nat) rs /\ Forall (from d) nds /\
      nth_error (g_srcs g) d = Some (mkSource a content lines) /\ ilookup d (g_byIndex g) = Some d /\ g_outputs g = [0%nat]
  end.
(** The map of replacements after the loop. *)
Definition collected (d : nat) (f : bytes) (imps : list (bytes * ptr)) (repl : list (ptr * list nref)) (g : glob) : Prop :=
  repl = [] /\ replaces P d f imps [] \/
  exists spec at_ rs nds, imps = [(spec, at_)] /\ repl = [(at_, rs)] /\ replaces P d f imps [(at_, nds)] /\
    derefs (g_heap g) rs = Some nds /\ NoDup rs /\ Forall (fun r => (S d <= fst r)%nat) rs /\ Forall (from (S d)) nds.

(** States of the source being added. *)
Definition g1 (L : list item) (a : bytes) : glob :=
  let g := G L in mkG ((a, length L) :: g_sources g) (length L) (g_byIndex g) [] (outs L) [] (g_srcs g) (g_heap g) (length L).
Definition g2 (L : list item) (a content : bytes) (next : nat) (outs : list nat) : glob :=
  let g := G L in mkG ((a, length L) :: g_sources g) next ((length L, length L) :: g_byIndex g) [] outs []
    (g_srcs g ++ [mkSource a content []]) (g_heap g) (length L).

Inductive wk : list item -> bytes -> glob -> gor -> Prop :=
| wCalled L f : good L -> (forall b, p_abs P f = Some b -> toward L b) -> wk L f (G L) (InFrame (Called f (isNil L)))
| wMissed L f a : good L -> p_abs P f = Some a -> toward L a -> wk L f (G L) (InFrame (Missed f a (isNil L)))
| wRead L f a c : good L -> p_abs P f = Some a -> toward L a -> p_read P a = Some c -> wk L f (G L) (InFrame (ReadIn a c (isNil L)))
| wIndexed L f a c : good L -> p_abs P f = Some a -> toward L a -> p_read P a = Some c ->
    wk L f (g1 L a) (InFrame (Indexed (length L) a c (isNil L)))
| wStored L f a c : good L -> p_abs P f = Some a -> toward L a -> p_read P a = Some c ->
    wk L f (g2 L a c (length L) (outs L)) (InFrame (Stored (length L) (isNil L)))
| wCounted L f a c : good L -> p_abs P f = Some a -> toward L a -> p_read P a = Some c ->
    wk L f (g2 L a c (length L) (outs L)) (InFrame (Counted (length L) (length L) (isNil L)))
| wHas L f a c : good L -> p_abs P f = Some a -> toward L a -> p_read P a = Some c ->
    wk L f (g2 L a c (S (length L)) (outs L)) (InFrame (HasIndex (length L) (isNil L)))
| wLooking L f a c : good L -> p_abs P f = Some a -> toward L a -> p_read P a = Some c ->
    wk L f (g2 L a c (S (length L)) [0%nat]) (InFrame (Looking (length L)))
| wNotParsed L f a c : good L -> p_abs P f = Some a -> toward L a -> p_read P a = Some c ->
    wk L f (g2 L a c (S (length L)) [0%nat]) (InFrame (NotParsed (length L)))
| wSource L f a c : good L -> p_abs P f = Some a -> toward L a -> p_read P a = Some c ->
    wk L f (g2 L a c (S (length L)) [0%nat]) (InFrame (HasSource (length L) (length L)))
| wLoop L f it : good (it :: L) -> p_abs P f = Some (it_path it) ->
    wk L f (G (it :: L)) (InLoop (length L) (length L) (refsOf (length L) it) (ss_imports (it_ss it)) 0 [] [])
| wFresh L f it spec at_ : good (it :: L) -> p_abs P f = Some (it_path it) -> ss_imports (it_ss it) = [(spec, at_)] ->
    wk L f (G (it :: L)) (InLoop (length L) (length L) (refsOf (length L) it) (ss_imports (it_ss it)) 1 [] [Fresh])
| wKid L f it spec at_ rel g kid : good (it :: L) -> p_abs P f = Some (it_path it) -> ss_imports (it_ss it) = [(spec, at_)] ->
    p_resolve P spec (fpDir (it_path it)) = Some rel -> wk (it :: L) rel g kid ->
    wk L f g (InLoop (length L) (length L) (refsOf (length L) it) (ss_imports (it_ss it)) 1 [] [kid])
| wEnd L f it spec at_ g repl : good (it :: L) -> p_abs P f = Some (it_path it) -> ss_imports (it_ss it) = [(spec, at_)] ->
    base (it :: L) g -> collected (length L) (it_path it) (ss_imports (it_ss it)) repl g ->
    wk L f g (InLoop (length L) (length L) (refsOf (length L) it) (ss_imports (it_ss it)) 1 repl [Done])
| wTransformed L f g rs : base L g -> fin L f (Some rs) g -> wk L f g (InFrame (Transformed (length L) rs))
| wBack L f g rs : base L g -> fin L f (Some rs) g -> ilookup (length L) (g_asts g) = Some rs -> wk L f g (Back (Some rs))
| wNone L f g : base L g -> fin L f None g -> wk L f g (Back None).

Hypothesis inline : o_imports (p_opts P) = ImportInline.
Hypothesis chained : oneImportEach P.

Lemma notFollow' : follow P = false. Proof. unfold follow. rewrite inline. auto. Qed.

Lemma outs_some L : outs L = if isNil L then [] else [0%nat].
Proof. destruct L; reflexivity. Qed.

(** The end of the loop. *)
Lemma transform_done L f it repl n g g' t' : good (it :: L) -> p_abs P f = Some (it_path it) -> base (it :: L) g ->
  collected (length L) (it_path it) (ss_imports (it_ss it)) repl g ->
  transformStep P n g (length L) (length L) (refsOf (length L) it) repl = Some (Go g' t') -> wk L f g' t'.
Proof.
  intros (R & (n0 & Hp) & _ & _ & _) Ha (B1 & B2 & B3 & B4 & B5) C H. unfold transformStep in H. rewrite inline in H.
  set (d := length L) in *.
  destruct (transformRefs _ _ _ _ _ _) as [[rs' h] t| |] eqn:E; [|discriminate|discriminate]. inversion H; subst g' t'. clear H.
  assert (N : NoDup (refsOf d it)) by apply alloc_nodup.
  assert (F : Forall (from d) (ss_nodes (it_ss it))) by (eapply parse_from; eauto).
  assert (Hd : forall r, In r (refsOf d it) -> fst r = d).
  { intros r Hi. unfold refsOf in Hi. rewrite alloc_refs in Hi. apply in_map_iff in Hi as (x & <- & _). auto. }
  assert (D : exists m ns', replaces P d (it_path it) (ss_imports (it_ss it)) m /\
    transform (p_opts P) (Some m) n (it_ss it) = TOk (mkSheet ns' (ss_imports (it_ss it))) t /\ derefs h rs' = Some ns' /\ Forall (from d) ns' /\
    (forall r, (fst r < d)%nat -> deref h r = deref (g_heap g) r) /\ Forall (fun r => (d <= fst r)%nat) rs' /\ NoDup rs').
  { destruct C as [[-> Hm]|(spec & at_ & rs & nds & Ei & -> & Hm & Hn1 & Hn2 & Hn3 & Hn4)].
    - destruct (refs_keep _ [] [] d _ _ _ _ _ _ _ _ E N B3) as (ns' & T & A1 & A2 & A3 & A4 & A5).
      { rewrite Forall_forall. intros nd _. split; intros (a & x & _ & _ & X); discriminate. }
      { exact F. }
      exists [], ns'. split; auto. split; [unfold transform, initState; cbv beta iota; rewrite T; reflexivity|]. repeat split; auto.
      + intros r Hr. apply A3. intros Hi. apply Hd in Hi. lia.
      + rewrite Forall_forall. intros r Hi. apply A4 in Hi. apply Hd in Hi. lia.
    - destruct (refs_one _ at_ rs nds d _ _ _ _ _ _ _ _ E N B3) as (ns' & T & A1 & A2 & A3 & A4 & A5); auto.
      { eapply C14_lemma; eauto. }
      { eapply parse_import_run; eauto. rewrite Ei. left. reflexivity. }
      { intros r Hi Hi'. apply Hd in Hi. rewrite Forall_forall in Hn3. apply Hn3 in Hi'. lia. }
      exists [(at_, nds)], ns'. split; auto. split; [unfold transform, initState; cbv beta iota; rewrite T; reflexivity|].
      rewrite Forall_forall in Hn3. repeat split; auto.
      + intros r Hr. apply A3. rewrite in_app_iff. intros [Hi|Hi]; [apply Hd in Hi|apply Hn3 in Hi]; lia.
      + rewrite Forall_forall. intros r Hi. apply A4 in Hi. rewrite in_app_iff in Hi. destruct Hi as [Hi|Hi]; [apply Hd in Hi|apply Hn3 in Hi]; lia. }
  destruct D as (m & ns' & M & T & D1 & D2 & D3 & D4 & D5).
  apply wTransformed.
  - eapply base_keeps; [exact B5|auto|auto|exact D3|auto].
  - exists (it_path it), (it_content it), n0, (it_ss it), (it_lines it), ns'. repeat split; auto.
    exact (inRules P d (it_path it) (it_content it) n0 (it_ss it) (it_lines it) m n _ t R Hp M T).
Qed.

Lemma notIn L b i : good L -> toward L b -> lookup b (g_sources (G L)) = Some i -> False.
Proof.
  intros _ [V T] H. apply G_sources in H as (it & Hi & E). rewrite Forall_forall in T. apply T in Hi. rewrite E in Hi.
  apply (proj1 (chained b V)). exact Hi.
Qed.
Lemma outs_or L : outs L = [] \/ outs L = [0%nat].
Proof. destruct L; auto. Qed.
Lemma frame_wk n L f g fr g' t' : wk L f g (InFrame fr) -> frameStep P n g fr = Some (Go g' t') -> wk L f g' t'.
Proof.
  intros W F. inversion W; subst; cbn [frameStep] in F;
    try match goal with X : good _ |- _ => rename X into Gd end; try match goal with X : p_abs P f = _ |- _ => rename X into Ha end;
    try match goal with X : toward _ _ |- _ => rename X into Tw end; try match goal with X : p_read P _ = _ |- _ => rename X into Hr end.
  - destruct (p_abs P f) as [b|] eqn:Ea.
    + destruct (lookup b (g_sources (G L))) as [i|] eqn:El; [destruct (notIn L b i); auto|]. inversion F; subst. apply wMissed; auto.
    + inversion F; subst. apply wNone.
      * apply (base_keeps L (G L)); auto. apply base_G.
      * split; [congruence|]. split; [apply G_asts|apply outs_or].
  - destruct (p_read P a) as [c|] eqn:Er.
    + inversion F; subst. eapply wRead; eauto.
    + inversion F; subst. apply wNone.
      * apply (base_keeps L (G L)); auto. apply base_G.
      * split; [intros a' Ha'; apply inUnread; congruence|]. split; [apply G_asts|apply outs_or].
  - inversion F; subst. rewrite G_next, G_runs, G_asts, G_errors. exact (wIndexed L f a c Gd Ha Tw Hr).
  - inversion F; subst. cbn [g1 g_sources g_next g_byIndex g_asts g_outputs g_errors g_srcs g_heap g_runs]. rewrite G_srcs.
    exact (wStored L f a c Gd Ha Tw Hr).
  - inversion F; subst. exact (wCounted L f a c Gd Ha Tw Hr).
  - inversion F; subst. exact (wHas L f a c Gd Ha Tw Hr).
  - inversion F; subst. destruct L as [|it L].
    + exact (wLooking [] f a c Gd Ha Tw Hr).
    + exact (wLooking (it :: L) f a c Gd Ha Tw Hr).
  - cbn [g2 g_asts ilookup] in F. inversion F; subst. eapply wNotParsed; eauto.
  - cbn [g2 g_byIndex ilookup] in F. rewrite Nat.eqb_refl in F. inversion F; subst. eapply wSource; eauto.
  - assert (E : nth_error (g_srcs (g2 L a c (S (length L)) [0%nat])) (length L) = Some (mkSource a c [])).
    { cbn. rewrite nth_error_app2; rewrite G_srcs; auto. rewrite Nat.sub_diag. reflexivity. }
    rewrite E in F. cbn [src_content src_path src_lines app] in F. change (g_runs (g2 L a c (S (length L)) [0%nat])) with (length L) in F.
    assert (Eu : forall ls, upd (length L) (mkSource a c ls) (g_srcs (g2 L a c (S (length L)) [0%nat])) = g_srcs (G L) ++ [mkSource a c ls]).
    { intros ls. cbn. rewrite <- (G_srcs L). generalize (g_srcs (G L)). intros l. induction l; cbn; [reflexivity|]. f_equal. auto. }
    destruct Tw as [V T].
    destruct (parse (length L) n c) as [ss lines|sp msg lines| |] eqn:Ep; [| |discriminate|discriminate]; cbn [addError g_srcs g_sources g_next g_byIndex g_asts g_outputs g_errors g_heap g_runs] in F; rewrite Eu in F; inversion F; subst; clear F.
    + assert (Gd' : good (mkItem a c ss lines :: L)) by (cbn; repeat split; eauto).
      exact (wLoop L f (mkItem a c ss lines) Gd' Ha).
    + apply wNone.
      * apply (base_keeps L (G L)); [apply base_G| | |auto|].
        -- intros i Hi. cbn. rewrite nth_error_app1; auto. rewrite G_srcs. auto.
        -- intros i Hi. cbn. destruct (i =? length L)%nat eqn:E1; auto. apply Nat.eqb_eq in E1. lia.
        -- intros Hn. destruct L; [tauto|reflexivity].
      * split; [|split; [reflexivity|right; reflexivity]]. intros a' Ha'. assert (a' = a) by congruence. subst. eapply inBad; eauto.
  - inversion F; subst. apply wBack.
    + eapply base_keeps; eauto.
    + match goal with X : fin _ _ _ _ |- _ => exact X end.
    + cbn. rewrite Nat.eqb_refl. reflexivity.
Qed.

Lemma wk_step g t g' t' : gstep P g t g' t' -> forall L f, wk L f g t -> wk L f g' t'.
Proof.
  intros H. induction H; intros L f0 W; [eapply frame_wk; eauto|..]; inversion W; subst;
    try match goal with E : [] = _ ++ _ :: _ |- _ => destruct (app_cons_not_nil _ _ _ E) end;
    try match goal with E : [_] = _ ++ _ :: _ |- _ => apply single in E as (-> & -> & E); try discriminate E; subst end;
    try match goal with I : ss_imports _ = [_], K : (1 < length _)%nat |- _ => rewrite I in K; cbn in K; lia end;
    try match goal with K : wk _ _ _ Fresh |- _ => inversion K end;
    try match goal with K : wk _ _ _ Done |- _ => inversion K end;
    try match goal with E : forallb isDone [Fresh] = true |- _ => discriminate E end;
    try match goal with E : gstep _ _ Fresh _ _ |- _ => inversion E end;
    try match goal with E : gstep _ _ Done _ _ |- _ => inversion E end;
    try match goal with X : good _ |- _ => rename X into Gd end; try match goal with X : p_abs P f0 = _ |- _ => rename X into Ha end;
    try match goal with X : ss_imports _ = [_] |- _ => rename X into Ei end;
    try match goal with X : transformStep _ _ _ _ _ _ _ = _ |- _ => rename X into T end;
    try match goal with C : current 1 _ = _ |- _ => pose proof C as Cu; rewrite Ei in Cu; cbn in Cu; inversion Cu; subst end.
  - (* spawn *) cbn [app]. assert (X : exists spec at_, ss_imports (it_ss it) = [(spec, at_)]).
    { destruct Gd as (R & (n & Hp) & V & _). pose proof (proj2 (chained _ V) _ _ _ _ _ R Hp) as Hl.
      destruct (ss_imports (it_ss it)) as [|[spec at_] [|? ?]]; cbn in *; try lia. eauto. }
    destruct X as (spec & at_ & X). eapply wFresh; eauto.
  - (* no imports *) eapply transform_done; [exact Gd|exact Ha|apply base_G| |exact T].
    left. split; auto. destruct (ss_imports (it_ss it)); [constructor|cbn in *; lia].
  - (* kid done *) match goal with E : forallb isDone [kid] = true |- _ => cbn in E; destruct kid; try discriminate E end.
    match goal with K : wk _ _ _ Done |- _ => inversion K end.
  - eapply transform_done; eauto.
  - (* resolve *)
    assert (E : src_path src = it_path it). { pose proof (base_G (it :: L)) as X. destruct X as [X _]. assert (src = srcOf it) by congruence. subst. reflexivity. }
    rewrite E in *. cbn [app]. eapply wKid; eauto. rewrite notFollow'. apply (wCalled (it :: L)); [exact Gd|]. intros b Hb.
    assert (Ed : edge P (it_path it) b).
    { exists spec, rel. split; [|auto]. destruct Gd as (R & (n & Hp) & _). exists (it_content it), (length L), n, (it_ss it), (it_lines it).
      split; auto. split; auto. rewrite Ei. left. reflexivity. }
    destruct Gd as (_ & _ & V & Fl & _). split.
    + destruct V as (e & a & V1 & V2 & V3). exists e, a. split; auto. split; auto. right. destruct V3 as [<-|V3]; [apply leadsEdge|eapply leadsStep]; eauto.
    + constructor; [apply leadsEdge; auto|]. eapply Forall_impl; [|exact Fl]. cbn. intros x Hx. eapply leadsStep; eauto.
  - (* not resolved *)
    assert (E : src_path src = it_path it). { pose proof (base_G (it :: L)) as X. destruct X as [X _]. assert (src = srcOf it) by congruence. subst. reflexivity. }
    rewrite E in *. cbn [app]. eapply wEnd; eauto; [apply (base_keeps (it :: L) (G (it :: L))); auto; apply base_G|]. left. split; auto. rewrite Ei. apply rpUnresolved. auto.
  - (* the import's result *)
    match goal with K : wk _ _ _ (Back _) |- _ => inversion K; subst end; cbn [app].
    + eapply wEnd; eauto. right.
      match goal with X : fin _ _ _ _ |- _ => destruct X as (a & c & n & ss & ls & nds & F1 & F2 & F3 & F4 & F5 & F6 & F7 & F8 & _) end.
      cbn [length] in *. eexists _, _, _, nds. split; [exact Ei|]. split; [reflexivity|]. split; [|auto]. rewrite Ei. eapply rpRules; eauto.
    + eapply wEnd; eauto. left. split; auto. rewrite Ei.
      match goal with X : fin _ _ _ _ |- _ => destruct X as (F1 & _) end. cbn [length] in *.
      destruct (p_abs P rel) as [b|] eqn:Eb; [eapply rpFailed; eauto|eapply rpNoPath; eauto].
  - (* the import *) cbn [app]. eapply wKid; eauto.
Qed.

(** ** The whole execution *)
Section Run.
Variable e : bytes.
Hypothesis oneEntry : p_entries P = [e].
Definition rightly (fs : files) : Prop := forall p out, lookup p fs = Some out <-> p_abs P e = Some p /\ compiledInline P p out.
Inductive winv : glob * mstate -> Prop :=
| wiStart : winv (g0, Running 0 [])
| wiFresh : winv (g0, Running 1 [Fresh])
| wiRoot g t : wk [] e g t -> winv (g, Running 1 [t])
| wiSome g rs : fin [] e (Some rs) g -> ilookup 0 (g_asts g) = Some rs -> winv (g, Running 1 [Done])
| wiNone g : fin [] e None g -> winv (g, Running 1 [Done])
| wiPrint g rs : fin [] e (Some rs) g -> ilookup 0 (g_asts g) = Some rs -> winv (g, Printing [0%nat] [])
| wiNothing g l : fin [] e None g -> (l = [] \/ l = [0%nat]) -> winv (g, Printing l [])
| wiPrinted g out : rightly out -> winv (g, Printing [] out)
| wiEnd g out : rightly out -> winv (g, Finished out)
| wiCrash g : winv (g, Crashed).
Lemma rightly_none g : fin [] e None g -> rightly [].
Proof.
  intros (H & _) p out. split; [discriminate|]. intros [E (c & n & ss & ls & nds & _ & _ & I1 & _)]. apply H in E. cbn in E.
  pose proof (inlined_unique _ _ _ _ E I1). discriminate.
Qed.
Lemma winv_step s s' : mstep P s s' -> winv s -> winv s'.
Proof.
  intros H Iv. inversion Iv; subst; inversion H; subst;
    try match goal with E : [] = _ ++ _ :: _ |- _ => destruct (app_cons_not_nil _ _ _ E) end;
    try match goal with E : _ ++ _ :: _ = [] |- _ => symmetry in E; destruct (app_cons_not_nil _ _ _ E) end;
    try match goal with E : [_] = _ ++ _ :: _ |- _ => apply single in E as (-> & -> & E); try discriminate E; subst end;
    try match goal with E : _ ++ _ :: _ = [_] |- _ => symmetry in E; apply single in E as (-> & -> & E); try discriminate E; subst end;
    try match goal with K : wk _ _ _ Fresh |- _ => inversion K end;
    try match goal with K : wk _ _ _ Done |- _ => inversion K end;
    try match goal with E : forallb isDone [Fresh] = true |- _ => discriminate E end;
    try match goal with E : gstep _ _ Fresh _ _ |- _ => inversion E end;
    try match goal with E : gstep _ _ Done _ _ |- _ => inversion E end;
    try (rewrite oneEntry in *; cbn [length] in *; lia);
    try (constructor; fail).
  - match goal with C : current _ _ = _ |- _ => rewrite oneEntry in C; cbn in C; inversion C; subst end. apply wiRoot.
    apply (wCalled []); [exact Logic.I|]. intros b Hb. split; [|constructor]. exists e, b. rewrite oneEntry. split; [left; auto|]. auto.
  - match goal with E : forallb isDone [t] = true |- _ => cbn in E; destruct t; try discriminate E end.
    match goal with K : wk _ _ _ Done |- _ => inversion K end.
  - match goal with K : wk _ _ _ (Back _) |- _ => inversion K; subst end; cbn [app].
    + eapply wiSome; eauto.
    + apply wiNone; auto.
  - apply wiRoot. eapply wk_step; eauto.
  - match goal with X : fin _ _ _ _ |- _ => pose proof X as (a & c & n & ss & ls & nds & F1 & F2 & F3 & F4 & F5 & F6 & F7 & F8 & F9 & F10 & F11) end.
    rewrite F11. eapply wiPrint; eauto.
  - match goal with X : fin _ _ _ _ |- _ => pose proof X as (_ & _ & F) end. apply wiNothing; auto.
  - match goal with X : fin _ _ _ _ |- _ => pose proof X as (a & c & n & ss & ls & nds & F1 & F2 & F3 & F4 & F5 & F6 & F7 & F8 & F9 & F10 & F11) end.
    cbn [length] in *. unfold printOne. match goal with E : ilookup 0 (g_asts g) = _ |- _ => rewrite F10, E, F9, F5 end.
    assert (C : forall out, compiledInline P a out <-> print (Some (mkSource a c ls)) nds = Some out).
    { intros out. split.
      - intros (c2 & n2 & s2 & l2 & nds2 & B1 & B2 & B3 & B4). assert (c2 = c) by congruence. subst.
        pose proof (parsed_same _ _ _ _ _ _ F3 B2 ltac:(discriminate) ltac:(discriminate)) as X. inversion X; subst.
        pose proof (inlined_unique _ _ _ _ F4 B3) as Y. inversion Y; subst. auto.
      - intros Hp. exists c, n, ss, ls, nds. auto. }
    destruct (print _ _) as [css|] eqn:Ep; cbn [fst snd]; apply wiPrinted.
    + intros p out. cbn. destruct (beq p a) eqn:E.
      * apply beq_eq in E. subst. split.
        -- intros [=<-]. split; auto. apply C. auto.
        -- intros [_ Hc]. apply C in Hc. congruence.
      * split; [discriminate|]. intros [Hp _]. assert (p = a) by congruence. subst. rewrite beq_refl in E. discriminate.
    + intros p out. split; [discriminate|]. intros [Hp Hc]. assert (p = a) by congruence. subst. apply C in Hc. discriminate.
  - match goal with X : fin _ _ _ _ |- _ => pose proof (rightly_none _ X) as R; pose proof X as (_ & A & _) end.
    match goal with E : _ \/ _ |- _ => rename E into Q end. destruct Q as [Q|Q]; [symmetry in Q; destruct (app_cons_not_nil _ _ _ Q)|].
    symmetry in Q. apply single in Q as (-> & -> & ->). unfold printOne. rewrite A. cbn [ilookup].
    destruct (ilookup 0 (g_byIndex g)); apply wiPrinted; auto.
  - apply wiEnd. eapply rightly_none; eauto.
  - apply wiEnd; auto.
Qed.
Lemma winv_reach s : reach P s -> winv s.
Proof. induction 1; [constructor|]. eapply winv_step; eauto. apply step_mstep. auto. Qed.
Lemma C53_lemma g fs : reach P (g, Finished fs) -> forall p out, lookup p fs = Some out <-> p_abs P e = Some p /\ compiledInline P p out.
Proof. intros H. apply winv_reach in H. inversion H; subst. auto. Qed.
(** ** Every execution ends *)
Lemma wk_adders L f g t : wk L f g t -> forall path file out, gorAt path t = Some (InFrame (Called file out)) -> adders t = [].
Proof.
  intros W. induction W; intros path file out Q;
    (destruct path as [|j path]; cbn [gorAt] in Q; [try discriminate Q; try reflexivity|try discriminate Q]);
    try (destruct j as [|[|j]]; cbn [nth_error] in Q; try discriminate Q; destruct path; discriminate Q).
  destruct j as [|[|j]]; cbn [nth_error] in Q; try discriminate Q. cbn [adders flat_map]. rewrite app_nil_r. eauto.
Qed.
Lemma step_apart s s' : winv s -> step P s s' -> apart P s s'.
Proof.
  intros W (n & path & H). exists n, path. split; auto. intros (file & out & E). clear H s'.
  inversion W; subst; cbn [snd] in *; cbn [mGorAt] in E; try discriminate E; try reflexivity.
  - destruct path as [|[|[|j]] path]; cbn [nth_error] in E; try discriminate E. cbn [mAdders flat_map]. rewrite app_nil_r.
    eapply wk_adders; eauto.
Qed.
Lemma runs_reach k s : runs P k start s -> reach P s.
Proof. remember start as s0. induction 1; subst; [constructor|]. eapply reachStep; eauto. Qed.
Lemma runsApart_snoc k s s1 s' : runsApart P k s s1 -> apart P s1 s' -> runsApart P (S k) s s'.
Proof. induction 1; intros; [econstructor; [eauto|constructor]|]. econstructor; eauto. Qed.
Lemma runs_apart k s : runs P k start s -> runsApart P k start s.
Proof.
  remember start as s0. induction 1 as [|k s s1 s' H IH St]; subst; [constructor|]. eapply runsApart_snoc; [auto|].
  apply step_apart; auto. apply winv_reach. eapply runs_reach; eauto.
Qed.
Lemma C53_bound : (forall f, involved P f -> parserReturns P f) -> (forall f, involved P f -> grounded P f) ->
  exists N, forall k s, runs P k start s -> (k <= N)%nat.
Proof. intros H1 H2. destruct (C34_bound P H1 H2) as (N & H). exists N. intros k s R. eapply H. apply runs_apart. eauto. Qed.
End Run.
End WithProject.
