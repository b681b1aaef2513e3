(** A chain of inlined files: what applies of the result is what applies of the
    files. *)
From Verif Require Import Bytes Utf8 Source Lexer Ast BytesFacts Parser ParserSpec ParseResults ParseRerun Printer Transformer TransSpec TransProofs TransMedia TransInline TransDefs Resolver Compile CompileSpec CompileEnd
  InlineSpec InlineRefs InlineProofs ApplySpec ApplyProofs.

Section Chain.
Context {U : UnicodeDigits} {FO : FloatOps}.
Variable holds : list mquery -> bool.
Variable P : project.
Hypothesis Ho : passOpts (p_opts P).
Notation view := (view holds).
Notation means := (means holds P).
Notation follows := (follows holds P).

Definition tidyFrom (f : bytes) : Prop := forall g, g = f \/ leads P f g -> tidyImports P g.
Definition kept (d : nat) (f : bytes) (nds : list node) : Prop := tidyFrom f -> inFront nds /\ means d f (view nds).
Lemma import_targets run n content ss lines a : parse run n content = ParseOk ss lines -> In (NAt a) (ss_nodes ss) -> importRule a -> exists spec, importOf (NAt a) = [(spec, atRuleId a)].
Proof.
  intros Hp Ia Na. pose proof (C15_lemma _ _ _ _ _ Hp) as S. rewrite Forall_forall in S. specialize (S _ Ia). destruct S as [S _].
  destruct (S Na) as (_ & sp & t & rest & E & _). exists t. cbn [importOf]. rewrite Na, E. reflexivity.
Qed.
Lemma targets_list run n content ss lines imps rest : parse run n content = ParseOk ss lines -> ss_nodes ss = map NAt imps ++ rest -> Forall importRule imps -> Forall plain rest ->
  exists specs, ss_imports ss = List.combine specs (map atRuleId imps) /\ length specs = length imps.
Proof.
  intros Hp E Hi Hr. destruct (C14_lemma _ _ _ _ _ Hp) as (-> & _). rewrite E, flat_map_app.
  assert (N : flat_map importOf rest = []). { clear -Hr. induction Hr as [|nd l H _ IH]; [reflexivity|]. cbn [flat_map]. rewrite IH, app_nil_r. destruct nd as [|a]; [reflexivity|]. unfold plain in H. cbn [isImport] in H. cbn [importOf]. rewrite H. reflexivity. }
  rewrite N, app_nil_r. assert (A : Forall (fun a => exists spec, importOf (NAt a) = [(spec, atRuleId a)]) imps).
  { rewrite Forall_forall in *. intros a Ia. eapply import_targets; eauto. rewrite E. apply in_or_app. left. apply in_map. exact Ia. }
  clear -A. induction A as [|a l (spec & Ha) _ (specs & IH & L)]; [exists []; auto|]. exists (spec :: specs). cbn [map flat_map List.combine length]. rewrite Ha, IH. auto.
Qed.
Lemma failed_unknown d f spec rel f' : p_resolve P spec (fpDir f) = Some rel -> p_abs P rel = Some f' -> inlined P (S d) f' None -> unknown P d f spec.
Proof.
  intros R A H. right. exists rel. split; [exact R|]. right. exists f'. split; [exact A|]. inversion H; subst; [left; assumption|]. right. eauto 8.
Qed.
Lemma replaced_separate d f content n ss lines m : parse d n content = ParseOk ss lines -> replaces P d f (ss_imports ss) m -> separate m.
Proof.
  intros Hp R k l I. destruct (proj2 (inlined_harmless P) _ _ _ _ R _ _ I) as [F _].
  assert (K : forall k0 l0, In (k0, l0) m -> fst k0 = d). { eapply replaces_key; [exact R|]. intros [spec at_] Ii. eapply parse_import_run; eauto. }
  unfold strange. rewrite Forall_forall in *. intros nd Ind _. specialize (F nd Ind). rewrite find_lookup. destruct (find _ m) as [[k1 l1]|] eqn:E; [|reflexivity].
  apply find_some in E as [E1 E2]. apply K in E1. apply ptrEq_true in E2. cbn in E2. subst k1. destruct nd; cbn in *; lia.
Qed.
Lemma chain_both :
  (forall d f r, inlined P d f r -> forall nds, r = Some nds -> kept d f nds) /\
  (forall d f imps m, replaces P d f imps m -> forall k nds, In (k, nds) m -> exists spec rel f', In (spec, k) imps /\ p_resolve P spec (fpDir f) = Some rel /\ p_abs P rel = Some f' /\ kept (S d) f' nds).
Proof.
  apply inlined_both; try discriminate; try (intros; contradiction).
  2:{ intros d f spec at_ rel f' nds R A _ IH k nds' [I|[]]. injection I as <- <-. exists spec, rel, f'. split; [left; reflexivity|]. split; [exact R|]. split; [exact A|]. apply IH. reflexivity. }
  intros d f content n ss lines m k ss' t Rd Hp R IH T nds E Ht. injection E as <-.
  assert (Hm : separate m) by (eapply replaced_separate; eauto).
  assert (Tf : tidyImports P f) by (apply Ht; auto). destruct (Tf _ _ _ _ _ Rd Hp) as [(imps & rest & En & Hi & Hr) Hc].
  destruct (targets_list _ _ _ _ _ _ _ Hp En Hi Hr) as (specs & Es & Ls).
  rewrite (transform_off (p_opts P) Ho m k ss ss' t Hm T).
  assert (Sub : forall key nds', In (key, nds') m -> exists spec rel f', In (spec, key) (ss_imports ss) /\ p_resolve P spec (fpDir f) = Some rel /\ p_abs P rel = Some f' /\ inFront nds' /\ means (S d) f' (view nds')).
  { intros key nds' I. destruct (IH _ _ I) as (spec & rel & f' & Ii & Rr & Ra & Kp). exists spec, rel, f'. repeat split; auto; apply Kp;
      intros g Hg; apply Ht; right; (assert (Ed : edge P f f') by (exists spec, rel; repeat split; auto; exists content, d, n, ss, lines; repeat split; auto; apply in_map with (f := fst) in Ii; exact Ii));
      (destruct Hg as [-> | Hg]; [apply leadsEdge; exact Ed|clear -Ed Hg; induction Hg; [eapply leadsStep; [apply leadsEdge; exact Ed|assumption]|eapply leadsStep; eauto]]). }
  assert (Fr : inFront (replaced m (ss_nodes ss))).
  { rewrite En, replaced_front by auto. rewrite Es in R. destruct imps as [|a [|b imps]]; [apply front_plain; exact Hr| |].
    - cbn [flat_map]. rewrite app_nil_r. unfold seg. destruct (find _ m) as [[key nds']|] eqn:F; [|exists [a], rest; auto].
      apply find_some in F as [F _]. destruct (Sub _ _ F) as (_ & _ & _ & _ & _ & _ & (i1 & r1 & -> & H1 & H2) & _). exists i1, (r1 ++ rest). rewrite app_assoc. repeat split; auto. apply Forall_app. auto.
    - exfalso. destruct specs as [|s1 [|s2 specs]]; cbn in Ls; try lia. cbn in R. inversion R. }
  destruct (keep_front holds _ Fr) as [K1 K2]. split; [exact K1|]. rewrite K2.
  assert (Un : forall a, In (NAt a) (ss_nodes ss) -> importRule a -> isReplaced m a -> unconditional a).
  { intros a Ia Na (nds' & I). destruct (Hc a Ia Na) as [X|X]; [exact X|]. exfalso. destruct (Sub _ _ I) as (spec & rel & f' & Ii & Rr & _).
    destruct (import_targets _ _ _ _ _ _ Hp Ia Na) as (spec' & Et). destruct (C14_lemma _ _ _ _ _ Hp) as (Ei & _ & _ & Nd).
    assert (Ii' : In (spec', atRuleId a) (ss_imports ss)). { rewrite Ei. apply in_flat_map. exists (NAt a). split; [exact Ia|]. rewrite Et. left. reflexivity. }
    assert (spec = spec'). { clear -Nd Ii Ii'. induction (ss_imports ss) as [|[s p] l IHl]; [destruct Ii|]. cbn in Nd. inversion Nd as [|? ? N1 N2]; subst.
      destruct Ii as [Q|Q], Ii' as [Q'|Q']; try congruence; auto.
      - injection Q as <- ->. exfalso. apply N1. apply in_map with (f := snd) in Q'. exact Q'.
      - injection Q' as <- ->. exfalso. apply N1. apply in_map with (f := snd) in Q. exact Q. }
    subst spec'. rewrite (X _ _ Et) in Rr. discriminate. }
  rewrite replaced_view; [|exists imps, rest; auto|exact Fr|exact Un]. unfold viewWith, applied. eapply meFile; eauto.
  rewrite En, heads_front by auto. rewrite Es in R. destruct imps as [|a [|b imps]]; [constructor| |exfalso; destruct specs as [|s1 [|s2 specs]]; cbn in Ls; try lia; cbn in R; inversion R].
  destruct specs as [|spec [|]]; cbn in Ls; try lia. cbn [map List.combine] in R, Es. cbn [flat_map]. rewrite app_nil_r.
  assert (Ia : In (NAt a) (ss_nodes ss)) by (rewrite En; left; reflexivity). inversion Hi as [|? ? Na _]; subst.
  destruct (import_targets _ _ _ _ _ _ Hp Ia Na) as (spec' & Et). assert (spec' = spec).
  { destruct (C14_lemma _ _ _ _ _ Hp) as (Ei & _). assert (Ii : In (spec', atRuleId a) (ss_imports ss)) by (rewrite Ei; apply in_flat_map; exists (NAt a); split; [exact Ia|rewrite Et; left; reflexivity]).
    rewrite Es in Ii. destruct Ii as [Ii|[]]. congruence. }
  subst spec'. destruct (importApplies holds a) eqn:Ap; [|apply foOff; [exact Ap|constructor]].
  inversion R; subst; cbn [find fst].
  - eapply foUnknown; eauto; [left; assumption|constructor].
  - eapply foUnknown; eauto; [right; eexists; split; eauto|constructor].
  - eapply foUnknown; eauto; [eapply failed_unknown; eauto|constructor].
  - assert (Pe : ptrEq (atRuleId a) (atRuleId a) = true) by (unfold ptrEq; rewrite !Nat.eqb_refl; reflexivity). rewrite Pe.
    destruct (Sub (atRuleId a) nds ltac:(left; reflexivity)) as (s & rl & fl & Ii & R1 & R2 & _ & M). rewrite Es in Ii. destruct Ii as [Ii|[]]. injection Ii as <-.
    rewrite <- (app_nil_r (view nds)). eapply foFile; eauto. constructor.
Qed.
Lemma chain_means d f nds : inlined P d f (Some nds) -> tidyFrom f -> inFront nds /\ means d f (view nds).
Proof. intros H. exact (proj1 chain_both _ _ _ H _ eq_refl). Qed.

(** What applies of a file is determined. *)
Scheme means_ind2 := Induction for ApplySpec.means Sort Prop with follows_ind2 := Induction for ApplySpec.follows Sort Prop.
Combined Scheme means_both from means_ind2, follows_ind2.
Lemma unknown_none d f spec rel f' v : unknown P d f spec -> p_resolve P spec (fpDir f) = Some rel -> p_abs P rel = Some f' -> means (S d) f' v -> False.
Proof.
  intros [N|(rel' & R & [N|(f2 & A & [N|(c & n & sp & msg & lines & Rd & Hp)])])] R' A' M; try congruence.
  - inversion M; subst. congruence.
  - inversion M as [d0 f0 content n0 ss lines0 vs Rd0 Hp0 F]; subst. assert (content = c) by congruence. subst.
    pose proof (parsed_same _ _ _ _ _ _ Hp Hp0 ltac:(discriminate) ltac:(discriminate)). discriminate.
Qed.
Lemma means_unique_both : (forall d f v, means d f v -> forall v', means d f v' -> v = v') /\ (forall d f l vs, follows d f l vs -> forall vs', follows d f l vs' -> vs = vs').
Proof.
  apply means_both.
  - intros d f c n ss lines vs Rd Hp F IH v' M. inversion M as [d0 f0 content n0 ss0 lines0 vs0 Rd0 Hp0 F0]; subst. assert (content = c) by congruence. subst.
    pose proof (parsed_same _ _ _ _ _ _ Hp Hp0 ltac:(discriminate) ltac:(discriminate)) as E. injection E as -> ->. f_equal. auto.
  - intros d f vs' F. inversion F. reflexivity.
  - intros d f a r vs A F IH vs' F'. inversion F'; subst; try congruence. auto.
  - intros d f a r spec rel f' v vs A T R Ra M IM F IH vs' F'. inversion F'; subst; try congruence.
    + assert (spec0 = spec) by congruence. subst. assert (rel0 = rel) by congruence. subst. assert (f'0 = f') by congruence. subst. f_equal; auto.
    + assert (spec0 = spec) by congruence. subst. exfalso. eapply unknown_none; eauto.
  - intros d f a r spec vs A T Un F IH vs' F'. inversion F'; subst; try congruence.
    + assert (spec0 = spec) by congruence. subst. exfalso. eapply unknown_none; eauto.
    + f_equal. auto.
Qed.
End Chain.
