(** One entry, at most one @import per file: every schedule, everything: C59. *)
From Verif Require Import Bytes Utf8 Source Lexer Ast Parser ParseMono ParserSpec ParseRerun Printer Transformer TransSpec TransProofs TransRerun TransInline
  Resolver Compile CompileSpec CompileSteps CompileOne CompileCalm CompileRefs CompileEnd CompileMany ErrSpec ErrSound ErrComplete.

Section WithProject.
Context {U : UnicodeDigits} {FO : FloatOps}.
Variable P : project.
Hypothesis notInline : o_imports (p_opts P) <> ImportInline.
Variable e : bytes.
Hypothesis oneEntry : p_entries P = [e].
Hypothesis one : atMostOne P.

(** * Calls of addSource do not overlap *)
Inductive thin : gor -> Prop :=
| tnLeaf t : (forall i s rs imps k repl kids, t <> InLoop i s rs imps k repl kids) -> thin t
| tnLoop0 i s rs imps k repl : (length imps <= 1)%nat -> thin (InLoop i s rs imps k repl [])
| tnLoop1 i s rs imps k repl t : (length imps <= 1)%nat -> thin t -> thin (InLoop i s rs imps k repl [t]).
Lemma thin_called t : thin t -> forall path file out, gorAt path t = Some (InFrame (Called file out)) -> adders t = [].
Proof.
  induction 1 as [t N|i s rs imps k repl L|i s rs imps k repl t L T IH]; intros path file out H.
  - destruct path as [|j path]; cbn in H; [inversion H; subst; reflexivity|]. destruct t as [| |i s rs imps k repl kids| |]; try discriminate. destruct (N i s rs imps k repl kids eq_refl).
  - reflexivity.
  - destruct path as [|j path]; cbn in H; [discriminate|]. destruct j as [|j]; [|destruct j; discriminate]. cbn in *. rewrite app_nil_r. eapply IH; eauto.
Qed.
Ltac leaf := apply tnLeaf; intros; discriminate.
Lemma one_mid {A} (x : A) y a b : [x] = a ++ y :: b -> a = [] /\ b = [] /\ x = y.
Proof. destruct a as [|z [|]]; cbn; intros H; inversion H; subst; auto; destruct a; discriminate. Qed.
Ltac mid := match goal with E : [_] = _ ++ _ :: _ |- _ => apply one_mid in E as (-> & -> & ->) end.
Lemma frame_thin n g f g' t' : frameStep P n g f = Some (Go g' t') -> frameOk P g f -> thin t'.
Proof.
  intros H F. destruct f as [file out|file abs out|abs content out|i abs content out|i out|i tmp out|i out|i|i|i s|i rs]; cbn [frameStep] in H;
    try (repeat match type of H with context [match ?x with _ => _ end] => destruct x end; inversion H; subst; leaf; fail).
  cbn [frameOk] in F. destruct F as (f & src & Es & F2 & F3 & F4). rewrite Es in H.
  destruct (parse (g_runs g) n (src_content src)) as [ss L|sp msg L| |] eqn:Ep; try discriminate; inversion H; subst; [|leaf].
  apply tnLoop0. eapply (one _ F4); eauto.
Qed.
Lemma gstep_thin g t g' t' : gstep P g t g' t' -> gorOk P g t -> thin t -> thin t'.
Proof.
  induction 1 as [n g f g' t' H|g i s rs imps k repl kids L|n g i s rs imps k repl kids g' t' L D H|g i s rs imps k repl a b spec at_ src rel C S R|g i s rs imps k repl a b spec at_ src C S R
    |g i s rs imps k repl a b ret spec at_ C|g i s rs imps k repl a b kid g' kid' H IH]; intros Go T.
  - inversion Go; subst. eapply frame_thin; eauto.
  - inversion Go; subst. inversion T as [? N|? ? ? ? ? ? L1|? ? ? ? ? ? t L1 T1]; subst; [destruct (N i s rs imps (length kids) repl kids eq_refl)| |cbn in *; lia].
    apply tnLoop1; auto. leaf.
  - rewrite (transform_none P notInline) in H. destruct (transformRefs _ _ _ _ _ _) as [[rs' h] t| |]; inversion H; subst. leaf.
  - inversion T as [? N|? ? ? ? ? ? L1|? ? ? ? ? ? t L1 T1]; subst; [destruct (N i s rs imps k repl _ eq_refl)|destruct a; discriminate|].
    mid. apply tnLoop1; auto. leaf.
  - inversion T as [? N|? ? ? ? ? ? L1|? ? ? ? ? ? t L1 T1]; subst; [destruct (N i s rs imps k repl _ eq_refl)|destruct a; discriminate|].
    mid. apply tnLoop1; auto. leaf.
  - inversion T as [? N|? ? ? ? ? ? L1|? ? ? ? ? ? t L1 T1]; subst; [destruct (N i s rs imps k repl _ eq_refl)|destruct a; discriminate|].
    mid. apply tnLoop1; auto. leaf.
  - inversion T as [? N|? ? ? ? ? ? L1|? ? ? ? ? ? t L1 T1]; subst; [destruct (N i s rs imps k repl _ eq_refl)|destruct a; discriminate|].
    mid. apply tnLoop1; auto. apply IH; auto.
    inversion Go as [| |? ? ? ? ? ? ? ? _ _ _ _ _ _ Gk| | |]; subst. inversion Gk; auto.
Qed.
Definition thinS (m : mstate) : Prop := match m with Running _ kids => kids = [] \/ exists t, kids = [t] /\ thin t | _ => True end.
Lemma mstep_thin s s' : mstep P s s' -> stateOk P s -> thinS (snd s) -> thinS (snd s').
Proof.
  intros H Ok T. destruct H as [g k kids L|g k kids L D|g k a b e0 C|g k a b ret|g k a b kid g' kid' H|g k kids|g a idx b out|g out]; cbn [thinS snd] in *; auto.
  - destruct Ok as (_ & Ok1 & _). cbn in Ok1. rewrite oneEntry in L. cbn in L. destruct kids; [|cbn in *; lia]. right. exists Fresh. split; auto. leaf.
  - right. destruct T as [T|(t & T & _)]; [destruct a; discriminate|]. symmetry in T. apply one_mid in T as (-> & -> & _). eexists. split; [reflexivity|]. leaf.
  - right. destruct T as [T|(t & T & _)]; [destruct a; discriminate|]. symmetry in T. apply one_mid in T as (-> & -> & _). eexists. split; [reflexivity|]. leaf.
  - right. destruct T as [T|(t & T & T1)]; [destruct a; discriminate|]. symmetry in T. apply one_mid in T as (-> & -> & ->). eexists. split; [reflexivity|].
    destruct Ok as (_ & _ & _ & Gk). cbn in Gk. inversion Gk; subst. eapply gstep_thin; eauto.
Qed.
Lemma reach_apart s : reach P s -> reachApart P s.
Proof.
  intros H. enough (reachApart P s /\ thinS (snd s)) by tauto. induction H as [|s s' H [IH T] St]; [split; [constructor|left; reflexivity]|].
  split; [|eapply mstep_thin; eauto; [apply step_mstep; exact St|apply reach_ok; exact H]].
  destruct St as (n & path & St). eapply raStep; [exact IH|]. exists n, path. split; [exact St|]. intros (file & out & Bg).
  destruct s as [g m]. cbn [snd] in *. destruct m as [k kids| | |]; try (destruct path; discriminate). cbn [mGorAt] in Bg. destruct path as [|j path]; [discriminate|].
  destruct T as [->|(t & -> & T)]; [reflexivity|]. destruct j as [|j]; [|destruct j; discriminate]. cbn in *. rewrite app_nil_r. eapply thin_called; eauto.
Qed.

(** * Everything is asked for *)
Lemma imports_last f spec : involved P f -> imports P f spec -> lastImport P f spec.
Proof.
  intros V (c & run & n & ss & L & R & Hp & I). pose proof (one _ V _ _ _ _ _ R Hp) as L1. destruct (linesOf_ok _ _ _ _ _ Hp) as (ss0 & Hp0 & ->).
  cbn in I, L1. rewrite map_map in I. rewrite map_length in L1. destruct (ss_imports ss0) as [|[sp at_] [|]] eqn:E; [destruct I| |cbn in L1; lia]. destruct I as [<-|[]].
  exists c, n, ss0, L, [], at_. auto.
Qed.
Lemma entry_asked : asked P e. Proof. apply (askedEntry P []). exact oneEntry. Qed.
Lemma leads_asked a f : p_abs P e = Some a -> leads P a f -> exists file, asked P file /\ p_abs P file = Some f.
Proof.
  intros Ea. assert (V0 : involved P a) by (exists e, a; rewrite oneEntry; split; [left; auto|split; auto]).
  induction 1 as [f (spec & rel & I & R & A)|f f' H IH (spec & rel & I & R & A)].
  - exists rel. split; auto. apply (askedImport P e a spec rel); auto; [apply entry_asked|apply imports_last; auto].
  - destruct IH as (file & K1 & K2). exists rel. split; auto. apply (askedImport P file f spec rel); auto. apply imports_last; auto. exists e, a. rewrite oneEntry. split; [left; auto|split; auto].
Qed.
Lemma requested_asked file : requested P file -> asked P file.
Proof.
  intros [H|(f & spec & V & I & R)]; [rewrite oneEntry in H; destruct H as [<-|[]]; apply entry_asked|].
  pose proof V as (e' & a & H1 & H2 & H3). rewrite oneEntry in H1. destruct H1 as [<-|[]].
  assert (X : exists file, asked P file /\ p_abs P file = Some f).
  { destruct H3 as [->|H3]; [exists e; split; auto; apply entry_asked|eapply leads_asked; eauto]. }
  destruct X as (file' & K1 & K2). apply (askedImport P file' f spec file); auto. apply imports_last; auto.
Qed.
Lemma C59_chain_lemma g fs : reach P (g, Finished fs) -> Forall (genuine P g) (g_errors g) /\ forall file, requested P file -> reported P g file.
Proof.
  intros H. split; [eapply C59_sound_lemma; eauto|]. intros file Hr. apply (C59_reported_lemma P notInline g fs); [apply reach_apart; exact H|apply requested_asked; exact Hr].
Qed.
End WithProject.
