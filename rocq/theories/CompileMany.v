(** Any number of entries, imports not inlined, calls of addSource apart: every
    output is the compilation of its file, and Compile ends: C34, C35, C43, C45. *)
From Coq Require Import Permutation.
From Verif Require Import Bytes Utf8 Source Lexer Ast BytesFacts Parser ParseMono ParserSpec ParseRerun Printer Transformer TransSpec TransProofs TransRerun
  PrinterSpec MapProofs ParseTable Resolver Compile CompileSpec CompileSteps CompileOne CompileCalm CompileRefs CompileEnd.

(** * Transform on nodes that nothing else shares *)
Section WithFloats.
Context {FO : FloatOps}.
Definition refNode o n (h : heap) (r : nref) (nd : node) : TM (list nref * heap) :=
  match nd with
  | NRule q =>
    q' <~ transformRule o n q ;;
    tret (match q' with Some q' => ([r], hset h r (NRule q')) | None => ([], h) end)
  | NAt a =>
    if beq (ar_name a) (B "import") then tret ([r; r], h)
    else if beq (ar_name a) (B "custom-media") then
      _ <~ addCustomMedia (ar_preludes a) ;; tret ([], h)
    else if beq (ar_name a) (B "media") then
      match ar_preludes a with
      | APMql (lsp, qs) :: pres =>
        qs' <~ transformMqs o qs ;;
        tret ([r], hset h r (NAt (mkAt (ar_run a) (ar_sp a) (ar_name a) (APMql (lsp, qs') :: pres) (ar_block a))))
      | _ => tcrash
      end
    else tret ([r], h)
  end.
Lemma refs_cons o n r rs h nd : deref h r = Some nd ->
  transformRefs o None (S n) (r :: rs) h = (here <~ refNode o n h r nd ;; more <~ transformRefs o None (S n) rs (snd here) ;; tret (fst here ++ fst more, snd more)).
Proof. intros E. cbn [transformRefs]. rewrite E. destruct nd; reflexivity. Qed.
Lemma refNode_frame o n h r nd t here h1 t1 : refNode o n h r nd t = TOk (here, h1) t1 -> forall r', r' <> r -> deref h1 r' = deref h r'.
Proof.
  intros H r' N. destruct nd as [q|a]; cbn [refNode] in H.
  - apply tbind_ok in H as ([q'|] & t3 & _ & H); inversion H; subst; auto. apply deref_other; auto.
  - destruct (beq (ar_name a) (B "import")); [inversion H; subst; auto|]. destruct (beq (ar_name a) (B "custom-media")).
    { apply tbind_ok in H as (q' & t3 & _ & H). inversion H; subst; auto. }
    destruct (beq (ar_name a) (B "media")); [|inversion H; subst; auto].
    destruct (ar_preludes a) as [|[| |[lsp qs]| |] pres]; try discriminate. apply tbind_ok in H as (q' & t3 & _ & H). inversion H; subst. apply deref_other; auto.
Qed.
Definition sameEnd (r : tres (list nref * heap)) (r' : tres (list node)) : Prop :=
  match r, r' with TOk _ t, TOk _ t' => t = t' | TCrash, TCrash | TTimeout, TTimeout => True | _, _ => False end.
Lemma refNode_end o n h r nd t : sameEnd (refNode o n h r nd t) (oneNode o None n nd t).
Proof.
  destruct nd as [q|a]; cbn [refNode oneNode].
  - unfold tbind. destruct (transformRule o n q t) as [[q'|] t1| |]; cbn; auto.
  - destruct (beq (ar_name a) (B "import")); [cbn; auto|]. destruct (beq (ar_name a) (B "custom-media")).
    { unfold tbind. destruct (addCustomMedia _ _); cbn; auto. }
    destruct (beq (ar_name a) (B "media")); [|cbn; auto].
    destruct (ar_preludes a) as [|[| |[lsp qs]| |] pres]; try (cbn; auto; fail). unfold tbind. destruct (transformMqs o qs t); cbn; auto.
Qed.
Lemma refs_end o n : forall rs h t ns, NoDup rs -> derefs h rs = Some ns -> sameEnd (transformRefs o None n rs h t) (transformNodes o None n ns t).
Proof.
  destruct n as [|n]; [cbn; auto|]. induction rs as [|r rs IH]; intros h t ns Hn Hd.
  - inversion Hd; subst. cbn. auto.
  - cbn [derefs] in Hd. destruct (deref h r) as [nd|] eqn:Er; [|discriminate]. destruct (derefs h rs) as [ns1|] eqn:Es; [|discriminate].
    inversion Hd; subst. inversion Hn as [|? ? Hr Hn']; subst. rewrite (refs_cons o n r rs h nd Er), nodes_cons.
    pose proof (refNode_end o n h r nd t) as S1. unfold tbind at 1 3. destruct (refNode o n h r nd t) as [[here h1] t1| |] eqn:E1;
      destruct (oneNode o None n nd t) as [x t2| |] eqn:E2; cbn [sameEnd] in S1 |- *; try tauto. subst t2.
    assert (Es' : derefs h1 rs = Some ns1).
    { rewrite <- Es. apply derefs_ext. intros r' Hi. eapply refNode_frame; eauto. intros ->. auto. }
    specialize (IH h1 t1 ns1 Hn' Es'). unfold tbind. cbn [snd fst]. destruct (transformRefs o None (S n) rs h1 t1) as [[more h2] t2| |] eqn:E3;
      destruct (transformNodes o None (S n) ns1 t1) as [y t3| |] eqn:E4; cbn [sameEnd] in *; cbn; auto.
Qed.
End WithFloats.

Section WithProject.
Context {U : UnicodeDigits} {FO : FloatOps}.
Variable P : project.
Hypothesis notInline : o_imports (p_opts P) <> ImportInline.
Let o := p_opts P.

(** * Line tables *)
(** [L]: what one parse of [content] adds to the line table. *)
Definition linesOf (content : bytes) (L : list nat) : Prop := exists n,
  (exists ss, parse 0 n content = ParseOk ss L) \/ (exists sp msg, parse 0 n content = ParseErr sp msg L).
Lemma linesOf_unique c L L' : linesOf c L -> linesOf c L' -> L = L'.
Proof.
  intros (n & H) (n' & H'). assert (E : parse 0 n c = parse 0 n' c).
  { apply ParseMono.parse_agree; [destruct H as [(x & ->)|(x & y & ->)]|destruct H' as [(x & ->)|(x & y & ->)]]; discriminate. }
  destruct H as [(x & H)|(x & y & H)], H' as [(x' & H')|(x' & y' & H')]; congruence.
Qed.
Lemma parse_zero run n c : parse run n c = outcomeOfRun run (parse 0 n c).
Proof. apply C12_rerun_lemma. Qed.
Lemma linesOf_ok run n c ss L : parse run n c = ParseOk ss L -> exists ss0, parse 0 n c = ParseOk ss0 L /\ ss = sheetOfRun run ss0.
Proof. rewrite parse_zero. destruct (parse 0 n c) as [ss0 L0| | |]; cbn; try discriminate. intros [=<- <-]. eauto. Qed.
Lemma linesOf_err run n c sp msg L : parse run n c = ParseErr sp msg L -> parse 0 n c = ParseErr sp msg L.
Proof. rewrite parse_zero. destruct (parse 0 n c) as [ss0 L0| | |]; cbn; try discriminate. auto. Qed.
Lemma repeat_app {A} (L : list A) k : concat (repeat L k) ++ L = concat (repeat L (S k)).
Proof. induction k as [|k IH]; [cbn; rewrite app_nil_r; auto|]. cbn [repeat concat] in *. rewrite <- app_assoc, IH. reflexivity. Qed.

(** * What a goroutine relies on *)
(** The source [s] is the file of [src_path], parsed at least once. *)
Definition parsedAs (g : glob) (s : sref) (n : nat) (ss : stylesheet) (L : list nat) : Prop := exists src k,
  nth_error (g_srcs g) s = Some src /\ p_read P (src_path src) = Some (src_content src) /\
  parse 0 n (src_content src) = ParseOk ss L /\ src_lines src = concat (repeat L (S k)).
(** [rs]: its nodes as they were parsed; [settled]: after Transform. *)
Definition working (g : glob) (s : sref) (rs : list nref) : Prop := exists n ss L run,
  parsedAs g s n ss L /\ rs = map (pair run) (seq 0 (length (ss_nodes ss))) /\
  derefs (g_heap g) rs = Some (map (nodeOfRun run) (ss_nodes ss)).
Definition settled (g : glob) (s : sref) (rs : list nref) : Prop := exists n ss L run m ss' t,
  parsedAs g s n ss L /\ transform o None m ss = TOk ss' t /\ Forall (fun r => fst r = run) rs /\
  derefs (g_heap g) rs = Some (map (nodeOfRun run) (ss_nodes ss')).
Definition pathIs (g : glob) (i : nat) (a : bytes) : Prop := exists s src,
  ilookup i (g_byIndex g) = Some s /\ nth_error (g_srcs g) s = Some src /\ src_path src = a.
Definition wantedIdx (g : glob) (i : nat) : Prop := exists a, pathIs g i a /\ wanted P a.
Definition frameMany (g : glob) (f : frame) : Prop :=
  match f with
  | Called file out => out = true -> forall a, p_abs P file = Some a -> wanted P a
  | Missed _ abs out | ReadIn abs _ out | Indexed _ abs _ out => out = true -> wanted P abs
  | Stored i out | Counted i _ out | HasIndex i out => out = true -> wantedIdx g i
  | Transformed i rs => exists s, ilookup i (g_byIndex g) = Some s /\ settled g s rs
  | _ => True
  end.
Inductive many (g : glob) : gor -> Prop :=
| mnFresh : many g Fresh
| mnFrame f : frameMany g f -> many g (InFrame f)
| mnLoop i s rs imps k repl kids : ilookup i (g_byIndex g) = Some s -> working g s rs -> Forall (many g) kids -> many g (InLoop i s rs imps k repl kids)
| mnBack ret : many g (Back ret)
| mnDone : many g Done.

(** The Parse calls whose nodes a goroutine is to write to. *)
Definition heads (rs : list nref) : list nat := match rs with [] => [] | r :: _ => [fst r] end.
Fixpoint owned (t : gor) : list nat :=
  match t with
  | InFrame (Transformed _ rs) => heads rs
  | InLoop _ _ rs _ _ _ kids => heads rs ++ flat_map owned kids
  | _ => []
  end.
Definition astRuns (g : glob) : list nat := flat_map (fun e => heads (snd e)) (g_asts g).
Record keeps (g g' : glob) (w : list nat) : Prop := {
  kp_srcs : forall s src, nth_error (g_srcs g) s = Some src -> exists src', nth_error (g_srcs g') s = Some src' /\
    src_path src' = src_path src /\ src_content src' = src_content src /\
    (src_lines src' = src_lines src \/ exists L, linesOf (src_content src) L /\ src_lines src' = src_lines src ++ L);
  kp_heap : forall r, (fst r < g_runs g)%nat -> ~ In (fst r) w -> deref (g_heap g') r = deref (g_heap g) r;
  kp_runs : (g_runs g <= g_runs g')%nat;
  kp_by : forall i s, ilookup i (g_byIndex g) = Some s -> ilookup i (g_byIndex g') = Some s }.
Lemma keeps_same g g' : g_srcs g' = g_srcs g -> g_heap g' = g_heap g -> g_runs g' = g_runs g ->
  (forall i s, ilookup i (g_byIndex g) = Some s -> ilookup i (g_byIndex g') = Some s) -> keeps g g' [].
Proof. intros E1 E2 E3 E4. constructor; rewrite ?E1, ?E2, ?E3; auto. intros s src H. exists src. auto. Qed.
Lemma keeps_refl g : keeps g g []. Proof. apply keeps_same; auto. Qed.

Lemma parsedAs_keeps g g' w s n ss L : keeps g g' w -> parsedAs g s n ss L -> parsedAs g' s n ss L.
Proof.
  intros K (src & k & H1 & H2 & H3 & H4). destruct (kp_srcs _ _ _ K _ _ H1) as (src' & E1 & E2 & E3 & E4).
  destruct E4 as [E4|(L' & HL & E4)].
  - exists src', k. rewrite E2, E3, E4. auto.
  - exists src', (S k). rewrite E2, E3, E4, H4. repeat split; auto. replace L' with L; [apply repeat_app|].
    eapply linesOf_unique; [|exact HL]. exists n. left. eauto.
Qed.
Lemma heads_runs run rs : Forall (fun r : nref => fst r = run) rs -> rs = [] \/ heads rs = [run].
Proof. destruct 1 as [|r rs' H _]; [auto|]. right. cbn. congruence. Qed.
Definition apartRuns (w l : list nat) : Prop := forall x, In x l -> ~ In x w.
Lemma derefs_keeps g g' w run rs : keeps g g' w -> Forall (fun r => fst r = run) rs -> Forall (fun x => (x < g_runs g)%nat) (heads rs) -> apartRuns w (heads rs) ->
  derefs (g_heap g') rs = derefs (g_heap g) rs.
Proof.
  intros K H1 H2 H3. apply derefs_ext. intros r Hr. pose proof H1 as H1'. rewrite Forall_forall in H1'. pose proof (H1' _ Hr) as E. destruct (heads_runs _ _ H1) as [->|E1]; [destruct Hr|].
  apply (kp_heap _ _ _ K); rewrite E.
  - rewrite E1 in H2. inversion H2; auto.
  - apply H3. rewrite E1. left. auto.
Qed.
Lemma working_runs n run : Forall (fun r : nref => fst r = run) (map (pair run) (seq 0 n)).
Proof. apply Forall_forall. intros r H. apply in_map_iff in H as (x & <- & _). auto. Qed.
Lemma working_keeps g g' w s rs : keeps g g' w -> Forall (fun x => (x < g_runs g)%nat) (heads rs) -> apartRuns w (heads rs) -> working g s rs -> working g' s rs.
Proof.
  intros K H1 H2 (n & ss & L & run & W1 & W2 & W3). exists n, ss, L, run. split; [eapply parsedAs_keeps; eauto|split; [auto|]].
  rewrite <- W3. eapply derefs_keeps; eauto. rewrite W2. apply working_runs.
Qed.
Lemma settled_keeps g g' w s rs : keeps g g' w -> Forall (fun x => (x < g_runs g)%nat) (heads rs) -> apartRuns w (heads rs) -> settled g s rs -> settled g' s rs.
Proof.
  intros K H1 H2 (n & ss & L & run & m & ss' & t & W1 & W2 & W3 & W4). exists n, ss, L, run, m, ss', t. split; [eapply parsedAs_keeps; eauto|split; [auto|split; [auto|]]].
  rewrite <- W4. eapply derefs_keeps; eauto.
Qed.
Lemma pathIs_keeps g g' w i a : keeps g g' w -> pathIs g i a -> pathIs g' i a.
Proof.
  intros K (s & src & H1 & H2 & H3). destruct (kp_srcs _ _ _ K _ _ H2) as (src' & E1 & E2 & _). exists s, src'. rewrite E2. split; [apply K; auto|auto].
Qed.
Lemma wantedIdx_keeps g g' w i : keeps g g' w -> wantedIdx g i -> wantedIdx g' i.
Proof. intros K (a & H1 & H2). exists a. split; [eapply pathIs_keeps; eauto|auto]. Qed.
Lemma apart_app w a b : apartRuns w (a ++ b) -> apartRuns w a /\ apartRuns w b.
Proof. intros H. split; intros x Hx; apply H; apply in_app_iff; auto. Qed.
Lemma frameMany_keeps g g' w f : keeps g g' w -> Forall (fun x => (x < g_runs g)%nat) (owned (InFrame f)) -> apartRuns w (owned (InFrame f)) -> frameMany g f -> frameMany g' f.
Proof.
  intros K H1 H2 H. destruct f; cbn [frameMany owned] in *; auto; try (intros X; eapply wantedIdx_keeps; eauto; fail).
  destruct H as (s & X1 & X2). exists s. split; [apply K; auto|eapply settled_keeps; eauto].
Qed.
Lemma many_keeps g g' w (K : keeps g g' w) : forall t, many g t -> Forall (fun x => (x < g_runs g)%nat) (owned t) -> apartRuns w (owned t) -> many g' t.
Proof.
  fix IH 2. intros t [|f Hf|i s rs imps k repl kids H1 H2 H3| |] L A; try (constructor; fail).
  - constructor. eapply frameMany_keeps; eauto.
  - cbn [owned] in L, A. apply Forall_app in L as [L1 L2]. apply apart_app in A as [A1 A2]. constructor; [apply K; auto|eapply working_keeps; eauto|].
    clear H1 H2 L1 A1. induction H3 as [|t1 kids Ht Hk IHk]; constructor; cbn [flat_map] in L2, A2; apply Forall_app in L2 as [L2 L3]; apply apart_app in A2 as [A2 A3]; auto.
Qed.
Lemma kids_keeps g g' w kids : keeps g g' w -> Forall (many g) kids -> Forall (fun x => (x < g_runs g)%nat) (flat_map owned kids) -> apartRuns w (flat_map owned kids) -> Forall (many g') kids.
Proof.
  intros K H. induction H as [|t kids Ht Hk IHk]; intros L A; constructor; cbn [flat_map] in L, A; apply Forall_app in L as [L2 L3]; apply apart_app in A as [A2 A3]; auto.
  eapply many_keeps; eauto.
Qed.

(** * The shared state *)
Definition srcOk (src : source) : Prop := src_lines src = [] \/ exists L k, linesOf (src_content src) L /\ src_lines src = concat (repeat L (S k)).
Definition srcsOk (g : glob) : Prop := forall s src, nth_error (g_srcs g) s = Some src -> srcOk src.
Definition astsOk (g : glob) : Prop := forall i rs, In (i, rs) (g_asts g) -> exists s, ilookup i (g_byIndex g) = Some s /\ settled g s rs.
Definition outsOk (g : glob) : Prop := NoDup (g_outputs g) /\ forall i, In i (g_outputs g) -> wantedIdx g i.
Definition ownOk (g : glob) (W : list nat) : Prop := NoDup (astRuns g ++ W) /\ Forall (fun x => (x < g_runs g)%nat) (astRuns g ++ W).
Definition world (g : glob) (W : list nat) : Prop := srcsOk g /\ astsOk g /\ outsOk g /\ ownOk g W.

Lemma srcOk_more src L : srcOk src -> linesOf (src_content src) L -> srcOk (mkSource (src_path src) (src_content src) (src_lines src ++ L)).
Proof.
  intros [E|(L' & k & H & E)] HL; right; exists L.
  - exists 0%nat. cbn. rewrite E, app_nil_r. auto.
  - exists (S k). cbn [src_content src_lines]. split; auto. rewrite E, (linesOf_unique _ _ _ H HL). apply repeat_app.
Qed.
Lemma srcsOk_keeps g g' : g_srcs g' = g_srcs g -> srcsOk g -> srcsOk g'.
Proof. intros E H s src. rewrite E. apply H. Qed.
Lemma ast_runs g i rs : In (i, rs) (g_asts g) -> incl (heads rs) (astRuns g).
Proof. intros H x Hx. apply in_flat_map. exists (i, rs). auto. Qed.
Lemma Forall_incl {A} (Q : A -> Prop) a b : incl a b -> Forall Q b -> Forall Q a.
Proof. intros H. rewrite !Forall_forall. auto. Qed.
Lemma astsOk_keeps g g' w : keeps g g' w -> g_asts g' = g_asts g -> Forall (fun x => (x < g_runs g)%nat) (astRuns g) -> apartRuns w (astRuns g) -> astsOk g -> astsOk g'.
Proof.
  intros K E L A H i rs Hi. rewrite E in Hi. destruct (H _ _ Hi) as (s & H1 & H2). pose proof (ast_runs _ _ _ Hi) as I. exists s. split; [apply K; auto|].
  eapply settled_keeps; eauto; [eapply Forall_incl; eauto|]. intros x Hx. apply A. auto.
Qed.
Lemma outsOk_keeps g g' w : keeps g g' w -> g_outputs g' = g_outputs g -> outsOk g -> outsOk g'.
Proof. intros K E [H1 H2]. split; rewrite E; auto. intros i Hi. eapply wantedIdx_keeps; eauto. Qed.
Lemma nodup_apart {A} (a b : list A) : NoDup (a ++ b) -> forall x, In x a -> ~ In x b.
Proof.
  induction a as [|y a IH]; cbn; [tauto|]. intros H x [->|Hx] Hb; inversion H; subst.
  - apply H2. apply in_app_iff. auto.
  - eapply IH; eauto.
Qed.
Lemma own_ast_apart g pre w post : ownOk g (pre ++ w ++ post) -> apartRuns w (astRuns g).
Proof. intros [H _] x Hx Hw. eapply nodup_apart in H; eauto. apply H. rewrite !in_app_iff. auto. Qed.
Lemma own_lt g W : ownOk g W -> Forall (fun x => (x < g_runs g)%nat) (astRuns g) /\ Forall (fun x => (x < g_runs g)%nat) W.
Proof. intros [_ H]. apply Forall_app in H. auto. Qed.
(** A step that only replaces what one goroutine owns by a part of it. *)
Lemma nodup_less (a m b m' : list nat) : (m' = m \/ m' = []) -> NoDup (a ++ m ++ b) -> NoDup (a ++ m' ++ b).
Proof.
  intros [->| ->] H; auto. cbn. induction a as [|y a IH]; cbn in *.
  - induction m as [|z m IHm]; auto. inversion H; auto.
  - inversion H; subst. constructor; auto. intros Hi. apply H2. rewrite !in_app_iff in *. tauto.
Qed.
Lemma own_less g g' pre m m' post : g_asts g' = g_asts g -> (g_runs g <= g_runs g')%nat -> (m' = m \/ m' = []) -> ownOk g (pre ++ m ++ post) -> ownOk g' (pre ++ m' ++ post).
Proof.
  intros E1 E2 E3 [H1 H2]. unfold ownOk, astRuns in *. rewrite E1. split.
  - rewrite app_assoc in *. eapply nodup_less; eauto.
  - eapply Forall_impl with (P := fun x => (x < g_runs g)%nat); [intros; lia|]. eapply Forall_incl; [|exact H2]. intros x. rewrite !in_app_iff. destruct E3 as [->| ->]; cbn; tauto.
Qed.
Lemma world_same g g' pre m m' post : keeps g g' [] -> g_srcs g' = g_srcs g -> g_asts g' = g_asts g -> g_outputs g' = g_outputs g -> (m' = m \/ m' = []) ->
  world g (pre ++ m ++ post) -> world g' (pre ++ m' ++ post).
Proof.
  intros K E1 E2 E3 E4 (H1 & H2 & H3 & H4). split; [eapply srcsOk_keeps; eauto|split; [|split]].
  - eapply astsOk_keeps; eauto; [exact (proj1 (own_lt _ _ H4))|]. intros x _ [].
  - eapply outsOk_keeps; eauto.
  - eapply own_less; eauto. apply K.
Qed.

(** * Transitions *)
Lemma NoDup_insert_nat (x : nat) a b : NoDup (a ++ b) -> ~ In x (a ++ b) -> NoDup (a ++ [x] ++ b).
Proof. intros H N. eapply Permutation_NoDup; [apply Permutation_middle|]. constructor; auto. Qed.
Lemma NoDup_app_intro_nat (x : nat) l : NoDup l -> ~ In x l -> NoDup (l ++ [x]).
Proof. intros H N. rewrite <- (app_nil_r (l ++ [x])), <- app_assoc. apply NoDup_insert_nat; rewrite ?app_nil_r; auto. Qed.
Lemma heads_alloc run nds : heads (map fst (alloc run 0 nds)) = match nds with [] => [] | _ => [run] end.
Proof. destruct nds; reflexivity. Qed.
Lemma frame_many n g f g' t' pre post A : frameStep P n g f = Some (Go g' t') ->
  book P g A -> facts P g (InFrame f) -> facts P g' t' -> (forall i s, ilookup i (g_byIndex g) = Some s -> ilookup i (g_byIndex g') = Some s) ->
  world g (pre ++ owned (InFrame f) ++ post) -> frameMany g f ->
  keeps g g' [] /\ world g' (pre ++ owned t' ++ post) /\ many g' t'.
Proof.
  intros H Bk F F' By W M. destruct f as [file out|file abs out|abs content out|i abs content out|i out|i tmp out|i out|i|i|i s|i rs]; cbn [frameStep frameMany] in *.
  - destruct (p_abs P file) as [abs|] eqn:Ea.
    + destruct (lookup abs (g_sources g)) as [i|] eqn:El; inversion H; subst; (split; [apply keeps_refl|split; [exact W|constructor]]).
      * cbn. intros E. exists abs. split; [|auto]. inversion F' as [|? Ff| | |]; subst. cbn in Ff. destruct Ff as (s & Hs).
        destruct (bk_by _ _ _ Bk _ _ Hs) as (src & X1 & X2 & X3). exists s, src. split; [auto|split; [auto|]]. eapply (bk_inj _ _ _ Bk); eauto.
      * cbn. auto.
    + inversion H; subst. assert (K : keeps g (addError g (EAbs file)) []) by (apply keeps_same; auto).
      split; [exact K|split; [|constructor]]. eapply world_same; eauto.
  - destruct (p_read P abs) as [content|] eqn:Er; inversion H; subst.
    + split; [apply keeps_refl|split; [exact W|constructor; cbn; auto]].
    + assert (K : keeps g (addError g (ERead file)) []) by (apply keeps_same; auto). split; [exact K|split; [|constructor]]. eapply world_same; eauto.
  - inversion H; subst. match goal with |- keeps g ?x _ /\ _ => assert (K : keeps g x []) by (apply keeps_same; auto) end. split; [exact K|split; [|constructor; cbn; auto]].
    eapply world_same; eauto.
  - inversion H; subst. match goal with |- keeps g ?x _ /\ _ => set (g1 := x) in * end.
    assert (K : keeps g g1 []).
    { constructor; auto. intros s src Hs. exists src. split; auto. cbn. rewrite nth_error_app1; auto. apply nth_error_Some. congruence. }
    split; [exact K|split].
    + destruct W as (H1 & H2 & H3 & H4). split; [|split; [|split]].
      * intros s src Hs. cbn in Hs. apply nth_app_last in Hs as [Hs|[_ ->]]; [eapply H1; eauto|]. left. auto.
      * eapply astsOk_keeps; eauto; [exact (proj1 (own_lt _ _ H4))|]. intros x _ [].
      * eapply outsOk_keeps; eauto.
      * eapply own_less; eauto.
    + constructor. cbn. intros E. exists abs. split; [|auto]. exists (length (g_srcs g)), (mkSource abs content []). cbn. rewrite Nat.eqb_refl, nth_error_app2, Nat.sub_diag by lia. auto.
  - inversion H; subst. split; [apply keeps_refl|split; [exact W|constructor; cbn; auto]].
  - inversion H; subst. match goal with |- keeps g ?x _ /\ _ => assert (K : keeps g x []) by (apply keeps_same; auto) end. split; [exact K|split; [|constructor; cbn; auto]].
    eapply world_same; eauto.
  - inversion H; subst. destruct out; [|split; [apply keeps_refl|split; [exact W|constructor; cbn; auto]]].
    match goal with |- keeps g ?x _ /\ _ => assert (K : keeps g x []) by (apply keeps_same; auto); set (g1 := x) in * end. split; [exact K|split; [|constructor; cbn; auto]].
    destruct W as (H1 & H2 & H3 & H4). split; [exact H1|split; [|split; [|exact H4]]].
    + eapply astsOk_keeps; eauto; [exact (proj1 (own_lt _ _ H4))|]. intros x _ [].
    + destruct H3 as [H3 H5]. split; cbn [g_outputs g1].
      * destruct (existsb (Nat.eqb i) (g_outputs g)) eqn:E; auto. apply NoDup_app_intro_nat; auto.
        intros Hi. assert (existsb (Nat.eqb i) (g_outputs g) = true) by (apply existsb_exists; exists i; rewrite Nat.eqb_refl; auto). congruence.
      * intros j Hj. assert (In j (g_outputs g) \/ j = i) as [X| ->].
        { destruct (existsb (Nat.eqb i) (g_outputs g)); auto. apply in_app_iff in Hj as [Hj|[<-|[]]]; auto. }
        -- eapply wantedIdx_keeps; eauto.
        -- eapply wantedIdx_keeps; eauto.
  - destruct (ilookup i (g_asts g)) as [rs|] eqn:Ei; inversion H; subst; (split; [apply keeps_refl|split; [exact W|constructor; cbn; auto]]).
  - destruct (ilookup i (g_byIndex g)) as [s|] eqn:Ei; inversion H; subst. split; [apply keeps_refl|split; [exact W|constructor; cbn; auto]].
  - inversion F as [|? Ff| | |]; subst. cbn in Ff. destruct (bk_by _ _ _ Bk _ _ Ff) as (src & Es & _ & Er). rewrite Es in H.
    assert (Kp : forall L g1, linesOf (src_content src) L -> g_srcs g1 = upd s (mkSource (src_path src) (src_content src) (src_lines src ++ L)) (g_srcs g) ->
        g_runs g1 = S (g_runs g) -> g_byIndex g1 = g_byIndex g -> (forall r, (fst r < g_runs g)%nat -> deref (g_heap g1) r = deref (g_heap g) r) ->
        keeps g g1 [] /\ (srcsOk g -> srcsOk g1)).
    { intros L g1 HL E1 E2 E3 E4. split.
      - constructor; rewrite ?E2, ?E3; auto. intros s1 src1 H1. rewrite E1, nth_upd, H1. destruct (s1 =? s)%nat eqn:E; [|exists src1; auto].
        apply Nat.eqb_eq in E. subst s1. rewrite Es in H1. inversion H1; subst. eexists. split; [reflexivity|]. cbn. repeat split; auto. right. eauto.
      - intros Hs s1 src1 H1. rewrite E1, nth_upd in H1. destruct (s1 =? s)%nat eqn:E; [|eapply Hs; eauto].
        apply Nat.eqb_eq in E. subst s1. rewrite Es in H1. inversion H1; subst. apply srcOk_more; auto. eapply Hs; eauto. }
    destruct W as (H1 & H2 & H3 & H4).
    destruct (parse (g_runs g) n (src_content src)) as [ss L|sp msg L| |] eqn:Ep; try discriminate; inversion H; subst; clear H.
    + match goal with |- keeps g ?x _ /\ _ => set (g1 := x) in * end.
      destruct (linesOf_ok _ _ _ _ _ Ep) as (ss0 & Ep0 & ->). assert (HL : linesOf (src_content src) L) by (exists n; eauto).
      destruct (Kp L g1 HL) as (K & S1); try reflexivity.
      { intros r Hr. cbn [g_heap g1]. apply deref_alloc_other. lia. }
      assert (PA : exists k, src_lines src ++ L = concat (repeat L (S k))).
      { destruct (srcOk_more _ _ (H1 _ _ Es) HL) as [X|(L' & k & X1 & X2)]; cbn in *.
        - apply app_eq_nil in X as [X1 X2]. exists 0%nat. rewrite X1, X2. reflexivity.
        - exists k. rewrite X2, (linesOf_unique _ _ _ X1 HL). reflexivity. }
      split; [exact K|split; [split; [auto|split; [|split]]|]].
      * eapply astsOk_keeps; eauto; [exact (proj1 (own_lt _ _ H4))|]. intros x _ [].
      * eapply outsOk_keeps; eauto.
      * cbn [owned flat_map app] in *. rewrite app_nil_r. destruct H4 as [N1 N2]. split.
        -- change (astRuns g1) with (astRuns g). rewrite heads_alloc. destruct (ss_nodes (sheetOfRun (g_runs g) ss0)); [exact N1|].
           rewrite app_assoc in *. apply NoDup_insert_nat; auto. intros Hi. rewrite Forall_forall in N2. apply N2 in Hi. lia.
        -- change (astRuns g1) with (astRuns g). rewrite heads_alloc. rewrite !Forall_app in *. cbn [g_runs g1]. destruct N2 as (Y1 & Y2 & Y3).
           repeat split; try (eapply Forall_impl; [|eassumption]; cbn; lia). destruct (ss_nodes _); repeat constructor.
      * constructor; [apply By; auto| |constructor]. destruct PA as (k & PA). exists n, ss0, L, (g_runs g). split; [|split].
        -- exists (mkSource (src_path src) (src_content src) (src_lines src ++ L)), k. cbn [src_path src_content src_lines]. split; [|auto].
           cbn [g_srcs g1]. rewrite nth_upd, Nat.eqb_refl, Es. reflexivity.
        -- rewrite alloc_refs. cbn [sheetOfRun ss_nodes]. rewrite map_length. reflexivity.
        -- cbn [g_heap g1]. rewrite derefs_alloc. reflexivity.
    + match goal with |- keeps g ?x _ /\ _ => set (g1 := x) in * end.
      apply linesOf_err in Ep. assert (HL : linesOf (src_content src) L) by (exists n; eauto).
      destruct (Kp L g1 HL) as (K & S1); try reflexivity.
      split; [exact K|split; [split; [auto|split; [|split]]|constructor]].
      * eapply astsOk_keeps; eauto; [exact (proj1 (own_lt _ _ H4))|]. intros x _ [].
      * eapply outsOk_keeps; eauto.
      * apply (own_less g g1 pre [] [] post); auto. exact (kp_runs _ _ _ K).
  - inversion H; subst. match goal with |- keeps g ?x _ /\ _ => assert (K : keeps g x []) by (apply keeps_same; auto); set (g1 := x) in * end. split; [exact K|split; [|constructor; cbn; auto]].
    destruct W as (H1 & H2 & H3 & H4). split; [exact H1|split; [|split; [exact H3|]]].
    + intros j rs' [E|Hj]; [inversion E; subst; exact M|]. exact (H2 _ _ Hj).
    + cbn [owned app] in *. change (astRuns g1) with (heads rs ++ astRuns g). destruct H4 as [N1 N2]. unfold ownOk. change (astRuns g1) with (heads rs ++ astRuns g).
      assert (Pm : Permutation (astRuns g ++ pre ++ heads rs ++ post) ((heads rs ++ astRuns g) ++ pre ++ post)).
      { rewrite <- (app_assoc (heads rs)), (app_assoc (astRuns g) pre (heads rs ++ post)), (app_assoc (astRuns g) pre post). apply Permutation_app_swap_app. }
      split; [eapply Permutation_NoDup; eauto|eapply Permutation_Forall; eauto].
Qed.

Lemma transform_none n g i s rs repl : transformStep P n g i s rs repl =
  match transformRefs o None n rs (g_heap g) (initState o None) with
  | TTimeout => None
  | TCrash => Some Crash
  | TOk (rs', h) t =>
    Some (Go (mkG (g_sources g) (g_next g) (g_byIndex g) (g_asts g) (g_outputs g)
                  (g_errors g ++ map (ETransform s) (t_reports t)) (g_srcs g) h (g_runs g))
             (InFrame (Transformed i rs')))
  end.
Proof. unfold transformStep, initState, o. destruct (o_imports (p_opts P)) eqn:E; try (exfalso; apply notInline; reflexivity); reflexivity. Qed.
Lemma working_nodup g s rs : working g s rs -> NoDup rs.
Proof. intros (n & ss & L & run & _ & -> & _). rewrite <- alloc_refs. apply alloc_nodup. Qed.
Lemma transform_of n m ss run t : transformNodes o None n (map (nodeOfRun run) (ss_nodes ss)) (initState o None) = TOk m t ->
  exists ss', transform o None n ss = TOk ss' t /\ m = map (nodeOfRun run) (ss_nodes ss').
Proof.
  rewrite nodes_rerun. unfold transform. destruct (transformNodes o None n (ss_nodes ss) (initState o None)) as [x u| |]; cbn; try discriminate.
  intros [=<- <-]. eexists. split; [reflexivity|auto].
Qed.
Lemma incl_heads (rs rs' : list nref) run : Forall (fun r => fst r = run) rs -> incl rs' rs -> Forall (fun r => fst r = run) rs' /\ (heads rs' = heads rs \/ heads rs' = []).
Proof.
  intros H I. assert (H' : Forall (fun r => fst r = run) rs') by (eapply Forall_incl; eauto). split; auto.
  destruct (heads_runs _ _ H') as [->|E]; [auto|]. left. rewrite E. destruct (heads_runs _ _ H) as [->|E']; [|auto]. destruct rs' as [|r rs']; [discriminate|]. destruct (I r); left; auto.
Qed.
Lemma transform_many n g i s rs repl g' t' pre post : transformStep P n g i s rs repl = Some (Go g' t') ->
  world g (pre ++ heads rs ++ post) -> ilookup i (g_byIndex g) = Some s -> working g s rs ->
  keeps g g' (heads rs) /\ world g' (pre ++ owned t' ++ post) /\ many g' t'.
Proof.
  rewrite transform_none. intros H W Hi Wk. pose proof (working_nodup _ _ _ Wk) as Nd. destruct Wk as (m & ss & L & run & W1 & W2 & W3).
  destruct (transformRefs o None n rs (g_heap g) (initState o None)) as [[rs' h] t| |] eqn:E; inversion H; subst g' t'; clear H.
  destruct (refs_none _ _ _ _ _ _ _ _ _ E Nd W3) as (ns' & T1 & T2 & T3 & T4). destruct (transform_of _ _ _ _ _ T1) as (ss' & T5 & ->).
  pose proof (working_runs (length (ss_nodes ss)) run) as Rn. rewrite <- W2 in Rn. destruct (incl_heads _ _ _ Rn T4) as (Rn' & Hh).
  match goal with |- keeps g ?x _ /\ _ => set (g1 := x) end.
  assert (K : keeps g g1 (heads rs)).
  { constructor; auto. intros s1 src H1. exists src. auto. intros r Hr Hn. cbn [g_heap g1]. apply T3. intros Hr'. apply Hn.
    rewrite Forall_forall in Rn. pose proof (Rn _ Hr') as Er. destruct rs as [|r0 rs]; [destruct Hr'|]. cbn. left. rewrite Er. apply Rn. left. auto. }
  split; [exact K|]. destruct W as (H1 & H2 & H3 & H4). split; [split; [exact H1|split; [|split]]|].
  - eapply astsOk_keeps; eauto; [exact (proj1 (own_lt _ _ H4))|]. eapply own_ast_apart; eauto.
  - eapply outsOk_keeps; eauto.
  - cbn [owned]. apply (own_less g g1 pre (heads rs) (heads rs') post); auto.
  - constructor. cbn. exists s. split; auto. exists m, ss, L, run, n, ss', t. split; [eapply parsedAs_keeps; eauto|auto].
Qed.
Lemma NoDup_app_remove_l {A} (a b : list A) : NoDup (a ++ b) -> NoDup b.
Proof. induction a; cbn; auto. intros H. inversion H; auto. Qed.
Lemma done_owned kids : forallb isDone kids = true -> flat_map owned kids = [].
Proof. induction kids as [|t kids IH]; cbn; auto. destruct t; cbn; try discriminate. auto. Qed.
Lemma gstep_many g t g' t' : gstep P g t g' t' -> forall pre post A,
  book P g A -> facts P g t -> facts P g' t' -> gorOk P g' t' -> (forall i s, ilookup i (g_byIndex g) = Some s -> ilookup i (g_byIndex g') = Some s) ->
  world g (pre ++ owned t ++ post) -> many g t ->
  exists w, keeps g g' w /\ incl w (owned t) /\ world g' (pre ++ owned t' ++ post) /\ many g' t'.
Proof.
  induction 1 as [n g f g' t' H|g i s rs imps k repl kids L|n g i s rs imps k repl kids g' t' L D H|g i s rs imps k repl a b spec at_ src rel C S R|g i s rs imps k repl a b spec at_ src C S R
    |g i s rs imps k repl a b ret spec at_ C|g i s rs imps k repl a b kid g' kid' H IH]; intros pre post A Bk F F' Go By W M.
  - inversion M; subst. destruct (frame_many _ _ _ _ _ _ _ _ H Bk F F' By W) as (K & W' & M'); auto. exists []. split; [auto|split; [intros x []|auto]].
  - exists []. split; [apply keeps_refl|split; [intros x []|]]. inversion M; subst. cbn [owned] in *. rewrite flat_map_app. cbn [flat_map owned]. rewrite !app_nil_r.
    split; [auto|]. constructor; auto. apply Forall_app. split; auto. repeat constructor.
  - inversion M; subst. cbn [owned] in *. rewrite (done_owned _ D), app_nil_r in *. destruct (transform_many _ _ _ _ _ _ _ _ _ _ H W) as (K & W' & M'); auto.
    exists (heads rs). split; [auto|split; [apply incl_refl|auto]].
  - exists []. split; [apply keeps_refl|split; [intros x []|]]. inversion M as [| |? ? ? ? ? ? ? M1 M2 M3| |]; subst. cbn [owned] in *. rewrite flat_app in *. cbn [owned app] in *.
    split; [auto|]. constructor; auto. apply Forall_mid in M3 as (X1 & _ & X2). apply Forall_mid. split; [auto|split; [|auto]]. constructor. cbn.
    intros Hf a0 Ha. right. split; [unfold follow in Hf; destruct (o_imports (p_opts P)); auto; discriminate|].
    inversion Go as [| |? ? ? ? ? ? ? ? _ _ _ _ _ _ Gk| | |]; subst. apply Forall_mid in Gk as (_ & Gk & _). inversion Gk as [|? Gf| | | |]; subst. cbn in Gf. auto.
  - assert (K : keeps g (addError g (EResolve spec)) []) by (apply keeps_same; auto).
    exists []. split; [exact K|split; [intros x []|]]. inversion M as [| |? ? ? ? ? ? ? M1 M2 M3| |]; subst. cbn [owned] in *. rewrite flat_app in *. cbn [owned app] in *.
    split; [eapply world_same with (m := heads rs ++ flat_map owned a ++ flat_map owned b); eauto|].
    apply (many_keeps g _ [] K); [|cbn [owned]; rewrite flat_app; cbn [owned app]; destruct W as (_ & _ & _ & W); apply own_lt in W as [_ W]|intros x _ []].
    + constructor; auto. apply Forall_mid in M3 as (X1 & _ & X2). apply Forall_mid. split; [auto|split; [constructor|auto]].
    + apply Forall_app in W as [_ W]. apply Forall_app in W as [W _]. exact W.
  - exists []. split; [apply keeps_refl|split; [intros x []|]]. inversion M as [| |? ? ? ? ? ? ? M1 M2 M3| |]; subst. cbn [owned] in *. rewrite flat_app in *. cbn [owned app] in *.
    split; [auto|]. constructor; auto. apply Forall_mid in M3 as (X1 & _ & X2). apply Forall_mid. split; [auto|split; [constructor|auto]].
  - inversion M as [| |? ? ? ? ? ? ? M1 M2 M3| |]; subst. cbn [owned] in *. rewrite flat_app in *. apply Forall_mid in M3 as (X1 & X0 & X2).
    assert (R : forall x, pre ++ (heads rs ++ flat_map owned a ++ owned x ++ flat_map owned b) ++ post = (pre ++ heads rs ++ flat_map owned a) ++ owned x ++ (flat_map owned b ++ post)).
    { intros x. rewrite <- !app_assoc. reflexivity. }
    rewrite R in *. inversion F as [| |? ? ? ? ? ? ? F1 F2 F3 F4| |]; subst. inversion F' as [| |? ? ? ? ? ? ? F1' F2' F3' F4'| |]; subst.
    inversion Go as [| |? ? ? ? ? ? ? ? _ _ _ _ _ _ Gk| | |]; subst. apply Forall_mid in F4 as (_ & F4 & _). apply Forall_mid in F4' as (_ & F4' & _). apply Forall_mid in Gk as (_ & Gk & _).
    destruct (IH _ _ _ Bk F4 F4' Gk By W X0) as (w & K & I & W' & M'). exists w. split; [auto|split; [|split; [cbn [owned]; rewrite flat_app, R; auto|]]].
    + intros x Hx. cbn [owned]. rewrite !in_app_iff. auto.
    + destruct W as (_ & _ & _ & Own). pose proof (own_lt _ _ Own) as [_ Lt]. rewrite !Forall_app in Lt. destruct Lt as ((_ & L1 & L2) & _ & L3 & _).
      destruct Own as [Nd _]. apply NoDup_app_remove_l in Nd. rewrite <- !app_assoc in Nd. apply NoDup_app_remove_l in Nd.
      assert (Ap : forall l, (forall x, In x l -> In x (heads rs) \/ In x (flat_map owned a) \/ In x (flat_map owned b)) -> apartRuns w l).
      { intros l Hl x Hx Hw. apply I in Hw. destruct (Hl _ Hx) as [Y|[Y|Y]].
        - eapply nodup_apart in Nd; [|exact Y]. apply Nd. rewrite !in_app_iff. auto.
        - apply NoDup_app_remove_l in Nd. eapply nodup_apart in Nd; [|exact Y]. apply Nd. rewrite !in_app_iff. auto.
        - apply NoDup_app_remove_l, NoDup_app_remove_l in Nd. eapply nodup_apart in Nd; [|exact Hw]. apply Nd. rewrite !in_app_iff. auto. }
      constructor; [apply K; auto|eapply working_keeps; eauto|]. apply Forall_mid. split; [|split; [auto|]]; eapply kids_keeps; eauto; apply Ap; auto.
Qed.

(** * Outputs that are still to come *)
Definition unparsed (content : bytes) : Prop := exists n sp msg L, parse 0 n content = ParseErr sp msg L.
Fixpoint busy (t : gor) : list nat :=
  match t with
  | InFrame (Looking i) | InFrame (NotParsed i) | InFrame (HasSource i _) | InFrame (Transformed i _) => [i]
  | InLoop i _ _ _ _ _ kids => i :: flat_map busy kids
  | _ => []
  end.
Definition over (g : glob) (i : nat) : Prop := (exists rs, ilookup i (g_asts g) = Some rs) \/
  exists s src, ilookup i (g_byIndex g) = Some s /\ nth_error (g_srcs g) s = Some src /\ unparsed (src_content src).
Lemma over_kept g g' i : sameKept g g' -> over g i -> over g' i.
Proof.
  intros (K1 & _ & K2 & _ & K3) [(rs & H)|(s & src & H1 & H2 & H3)].
  - left. eauto.
  - right. destruct (K1 _ _ H2) as (src' & E1 & E2 & E3). exists s, src'. split; [auto|split; [auto|]]. rewrite <- E3. auto.
Qed.
Lemma pathIs_kept g g' i a : sameKept g g' -> pathIs g i a -> pathIs g' i a.
Proof.
  intros (K1 & _ & K2 & _ & K3) (s & src & H1 & H2 & H3). destruct (K1 _ _ H2) as (src' & E1 & E2 & E3). exists s, src'. split; [auto|split; [auto|congruence]].
Qed.
Lemma frame_busy n g f g' t' : frameStep P n g f = Some (Go g' t') -> facts P g (InFrame f) -> sameKept g g' ->
  (forall i, In i (g_outputs g') -> In i (g_outputs g) \/ In i (busy t')) /\ (forall i, In i (busy (InFrame f)) -> In i (busy t') \/ over g' i).
Proof.
  intros H F K. inversion F as [|? Ff| | |]; subst. clear F.
  destruct f as [file out|file abs out|abs content out|i abs content out|i out|i tmp out|i out|i|i|i s|i rs]; cbn [frameStep frameFacts busy] in *.
  - destruct (p_abs P file) as [abs|]; [destruct (lookup abs (g_sources g))|]; inversion H; subst; split; auto; intros ? [].
  - destruct (p_read P abs); inversion H; subst; split; auto; intros ? [].
  - inversion H; subst; split; auto; intros ? [].
  - inversion H; subst; split; auto; intros ? [].
  - inversion H; subst; split; auto; intros ? [].
  - inversion H; subst; split; auto; intros ? [].
  - inversion H; subst. split; [|intros ? []]. destruct out; auto. cbn. intros j Hj. destruct (existsb _ _); auto. apply in_app_iff in Hj. tauto.
  - destruct (ilookup i (g_asts g)) as [rs|] eqn:Ei; inversion H; subst; split; auto. intros j [<-|[]]. right. left. eauto.
  - destruct (ilookup i (g_byIndex g)) as [s|] eqn:Ei; inversion H; subst; split; auto.
  - destruct (nth_error (g_srcs g) s) as [src|] eqn:Es; [|discriminate].
    destruct (parse (g_runs g) n (src_content src)) as [ss L|sp msg L| |] eqn:Ep; try discriminate; inversion H; subst; split; auto.
    intros j [<-|[]]. right. apply (over_kept g); auto. right. exists s, src. split; [auto|split; [auto|]]. exists n, sp, msg, L. eapply linesOf_err; eauto.
  - inversion H; subst. split; auto. intros j [<-|[]]. right. left. cbn. rewrite Nat.eqb_refl. eauto.
Qed.
Lemma gstep_busy g t g' t' : gstep P g t g' t' -> facts P g t -> sameKept g g' ->
  (forall i, In i (g_outputs g') -> In i (g_outputs g) \/ In i (busy t')) /\ (forall i, In i (busy t) -> In i (busy t') \/ over g' i).
Proof.
  induction 1 as [n g f g' t' H|g i s rs imps k repl kids L|n g i s rs imps k repl kids g' t' L D H|g i s rs imps k repl a b spec at_ src rel C S R|g i s rs imps k repl a b spec at_ src C S R
    |g i s rs imps k repl a b ret spec at_ C|g i s rs imps k repl a b kid g' kid' H IH]; intros F K.
  - eapply frame_busy; eauto.
  - split; auto. cbn [busy]. intros j [<-|Hj]; left; [left; auto|right]. rewrite flat_map_app. apply in_app_iff. auto.
  - rewrite transform_none in H. destruct (transformRefs o None n rs (g_heap g) (initState o None)) as [[rs' h] t| |]; inversion H; subst. split; auto.
    cbn [busy]. replace (flat_map busy kids) with (@nil nat); auto. clear - D. induction kids as [|t kids IH]; cbn in *; auto. destruct t; try discriminate. auto.
  - split; auto. cbn [busy]. rewrite !flat_app. auto.
  - split; auto. cbn [busy]. rewrite !flat_app. auto.
  - split; auto. cbn [busy]. rewrite !flat_app. auto.
  - inversion F as [| |? ? ? ? ? ? ? F1 F2 F3 F4| |]; subst. apply Forall_mid in F4 as (_ & F4 & _). destruct (IH F4 K) as (I1 & I2). cbn [busy]. rewrite !flat_app. split.
    + intros j Hj. destruct (I1 _ Hj); auto. right. right. rewrite !in_app_iff. auto.
    + intros j [->|Hj]; [left; left; auto|]. rewrite !in_app_iff in Hj. destruct Hj as [Hj|[Hj|Hj]].
      * left. right. rewrite !in_app_iff. auto.
      * destruct (I2 _ Hj); auto. left. right. rewrite !in_app_iff. auto.
      * left. right. rewrite !in_app_iff. auto.
Qed.

(** A call for the file at [a], which is to have an output. *)
Definition hasOutput (g : glob) (a : bytes) : Prop := exists i, pathIs g i a /\ In i (g_outputs g).
Lemma hasOutput_kept g g' a : sameKept g g' -> hasOutput g a -> hasOutput g' a.
Proof. intros K (i & H1 & H2). exists i. split; [eapply pathIs_kept; eauto|apply K; auto]. Qed.
Definition arrives (g : glob) (a : bytes) (t : gor) : Prop :=
  match t with
  | Fresh => False
  | InFrame (Called file out) => out = true /\ p_abs P file = Some a
  | InFrame (Missed _ abs out) | InFrame (ReadIn abs _ out) | InFrame (Indexed _ abs _ out) => out = true /\ abs = a
  | InFrame (Stored i out) | InFrame (Counted i _ out) | InFrame (HasIndex i out) => out = true /\ pathIs g i a
  | _ => hasOutput g a
  end.
Lemma arrives_stay g g' a t : sameKept g g' -> arrives g a t -> arrives g' a t.
Proof.
  intros K. destruct t as [|f| | |]; cbn; auto; try (apply hasOutput_kept; auto; fail).
  destruct f; auto; try (apply hasOutput_kept; auto; fail); intros [H1 H2]; split; auto; eapply pathIs_kept; eauto.
Qed.
Lemma arrives_step g t g' t' a c A : gstep P g t g' t' -> p_read P a = Some c -> book P g A -> facts P g' t' -> sameKept g g' -> arrives g a t -> arrives g' a t'.
Proof.
  intros H R Bk F' K. inversion H as [n ? f ? ? H1| |n ? i s rs imps k repl kids ? ? L D H1| | | |]; subst; try (cbn; apply hasOutput_kept; auto; fail).
  - intros Ar. destruct f as [file out|file abs out|abs content out|i abs content out|i out|i tmp out|i out|i|i|i s|i rs]; cbn [frameStep arrives] in *;
      try (pose proof (hasOutput_kept _ _ _ K Ar) as Ar').
    + destruct Ar as [-> Ea]. rewrite Ea in H1. destruct (lookup a (g_sources g)) as [i|] eqn:El; inversion H1; subst; cbn; auto. split; auto.
      inversion F' as [|? Ff| | |]; subst. cbn in Ff. destruct Ff as (s & Hs). destruct (bk_by _ _ _ Bk _ _ Hs) as (src & X1 & X2 & X3).
      exists s, src. split; [auto|split; [auto|]]. eapply (bk_inj _ _ _ Bk); eauto.
    + destruct Ar as [-> ->]. rewrite R in H1. inversion H1; subst. cbn. auto.
    + destruct Ar as [-> ->]. inversion H1; subst. cbn. auto.
    + destruct Ar as [-> ->]. inversion H1; subst. cbn. split; auto. exists (length (g_srcs g)), (mkSource a content []). cbn.
      rewrite Nat.eqb_refl, nth_error_app2, Nat.sub_diag by lia. auto.
    + destruct Ar as [-> Ar]. inversion H1; subst. cbn. auto.
    + destruct Ar as [-> Ar]. inversion H1; subst. cbn. auto.
    + destruct Ar as [-> Ar]. inversion H1; subst. cbn. exists i. split; [exact Ar|]. cbn. destruct (existsb (Nat.eqb i) (g_outputs g)) eqn:E; [|apply in_app_iff; right; left; auto].
      apply existsb_exists in E as (x & Hx & E). apply Nat.eqb_eq in E. subst. auto.
    + destruct (ilookup i (g_asts g)) as [rs|] eqn:Ei; inversion H1; subst; auto.
    + destruct (ilookup i (g_byIndex g)) as [s|] eqn:Ei; inversion H1; subst; auto.
    + destruct (nth_error (g_srcs g) s) as [src|] eqn:Es; [|discriminate].
      destruct (parse (g_runs g) n (src_content src)) as [ss L|sp msg L| |] eqn:Ep; try discriminate; inversion H1; subst; auto.
    + inversion H1; subst; auto.
  - rewrite transform_none in H1. destruct (transformRefs o None n rs (g_heap g) (initState o None)) as [[rs' h] t1| |]; inversion H1; subst. cbn. apply hasOutput_kept; auto.
Qed.

(** * The whole program *)
Definition prints (g : glob) (i : nat) (p css : bytes) : Prop := exists s src rs nds,
  ilookup i (g_byIndex g) = Some s /\ ilookup i (g_asts g) = Some rs /\ nth_error (g_srcs g) s = Some src /\
  derefs (g_heap g) rs = Some nds /\ src_path src = p /\ print (Some src) nds = Some css.
Lemma printOne_spec g i out : (snd (printOne g i out) = out /\ forall p css, ~ prints g i p css) \/
  exists p css, prints g i p css /\ snd (printOne g i out) = (p, css) :: out /\ forall p' css', prints g i p' css' -> p' = p /\ css' = css.
Proof.
  unfold printOne, prints. destruct (ilookup i (g_byIndex g)) as [s|]; [|left; split; auto; intros p css (s & src & rs & nds & H & _); discriminate].
  destruct (ilookup i (g_asts g)) as [rs|]; [|left; split; auto; intros p css (s1 & src & rs & nds & _ & H & _); discriminate].
  destruct (nth_error (g_srcs g) s) as [src|] eqn:E1; [|left; split; auto; intros p css (s1 & src & rs1 & nds & H1 & _ & H & _); congruence].
  destruct (derefs (g_heap g) rs) as [nds|] eqn:E2; [|left; split; auto; intros p css (s1 & src1 & rs1 & nds & H1 & H2 & _ & H & _); congruence].
  destruct (print (Some src) nds) as [css|] eqn:E3.
  - right. exists (src_path src), css. split; [exists s, src, rs, nds; repeat split; auto|split; [reflexivity|]]. intros p' css' (s1 & src1 & rs1 & nds1 & H1 & H2 & H3 & H4 & H5 & H6).
    inversion H1; inversion H2; subst. rewrite E1 in H3. inversion H3; subst. rewrite E2 in H4. inversion H4; subst. rewrite E3 in H6. inversion H6; auto.
  - left. split; auto. intros p' css' (s1 & src1 & rs1 & nds1 & H1 & H2 & H3 & H4 & H5 & H6). inversion H1; inversion H2; subst. congruence.
Qed.
Lemma prints_inj g A i j p css css' : book P g A -> prints g i p css -> prints g j p css' -> i = j.
Proof.
  intros Bk (s & src & _ & _ & H1 & _ & H2 & _ & H3 & _) (s' & src' & _ & _ & H1' & _ & H2' & _ & H3' & _).
  destruct (bk_by _ _ _ Bk _ _ H1) as (x & X1 & X2 & _). destruct (bk_by _ _ _ Bk _ _ H1') as (y & Y1 & Y2 & _).
  rewrite H2 in X1. rewrite H2' in Y1. inversion X1; inversion Y1; subst. congruence.
Qed.
Record printed (g : glob) (todo : list nat) (out : files) : Prop := {
  pr_nodup : NoDup todo;
  pr_incl : incl todo (g_outputs g);
  pr_sound : forall p css, In (p, css) out -> exists i, In i (g_outputs g) /\ ~ In i todo /\ prints g i p css;
  pr_paths : NoDup (map fst out);
  pr_complete : forall i p css, In i (g_outputs g) -> ~ In i todo -> prints g i p css -> In (p, css) out }.
Definition sameButErrors (g g' : glob) : Prop := exists errs, g' = mkG (g_sources g) (g_next g) (g_byIndex g) (g_asts g) (g_outputs g) errs (g_srcs g) (g_heap g) (g_runs g).
Lemma printOne_errors g i out : sameButErrors g (fst (printOne g i out)).
Proof.
  assert (sameButErrors g g) by (exists (g_errors g); destruct g; reflexivity).
  unfold printOne. repeat match goal with |- context [match ?x with _ => _ end] => destruct x end; auto. eexists. reflexivity.
Qed.
Lemma printed_step g a idx b out A : book P g A -> printed g (a ++ idx :: b) out -> printed (fst (printOne g idx out)) (a ++ b) (snd (printOne g idx out)).
Proof.
  intros Bk [H1 H2 H3 H4 H5]. assert (Nd : NoDup (a ++ b) /\ ~ In idx (a ++ b)) by (apply NoDup_remove; auto). destruct Nd as [N1 N2].
  assert (Pr : printed g (a ++ b) (snd (printOne g idx out))).
  { assert (I2 : incl (a ++ b) (g_outputs g)) by (intros x Hx; apply H2; rewrite in_app_iff in *; cbn; tauto).
    assert (Hidx : In idx (g_outputs g)) by (apply H2; rewrite in_app_iff; cbn; tauto).
    assert (Sub : forall x, ~ In x (a ++ b) -> x = idx \/ ~ In x (a ++ idx :: b)).
    { intros x Hx. destruct (Nat.eq_dec x idx) as [->|N]; auto. right. rewrite in_app_iff in *. cbn. intros [X|[X|X]]; [tauto|congruence|tauto]. }
    assert (Sub' : forall x, ~ In x (a ++ idx :: b) -> ~ In x (a ++ b)) by (intros x; rewrite !in_app_iff; cbn; tauto).
    destruct (printOne_spec g idx out) as [[-> N]|(p & css & Hp & -> & Uq)]; constructor; auto.
    - intros p css Hi. destruct (H3 _ _ Hi) as (i & X1 & X2 & X3). exists i. auto.
    - intros i p css X1 X2 X3. destruct (Sub _ X2) as [->|X4]; [destruct (N _ _ X3)|eauto].
    - intros p' css' [E|Hi]; [inversion E; subst; eauto|]. destruct (H3 _ _ Hi) as (i & X1 & X2 & X3). exists i. auto.
    - cbn. constructor; auto. intros Hi. apply in_map_iff in Hi as ([p' css'] & E & Hi). cbn in E. subst p'. destruct (H3 _ _ Hi) as (i & X1 & X2 & X3).
      assert (i = idx) by (eapply prints_inj; eauto). subst. apply X2. rewrite in_app_iff. cbn. tauto.
    - intros i p' css' X1 X2 X3. destruct (Sub _ X2) as [->|X4]; [|right; eauto]. destruct (Uq _ _ X3) as [-> ->]. left. auto. }
  destruct (printOne_errors g idx out) as (errs & ->). destruct Pr as [P1 P2 P3 P4 P5]. constructor; auto.
Qed.

(** The last entry. *)
Definition lastEntry (e : bytes) : Prop := exists l, p_entries P = l ++ [e].
Definition lastOk (g : glob) (kids : list gor) : Prop := forall l e a c t, p_entries P = l ++ [e] -> p_abs P e = Some a -> p_read P a = Some c ->
  nth_error kids (length l) = Some t -> t = Fresh \/ arrives g a t.
Definition endOk (g : glob) : Prop := world g [] /\ (forall i, In i (g_outputs g) -> over g i) /\
  (forall e a c, lastEntry e -> p_abs P e = Some a -> p_read P a = Some c -> hasOutput g a).
Definition manyS (s : glob * mstate) : Prop :=
  match snd s with
  | Running k kids => world (fst s) (flat_map owned kids) /\ Forall (many (fst s)) kids /\
      (forall i, In i (g_outputs (fst s)) -> over (fst s) i \/ In i (flat_map busy kids)) /\ lastOk (fst s) kids
  | Printing todo out => endOk (fst s) /\ printed (fst s) todo out
  | Finished out => endOk (fst s) /\ printed (fst s) [] out
  | Crashed => True
  end.
Lemma world_errors g g' W : sameButErrors g g' -> world g W -> world g' W.
Proof. intros (errs & ->) H. exact H. Qed.
Lemma many_mstep s s' : mstep P s s' -> calmS P s -> calmS P s' -> stateOk P s -> stateOk P s' -> sameKept (fst s) (fst s') -> manyS s -> manyS s'.
Proof.
  intros H Ca Ca' Ok Ok' K M. destruct H as [g k kids L|g k kids L D|g k a b e C|g k a b ret|g k a b kid g' kid' H|g k kids|g a idx b out|g out]; unfold manyS in *; cbn [fst snd] in *; auto.
  - destruct M as (M1 & M2 & M3 & M4). destruct Ok as (_ & Ok1 & _). cbn in Ok1. rewrite !flat_map_app. cbn [flat_map owned busy app]. rewrite !app_nil_r.
    split; [auto|split; [apply Forall_app; split; auto; repeat constructor|split; [auto|]]].
    intros l e a c t E1 E2 E3 E4. destruct (Nat.lt_ge_cases (length l) (length kids)).
    + rewrite nth_error_app1 in E4 by auto. eapply M4; eauto.
    + assert (length l = length kids).
      { assert (length l < length (kids ++ [Fresh]))%nat by (apply nth_error_Some; congruence). rewrite app_length in *. cbn in *. lia. }
      left. rewrite H0, nth_error_app2, Nat.sub_diag in E4 by lia. cbn in E4. congruence.
  - destruct M as (M1 & M2 & M3 & M4). destruct Ok as (_ & Ok1 & Ok2 & _). cbn in Ok1. rewrite (done_owned _ D) in M1. split; [split; [auto|split]|].
    + intros i Hi. destruct (M3 _ Hi) as [X|X]; auto. exfalso. apply in_flat_map in X as (t & X1 & X2). apply forallb_forall with (x := t) in D; auto. destruct t; try discriminate. destruct X2.
    + intros e a c (l & El) Ea Ec. destruct (nth_error kids (length l)) as [t|] eqn:Et.
      * pose proof Et as Et'. apply nth_error_In in Et'. apply forallb_forall with (x := t) in D; auto. destruct t; try discriminate.
        destruct (M4 _ _ _ _ _ El Ea Ec Et) as [X|X]; [discriminate|exact X].
      * apply nth_error_None in Et. rewrite El, app_length in *. cbn in *. lia.
    + destruct M1 as (_ & _ & (O1 & O2) & _). constructor; auto; try (cbn; constructor); try (intros ? ? []; fail);  try apply incl_refl. intros j p css H1 H2. tauto.
  - destruct M as (M1 & M2 & M3 & M4). destruct Ok as (_ & Ok1 & Ok2 & _). cbn in Ok1. rewrite flat_app in *. cbn [owned busy app] in *. rewrite flat_app in *. cbn [busy app] in *.
    split; [auto|split; [|split; [auto|]]].
    + apply Forall_mid in M2 as (X1 & _ & X2). apply Forall_mid. split; [auto|split; [|auto]]. constructor. cbn. intros _ abs Ha. left. exists e. split; auto. eapply current_In; eauto.
    + intros l e' abs c t E1 E2 E3 E4. destruct (Nat.eq_dec (length l) (length a)) as [E|N].
      * right. rewrite E, nth_error_app2, Nat.sub_diag in E4 by lia. cbn in E4. inversion E4; subst t. cbn. split; auto.
        rewrite app_length in Ok1. cbn in Ok1. assert (b = []).
        { destruct b; auto. rewrite E1, app_length in Ok2. cbn in *. lia. }
        subst b. cbn in Ok1. destruct k as [|k]; [lia|]. cbn in C. rewrite E1 in C. replace k with (length l) in C by lia.
        rewrite nth_error_app2, Nat.sub_diag in C by lia. cbn in C. congruence.
      * eapply M4; eauto. destruct (Nat.lt_ge_cases (length l) (length a)).
        -- rewrite nth_error_app1 in * by auto. auto.
        -- rewrite nth_error_app2 in * by lia. destruct (length l - length a)%nat eqn:Ed; [lia|]. auto.
  - destruct M as (M1 & M2 & M3 & M4). rewrite flat_app in *. cbn [owned busy app] in *. rewrite flat_app in *. cbn [busy app] in *.
    split; [auto|split; [|split; [auto|]]].
    + apply Forall_mid in M2 as (X1 & _ & X2). apply Forall_mid. split; [auto|split; [constructor|auto]].
    + intros l e' abs c t E1 E2 E3 E4. destruct (Nat.eq_dec (length l) (length a)) as [E|N].
      * right. destruct (M4 l e' abs c (Back ret) E1 E2 E3) as [X|X]; [rewrite E, nth_error_app2, Nat.sub_diag by lia; reflexivity|discriminate|].
        rewrite E, nth_error_app2, Nat.sub_diag in E4 by lia. cbn in E4. inversion E4; subst t. exact X.
      * eapply M4; eauto. destruct (Nat.lt_ge_cases (length l) (length a)).
        -- rewrite nth_error_app1 in * by auto. auto.
        -- rewrite nth_error_app2 in * by lia. destruct (length l - length a)%nat eqn:Ed; [lia|]. auto.
  - destruct M as (M1 & M2 & M3 & M4). destruct Ca as [Ca|]; [|discriminate]. destruct Ca' as [Ca'|]; [|discriminate]. cbn [fst snd] in *. destruct Ca as (Bk & Fs & _). destruct Ca' as (_ & Fs' & _).
    destruct Ok' as (_ & _ & _ & Gk). cbn [fst snd] in *. rewrite flat_app in *.
    apply Forall_mid in Fs as (_ & Fk & _). apply Forall_mid in Fs' as (_ & Fk' & _). apply Forall_mid in Gk as (_ & Gk & _). apply Forall_mid in M2 as (X1 & X0 & X2).
    pose proof K as (_ & _ & By & _).
    destruct (gstep_many _ _ _ _ H _ _ _ Bk Fk Fk' Gk By M1 X0) as (w & Kp & I & W' & M'). destruct (gstep_busy _ _ _ _ H Fk K) as (B1 & B2).
    split; [auto|split; [|split]].
    + destruct M1 as (_ & _ & _ & Own). pose proof (own_lt _ _ Own) as [_ Lt]. rewrite !Forall_app in Lt. destruct Lt as (L1 & _ & L2).
      destruct Own as [Nd _]. apply NoDup_app_remove_l in Nd.
      apply Forall_mid. split; [|split; [auto|]]; eapply kids_keeps; eauto; intros x Hx Hw; apply I in Hw.
      * eapply nodup_apart in Nd; [|exact Hx]. apply Nd. rewrite !in_app_iff. auto.
      * apply NoDup_app_remove_l in Nd. eapply nodup_apart in Nd; [|exact Hw]. auto.
    + rewrite flat_app in *. intros i Hi. rewrite !in_app_iff. destruct (B1 _ Hi) as [Y|Y]; [|auto]. destruct (M3 _ Y) as [Z|Z]; [left; eapply over_kept; eauto|].
      rewrite !in_app_iff in Z. destruct Z as [Z|[Z|Z]]; auto. destruct (B2 _ Z); auto.
    + intros l e' abs c t E1 E2 E3 E4. destruct (Nat.eq_dec (length l) (length a)) as [E|N].
      * right. rewrite E, nth_error_app2, Nat.sub_diag in E4 by lia. cbn in E4. inversion E4; subst t.
        destruct (M4 l e' abs c kid E1 E2 E3) as [X|X]; [rewrite E, nth_error_app2, Nat.sub_diag by lia; reflexivity|subst; inversion H|]. eapply arrives_step; eauto.
      * destruct (M4 l e' abs c t E1 E2 E3) as [X|X]; [|auto|right; eapply arrives_stay; eauto]. destruct (Nat.lt_ge_cases (length l) (length a)).
        -- rewrite nth_error_app1 in * by auto. auto.
        -- rewrite nth_error_app2 in * by lia. destruct (length l - length a)%nat eqn:Ed; [lia|]. auto.
  - destruct M as (M1 & M2). destruct Ca as [Ca|]; [|discriminate]. destruct Ca as (Bk & _). split; [|eapply printed_step; eauto].
    destruct (printOne_errors g idx out) as (errs & ->). exact M1.
Qed.
Lemma apart_reach s : reachApart P s -> reach P s.
Proof. induction 1 as [|s s' _ IH (n & path & H & _)]; [constructor|]. econstructor; eauto. exists n, path. auto. Qed.
Lemma many_reach s : reachApart P s -> manyS s.
Proof.
  induction 1 as [|s s' H IH A].
  - unfold manyS. cbn. split; [|split; [constructor|split; [intros i []|]]].
    + split; [intros s src E; destruct s; discriminate|split; [intros i rs []|split]]; [split; [constructor|intros i []]|split; constructor].
    + intros l e a c t _ _ _ E. destruct (length l); discriminate.
  - assert (H' : reachApart P s') by (econstructor; eauto). destruct (calm_step_kept P s s' (calm_reach _ _ H) A) as (C' & K).
    apply (many_mstep s s'); auto; [|apply calm_reach; auto|apply reach_ok, apart_reach; auto|apply reach_ok, apart_reach; auto].
    apply step_mstep. destruct A as (n & path & A & _). exists n, path. auto.
Qed.

(** * What Compile returns *)
Lemma found_In {A} p (x : A) l : lookup p l = Some x -> In (p, x) l.
Proof.
  induction l as [|[q y] l IH]; cbn; [discriminate|]. destruct (beq p q) eqn:E; [|auto]. apply beq_eq in E. subst. intros [=->]. auto.
Qed.
Lemma In_found {A} p (x : A) l : NoDup (map fst l) -> In (p, x) l -> lookup p l = Some x.
Proof.
  induction l as [|[q y] l IH]; cbn; [tauto|]. intros N [E|H]; inversion N as [|? ? N1 N2]; subst; [inversion E; subst; rewrite beq_refl; auto|].
  destruct (beq p q) eqn:E; auto. apply beq_eq in E. subst. destruct N1. apply in_map_iff. exists (q, x). auto.
Qed.
Lemma head_repeat {A} (L : list A) k x : hd_error L = Some x -> hd_error (concat (repeat L (S k))) = Some x.
Proof. destruct L; cbn; [discriminate|auto]. Qed.
Lemma prints_compiled g A i p css : book P g A -> astsOk g -> prints g i p css -> exists k, compiledTimes P k p css.
Proof.
  intros Bk As (s & src & rs & nds & H1 & H2 & H3 & H4 & H5 & H6). destruct (As i rs) as (s' & E1 & E2); [apply ilookup_In; auto|].
  rewrite H1 in E1. inversion E1; subst s'. destruct E2 as (n & ss & L & run & m & ss' & t & (src' & k & P1 & P2 & P3 & P4) & T & _ & D).
  rewrite H3 in P1. inversion P1; subst src'. rewrite H4 in D. inversion D; subst nds. rewrite print_rerun in H6. exists k.
  exists (src_content src), n, m, ss, L, ss', t. subst p. rewrite <- P4. destruct src. auto.
Qed.
Lemma C35_lemma g fs : reachApart P (g, Finished fs) ->
  NoDup (map fst fs) /\
  (forall p out, lookup p fs = Some out -> wanted P p /\ exists k, compiledTimes P k p out) /\
  (forall e a out, lastEntry e -> p_abs P e = Some a -> compiled P a out -> exists out', lookup a fs = Some out').
Proof.
  intros R. pose proof (many_reach _ R) as M. destruct (calm_reach _ _ R) as [(Bk & _)|]; [|discriminate]. unfold manyS in M. cbn [fst snd] in *.
  destruct M as (((W1 & W2 & W3 & W4) & Ov & La) & [P1 P2 P3 P4 P5]). split; [auto|split].
  - intros p out Hl. apply found_In in Hl. destruct (P3 _ _ Hl) as (i & X1 & _ & X2). split.
    + destruct W3 as [_ W3]. destruct (W3 _ X1) as (a & (s & src & Y1 & Y2 & Y3) & Wt). destruct X2 as (s' & src' & _ & _ & Z1 & _ & Z2 & _ & Z3 & _).
      rewrite Y1 in Z1. inversion Z1; subst s'. rewrite Y2 in Z2. inversion Z2; subst. auto.
    + eapply prints_compiled; eauto.
  - intros e a out Le Ea (content & n & m & ss & lines & ss' & t & C1 & C2 & C3 & C4). destruct (La e a content Le Ea C1) as (i & (s & src & Y1 & Y2 & Y3) & Hi).
    destruct (bk_by _ _ _ Bk _ _ Y1) as (src' & E1 & _ & E2). rewrite Y2 in E1. inversion E1; subst src'. subst a. assert (src_content src = content) by congruence. subst content.
    destruct (Ov _ Hi) as [(rs & Hr)|(s' & src' & Z1 & Z2 & (n' & sp & msg & L' & Z3))].
    + destruct (W2 i rs) as (s' & X1 & X2); [apply ilookup_In; auto|]. rewrite Y1 in X1. inversion X1; subst s'.
      destruct X2 as (n1 & ss1 & L & run & m1 & ss1' & t1 & (src' & k & Q1 & Q2 & Q3 & Q4) & T & _ & D). rewrite Y2 in Q1. inversion Q1; subst src'.
      assert (X : parse 0 n (src_content src) = parse 0 n1 (src_content src)) by (apply ParseMono.parse_agree; congruence).
      rewrite C2, Q3 in X. inversion X; subst ss1 L. assert (ss1' = ss') by (eapply transform_agree; eauto). subst ss1'.
      destruct (C19_lemma _ _ _ C4) as (css & _ & _ & Pn & _). pose proof (parse_table (src_content src) 0 n) as Tb. rewrite C2 in Tb. destruct Tb as [Tb _].
      destruct (print_total src (ss_nodes ss') css) as (out' & Po); [rewrite Q4; apply head_repeat; auto|auto|].
      exists out'. apply In_found; auto. eapply P5; eauto. exists s, src, rs, (map (nodeOfRun run) (ss_nodes ss')). rewrite print_rerun. repeat split; auto.
    + rewrite Y1 in Z1. inversion Z1; subst s'. rewrite Y2 in Z2. inversion Z2; subst src'.
      assert (X : parse 0 n (src_content src) = parse 0 n' (src_content src)) by (apply ParseMono.parse_agree; congruence). congruence.
Qed.
Lemma C35_positive_lemma g fs : reachApart P (g, Finished fs) ->
  NoDup (map fst fs) /\
  (forall p out, lookup p fs = Some out -> wanted P p /\ exists k, compiledTimes P k p out) /\
  (forall l e a out, p_entries P = l ++ [e] -> p_abs P e = Some a -> compiled P a out -> exists out', lookup a fs = Some out').
Proof.
  intros R. destruct (C35_lemma g fs R) as (A & B1 & C). split; [exact A|split; [exact B1|]]. intros l e a out E. apply C. exists l. exact E.
Qed.
End WithProject.

(** * Other entries *)
Lemma times_same {U : UnicodeDigits} {FO : FloatOps} P P' k k' f out out' : p_read P = p_read P' -> p_opts P = p_opts P' ->
  compiledTimes P k f out -> compiledTimes P' k' f out' ->
  exists css map map', out = css ++ mapComment map /\ out' = css ++ mapComment map'.
Proof.
  intros E1 E2 (c & n & m & ss & L & ss1 & t & H1 & H2 & H3 & H4) (c' & n' & m' & ss' & L' & ss1' & t' & H1' & H2' & H3' & H4').
  rewrite E1 in H1. rewrite H1 in H1'. inversion H1'; subst c'. rewrite E2 in H3.
  assert (X : parse 0 n c = parse 0 n' c) by (apply ParseMono.parse_agree; congruence). rewrite H2, H2' in X. inversion X; subst ss' L'.
  assert (ss1' = ss1) by (eapply transform_agree; eauto). subst ss1'.
  destruct (C19_lemma _ _ _ H4) as (css & pay & _ & Pn & -> & _). destruct (C19_lemma _ _ _ H4') as (css' & pay' & _ & Pn' & -> & _).
  rewrite Pn in Pn'. inversion Pn'; subst css'. eauto.
Qed.
Lemma C43_lemma {U : UnicodeDigits} {FO : FloatOps} P entries' : o_imports (p_opts P) <> ImportInline ->
  let P' := mkProject entries' (p_abs P) (p_read P) (p_resolve P) (p_opts P) in
  forall g fs g' fs', reachApart P (g, Finished fs) -> reachApart P' (g', Finished fs') ->
  forall p out out', lookup p fs = Some out -> lookup p fs' = Some out' ->
  exists css map map', out = css ++ mapComment map /\ out' = css ++ mapComment map'.
Proof.
  intros N P' g fs g' fs' H H' p out out' L L'. destruct (C35_lemma P N _ _ H) as (_ & S1 & _). destruct (C35_lemma P' N _ _ H') as (_ & S1' & _).
  destruct (S1 _ _ L) as (_ & k & T). destruct (S1' _ _ L') as (_ & k' & T'). eapply (times_same P P'); eauto.
Qed.
