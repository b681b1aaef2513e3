(** C57: compiling an output again changes only the source map. *)
From Verif Require Import Bytes Utf8 Source Lexer Ast AstInd BytesFacts Parser ParserSpec ParseResults ParseTable Printer PrinterSpec PrinterProofs MapProofs Strip PrintStrip RoundSpec RoundSheet RoundTrip RoundMap
  Transformer TransSpec TransProofs TransInline TransDefs TransRerun StripTrans Resolver Compile CompileSpec CompileOne CompileMany InlineSpec InlineRefs InlineProofs
  OutputSpec OutputProofs OutputRead TwiceSpec TwiceProofs TwiceFiles AgainSpec.

(** * Transforming tidied rules *)
Lemma isWs_set name p : isSpace (setPseudo name p) = isSpace p.
Proof. unfold setPseudo. destruct (isAnyLink p) eqn:E; [|reflexivity]. destruct p; try discriminate. reflexivity. Qed.
Lemma trim_cases ps : (exists sp r, ps = r ++ [SWhitespace sp] /\ trimParts ps = r) \/ trimParts ps = ps /\ forall sp r, ps <> r ++ [SWhitespace sp].
Proof.
  unfold trimParts. destruct (rev ps) as [|q r] eqn:E.
  - right. split; [reflexivity|]. intros sp r ->. rewrite rev_app_distr in E. discriminate.
  - assert (Ep : ps = rev r ++ [q]) by (rewrite <- (rev_involutive ps), E; reflexivity).
    destruct (isSpace q) eqn:Q. { destruct q; try discriminate. left. eauto. }
    right. assert (N : forall sp r0, ps <> r0 ++ [SWhitespace sp]). { intros sp r0 ->. apply app_inj_tail in Ep as [_ <-]. discriminate. }
    destruct q; try discriminate; auto.
Qed.
Lemma trim_map f ps : (forall p, isSpace (f p) = isSpace p) -> trimParts (map f ps) = map f (trimParts ps).
Proof.
  intros Hf. destruct (trim_cases ps) as [(sp & r & -> & ->)|[-> N]].
  - rewrite map_app. cbn [map]. specialize (Hf (SWhitespace sp)). destruct (f (SWhitespace sp)); try discriminate. unfold trimParts. rewrite rev_app_distr. cbn. apply rev_involutive.
  - destruct (trim_cases (map f ps)) as [(sp & r & E & _)|[-> _]]; [|reflexivity]. exfalso. apply map_eq_app in E as (l1 & l2 & E & E1 & E2). destruct l2 as [|q [|]]; try discriminate.
    injection E2 as E2. specialize (Hf q). rewrite E2 in Hf. destruct q; try discriminate. eapply N. exact E.
Qed.
Lemma any_tidy p : isAnyLink (tidyPart p) = isAnyLink p. Proof. destruct p; reflexivity. Qed.
Lemma root_tidy p : isRootPseudo (tidyPart p) = isRootPseudo p. Proof. destruct p; reflexivity. Qed.
Lemma space_tidy p : isSpace (tidyPart p) = isSpace p. Proof. destruct p; reflexivity. Qed.
Lemma set_tidy name p : setPseudo name (tidyPart p) = tidyPart (setPseudo name p).
Proof. unfold setPseudo. rewrite any_tidy. destruct (isAnyLink p); reflexivity. Qed.
Lemma count_trim ps : length (filter isAnyLink (trimParts ps)) = length (filter isAnyLink ps).
Proof. destruct (trim_cases ps) as [(sp & r & -> & ->)|[-> _]]; [|reflexivity]. rewrite filter_app. cbn. rewrite app_nil_r. reflexivity. Qed.
Lemma count_tidy ps : length (filter isAnyLink (map tidyPart ps)) = length (filter isAnyLink ps).
Proof. induction ps as [|p r IH]; [reflexivity|]. cbn [map filter]. rewrite any_tidy. destruct (isAnyLink p); cbn; rewrite IH; reflexivity. Qed.
Lemma selectors_tidy o sels : transformSelectors o (map tidySelector sels) = map tidySelector (transformSelectors o sels).
Proof.
  unfold transformSelectors. destruct (o_anylink o); [|reflexivity]. induction sels as [|[sp parts] r IH]; [reflexivity|]. cbn [map flat_map]. rewrite IH, map_app. f_equal.
  unfold transformSelector, tidySelector. cbn [fst snd]. rewrite map_app, map_repeat. cbn [map fst snd].
  assert (M : forall name, map (setPseudo name) (trimParts (map tidyPart parts)) = trimParts (map tidyPart (map (setPseudo name) parts))).
  { intros name. rewrite <- trim_map by apply isWs_set. f_equal. rewrite !map_map. apply map_ext. intros p. apply set_tidy. }
  rewrite count_trim, count_tidy, !M. reflexivity.
Qed.
Lemma scanned_tidy sp sp' sels : forallb okSelector sels = true -> scanned (PrSel (sp', map tidySelector sels)) = true -> scanned (PrSel (sp, sels)) = true.
Proof.
  intros Ok. unfold scanned. intros H. apply andb_prop in H as [H1 H2]. apply andb_true_intro. split.
  - clear H2. induction sels as [|[s parts] r IH]; [exact H1|]. cbn [forallb] in Ok. apply andb_prop in Ok as [O1 O2]. cbn [map existsb] in *. apply orb_prop in H1 as [H1|H1]; apply orb_true_iff; [left|right; auto].
    cbn [tidySelector snd] in *. destruct parts as [|p [|q parts]]; try reflexivity. exfalso.
    unfold okSelector in O1. cbn [snd] in O1. destruct p; cbn in O1, H1; discriminate.
  - clear H1. destruct sels as [|[s parts] r]; [discriminate|]. cbn [forallb] in Ok. apply andb_prop in Ok as [O1 _]. cbn [map tidySelector fst snd] in H2.
    destruct parts as [|p parts]; [discriminate|]. unfold okSelector in O1. cbn [snd] in O1. destruct (trim_cases (map tidyPart (p :: parts))) as [(sp1 & l & E & E1)|[E1 _]]; rewrite E1 in H2.
    + cbn [map] in E. destruct l as [|q l]; [discriminate|]. injection E as E _. rewrite <- E, root_tidy in H2. exact H2.
    + cbn [map] in H2. rewrite root_tidy in H2. exact H2.
Qed.

Section WithFloats.
Context {FO : FloatOps}.
Variable o : topts.
Lemma scan_id pr ds t : (forall sp sels, pr = PrSel (sp, sels) -> forallb okSelector sels = true) -> (vis t = true -> scanned pr = true -> Forall notDef ds) -> scanRoot pr ds t = TOk ds t.
Proof.
  intros Ok N. unfold scanRoot, scanned in *. destruct pr as [|[sp sels]|]; try reflexivity. destruct (existsb _ sels); [|reflexivity]. destruct sels as [|[s [|p parts]] r]; try reflexivity.
  - specialize (Ok _ _ eq_refl). discriminate.
  - destruct (isRootPseudo p); [|reflexivity]. apply collect_id. intros V. apply N; auto.
Qed.
Lemma scan_id' sp sels ds t : forallb okSelector sels = true -> (vis t = true -> scanned (PrSel (sp, map tidySelector sels)) = true -> Forall notDef ds) ->
  scanRoot (PrSel (sp, map tidySelector sels)) ds t = TOk ds t.
Proof.
  intros Ok N. unfold scanRoot, scanned in *. destruct (existsb _ (map tidySelector sels)); [|reflexivity]. destruct sels as [|[s parts] r]; [reflexivity|]. cbn [forallb] in Ok. apply andb_prop in Ok as [O1 _].
  cbn [map tidySelector fst snd] in *. unfold okSelector in O1. destruct (trimParts (map tidyPart parts)) as [|q l] eqn:E.
  - exfalso. destruct parts as [|p parts]; [discriminate|]. cbn [snd] in O1. destruct (trim_cases (map tidyPart (p :: parts))) as [(sp1 & l & E0 & E1)|[E1 _]]; rewrite E1 in E; [subst l|discriminate].
    cbn in E0. injection E0 as E0 _. destruct p; discriminate.
  - destruct (isRootPseudo q); [|reflexivity]. apply collect_id. intros V. apply N; auto.
Qed.
Lemma tidy_rule n r t t' : okRule r = true -> transformRule o n r t = TOk (Some r) t' -> transformRule o n (tidyRule r) t = TOk (Some (tidyRule r)) t'.
Proof.
  intros Ok H. pose proof (rule_bare _ _ _ _ _ _ H) as [_ Hb]. cbn [bare] in Hb. unfold okRule in Ok. unfold transformRule in *. destruct (r_prelude r) as [|[lsp sels]|] eqn:Ep; try discriminate.
  apply andb_prop in Ok as [Ok _]. apply andb_prop in Ok as [_ Ok].
  rewrite (tbind_step _ _ _ _ _ _ _ (scan_id (PrSel (lsp, sels)) (r_decls r) t ltac:(intros ? ? [= <- <-]; exact Ok) Hb)) in H.
  apply tbind_ok in H as (ds & t1 & H1 & H). cbn [tidyRule r_prelude r_decls r_run r_sp r_bsp]. rewrite Ep.
  rewrite (tbind_step _ _ _ _ _ _ _ (scan_id' lsp sels (r_decls r) t Ok ltac:(intros V Sc; apply Hb; [exact V|]; eapply scanned_tidy; eauto))).
  rewrite (tbind_step _ _ _ _ _ _ _ H1). destruct ds as [|d ds]; [discriminate|]. apply tret_ok in H as [H <-]. injection H as H.
  rewrite selectors_tidy. destruct r as [run sp pre bsp rds]. cbn [r_prelude r_decls r_run r_sp r_bsp] in *. subst pre. injection H as E1 E2. rewrite E1. unfold tret, tidyRule. cbn. rewrite E2. reflexivity.
Qed.
Lemma tidy_still n nd : writable nd = true -> isImport nd = false -> stillNode o n nd -> stillNode o n (tidyNode nd).
Proof.
  intros Ok Ni H m t Bt _. destruct (H m t Bt ltac:(rewrite Ni; discriminate)) as (t' & E & K). exists t'. split; [|exact K]. destruct nd as [r|a].
  - cbn [oneNode tidyNode] in *. apply tbind_ok in E as (r' & t1 & E1 & E). apply tret_ok in E as [E <-]. destruct r' as [r'|]; [|discriminate]. injection E as ->.
    rewrite (tbind_step _ _ _ _ _ _ _ (tidy_rule _ _ _ _ Ok E1)). reflexivity.
  - cbn [isImport] in Ni. cbn [oneNode tidyNode ar_name ar_preludes ar_run ar_sp ar_block] in *. rewrite Ni in *. destruct (beq (ar_name a) (B "custom-media")).
    { apply tbind_ok in E as (u & t1 & _ & E). apply tret_ok in E as [E _]. discriminate. }
    destruct (beq (ar_name a) (B "media")); [|apply tret_ok in E as [_ <-]; reflexivity].
    destruct (ar_preludes a) as [|[| |[lsp qs]| |] pres] eqn:Ep; try discriminate. apply tbind_ok in E as (qs' & t1 & E1 & E). apply tret_ok in E as [E <-].
    rewrite (tbind_step _ _ _ _ _ _ _ E1). destruct a as [run sp nm pre bl]. cbn [ar_name ar_preludes ar_run ar_sp ar_block] in *. subst pre. injection E as E. rewrite E. reflexivity.
Qed.
Definition noImport (ns : list node) : Prop := Forall (fun nd => isImport nd = false) ns.
Lemma none_some n : forall ns t, noImport ns -> transformNodes o None n ns t = transformNodes o (Some []) n ns t.
Proof.
  destruct n as [|n]; [reflexivity|]. intros ns t H. revert t. induction H as [|nd r Hn _ IH]; intros t; [reflexivity|]. rewrite !nodes_cons. unfold tbind.
  assert (E : oneNode o None n nd t = oneNode o (Some []) n nd t). { destruct nd as [r0|a]; [reflexivity|]. cbn [isImport] in Hn. cbn [oneNode]. rewrite Hn. reflexivity. }
  rewrite E. destruct (oneNode o (Some []) n nd t); [rewrite IH|..]; reflexivity.
Qed.
Lemma ce_nodes repl n : forall ns, noImport ns -> ce (map stripNode) (transformNodes o repl n ns) (transformNodes o repl n (map stripNode ns)).
Proof.
  destruct n as [|n]; [intros; apply ce_timeout|]. induction 1 as [|nd r Hn _ IH]; [cbn [map]; apply ce_ret; reflexivity|]. cbn [map]. intros t. rewrite !nodes_cons. revert t.
  apply (ce_bind (map stripNode)); [apply ce_node; exact Hn|]. intros h. apply (ce_bind (map stripNode)); [exact IH|]. intros rs. apply ce_ret. apply map_app.
Qed.
Lemma none_keeps n : forall ns t out t', transformNodes o None n ns t = TOk out t' -> noImport out -> noImport ns.
Proof.
  destruct n as [|n]; [discriminate|]. induction ns as [|nd r IH]; intros t out t' H N; [constructor|]. rewrite nodes_cons in H. apply tbind_ok in H as (h & t1 & H1 & H). apply tbind_ok in H as (rs & t2 & H2 & H).
  apply tret_ok in H as [<- _]. apply Forall_app in N as [N1 N2]. constructor; [|eapply IH; eauto]. destruct (isImport nd) eqn:E; [|reflexivity]. destruct nd as [r0|a]; [discriminate|].
  cbn [isImport] in E. cbn [oneNode] in H1. rewrite E in H1. apply tret_ok in H1 as [<- _]. inversion N1 as [|? ? X _]; subst. cbn [isImport] in X. congruence.
Qed.
Lemma import_strip nd : isImport (stripNode nd) = isImport nd. Proof. destruct nd; reflexivity. Qed.
Lemma import_tidy nd : isImport (tidyNode nd) = isImport nd. Proof. destruct nd; reflexivity. Qed.
Lemma noImport_map f ns : (forall nd, isImport (f nd) = isImport nd) -> noImport (map f ns) <-> noImport ns.
Proof. intros H. unfold noImport. rewrite Forall_map. split; apply Forall_impl; intros nd; rewrite H; auto. Qed.
Lemma stripT_init repl : stripT (initState o repl) = initState o repl.
Proof. unfold stripT, initState. cbn. destruct (o_props o), (o_cmedia o), repl, (o_imports o); reflexivity. Qed.

(** Transforming what was read back. *)
Lemma again ns xs repl k : (repl = None \/ repl = Some []) -> forallb writable ns = true -> noImport ns -> Forall (stillNode o k) ns -> strip xs = strip (tidy ns) ->
  exists m xs' t', transformNodes o repl m xs (initState o repl) = TOk xs' t' /\ strip xs' = strip (tidy ns).
Proof.
  intros Rp Ok Ni St E. assert (Nt : noImport (tidy ns)) by (apply noImport_map; [exact import_tidy|exact Ni]).
  assert (Nx : noImport xs). { apply (noImport_map stripNode); [exact import_strip|]. fold (strip xs). rewrite E. apply noImport_map; [exact import_strip|exact Nt]. }
  assert (Stt : Forall (stillNode o k) (tidy ns)).
  { unfold tidy. rewrite Forall_map. rewrite Forall_forall in *. intros nd J. apply tidy_still; auto. rewrite forallb_forall in Ok. auto. unfold noImport in Ni. rewrite Forall_forall in Ni. auto. }
  destruct (nodes_again o [] k (tidy ns) (initState o repl) Stt) as (t1 & E1 & _).
  { eapply Forall_impl; [|exact Nt]. cbn. intros nd H X. congruence. }
  { split; destruct Rp as [->| ->]; reflexivity. }
  assert (E2 : transformNodes o repl (S k) (tidy ns) (initState o repl) = TOk (tidy ns) t1). { destruct Rp as [->| ->]; [rewrite none_some by exact Nt|]; exact E1. }
  pose proof (ce_nodes repl (S k) (tidy ns) Nt (initState o repl)) as C1. rewrite E2, stripT_init in C1. cbn [mapTS] in C1. fold (strip (tidy ns)) in C1. rewrite <- E in C1.
  pose proof (ce_nodes repl (S k) xs Nx (initState o repl)) as C2. rewrite stripT_init in C2. fold (strip xs) in C2. rewrite C2 in C1.
  destruct (transformNodes o repl (S k) xs (initState o repl)) as [xs' t'| |] eqn:E3; try discriminate. injection C1 as C1 _. exists (S k), xs', t'. split; [exact E3|]. exact (eq_trans C1 E).
Qed.
End WithFloats.

(** * Reading an output *)
Lemma map_eq_Forall2 {A C D} (f : A -> D) (g : C -> D) xs : forall ys, map f xs = map g ys -> Forall2 (fun x y => f x = g y) xs ys.
Proof. induction xs as [|x xs IH]; intros [|y ys] H; try discriminate; constructor; [|apply IH]; injection H; auto. Qed.
Lemma import_target x nd : writable nd = true -> isImport nd = true -> stripNode x = stripNode (tidyNode nd) -> importOf x <> [].
Proof.
  destruct nd as [r|a]; [discriminate|]. destruct x as [r|b]; [discriminate|]. cbn [isImport writable]. intros Ok Ni E. unfold okAtRule in Ok. rewrite Ni in Ok. injection E as En Ep _. cbn [importOf].
  cbn [tidyNode ar_name ar_preludes] in En, Ep. rewrite En, Ni. destruct (ar_preludes a) as [|[sp s| | | |] pres]; try discriminate. destruct (ar_preludes b) as [|[| | | |] ?]; discriminate.
Qed.
Section WithUnicode.
Context {U : UnicodeDigits} {FO : FloatOps}.
Lemma reread s ns out : forallb plainSource ns = true -> print (Some s) ns = Some out -> importless out ->
  exists ss lines n, parse 0 n out = ParseOk ss lines /\ strip (ss_nodes ss) = strip (tidy ns) /\ noImport ns /\ ss_imports ss = [].
Proof.
  intros Pl Pr Il. destruct (printed_reads s ns out Pl Pr 0%nat) as (ss & lines & n & Hp & E). specialize (Hp n (le_n n)). exists ss, lines, n. pose proof (Il _ _ _ _ Hp) as Em.
  repeat split; auto. destruct (C14_lemma _ _ _ _ _ Hp) as [Ef _]. rewrite Em in Ef. apply plain_writable in Pl. rewrite forallb_forall in Pl.
  unfold tidy, strip in E. rewrite map_map in E. apply map_eq_Forall2 in E. clear - E Ef Pl. unfold noImport. induction E as [|x nd xs ns Ex _ IH]; constructor.
  - destruct (isImport nd) eqn:Ei; [|reflexivity]. exfalso. apply (import_target x nd); auto; [apply Pl; left; reflexivity|]. cbn [flat_map] in Ef. destruct (importOf x); [reflexivity|discriminate].
  - apply IH; [intros y J; apply Pl; right; exact J|]. cbn [flat_map] in Ef. destruct (importOf x); [exact Ef|discriminate].
Qed.
Lemma again_out o repl k s ns out path : (repl = None \/ repl = Some []) -> forallb plainSource ns = true -> print (Some s) ns = Some out -> importless out -> (noImport ns -> Forall (stillNode o k) ns) ->
  exists ss lines n m ss' t out', parse 0 n out = ParseOk ss lines /\ ss_imports ss = [] /\ transform o repl m ss = TOk ss' t /\
    print (Some (mkSource path out lines)) (ss_nodes ss') = Some out' /\ sameText out out'.
Proof.
  intros Rp Pl Pr Il St. destruct (reread s ns out Pl Pr Il) as (ss & lines & n & Hp & E & Ni & Em).
  destruct (again o ns (ss_nodes ss) repl k Rp (plain_writable _ Pl) Ni (St Ni) E) as (m & xs' & t' & T & E').
  destruct (print_text s ns out Pr) as (css & mp & Pc & Eo).
  assert (Pc' : print None xs' = Some css). { rewrite <- print_strip, E', print_strip, print_tidy by (apply plain_writable; exact Pl). exact Pc. }
  pose proof (parse_table out 0%nat n) as Tb. rewrite Hp in Tb. destruct Tb as [Hd _].
  destruct (print_total (mkSource path out lines) xs' css Hd Pc') as (out' & Po). destruct (print_text _ _ _ Po) as (css' & mp' & Pc2 & Eo'). assert (css' = css) by congruence. subst css'.
  exists ss, lines, n, m, (mkSheet xs' (ss_imports ss)), t', out'. split; [exact Hp|]. split; [exact Em|]. split; [unfold transform; rewrite T; reflexivity|]. split; [exact Po|]. unfold sameText. eauto.
Qed.
Lemma leads_first (P : project) f g : leads P f g -> exists h, edge P f h.
Proof. induction 1; eauto. Qed.
Lemma importless_alone P' p' out : p_read P' p' = Some out -> importless out -> forall g, ~ leads P' p' g.
Proof.
  intros R Il g L. apply leads_first in L as (h & spec & rel & (content & run & n & ss & lines & R' & Hp & J) & _). assert (content = out) by congruence. subst content. rewrite (Il _ _ _ _ Hp) in J. exact J.
Qed.
Variable P P' : project.
Variable e' p' out : bytes.
Hypothesis C : compiles P P' e' p' out.
Hypothesis Dc : decimals (p_opts P).
Hypothesis Il : importless out.
Notation o := (p_opts P).
(** The second run, imports not inlined. *)
Lemma second_plain s ns k g' fs' : o_imports o = ImportPassthrough -> forallb plainSource ns = true -> print (Some s) ns = Some out -> (noImport ns -> Forall (stillNode o k) ns) ->
  reach P' (g', Finished fs') -> exists out', lookup p' fs' = Some out' /\ sameText out out'.
Proof.
  intros Im Pl Pr St R. destruct C as (Co & Ce & Ca & Cr). destruct (again_out o None k s ns out p' (or_introl eq_refl) Pl Pr Il St) as (ss & lines & n & m & ss' & t & out' & Hp & _ & T & Po & Sm).
  exists out'. split; [|exact Sm]. eapply (C36_lemma P' e' Ce); [rewrite Co; exact Im| |exact R|].
  - intros a Ea. assert (a = p') by congruence. subst a. apply (importless_alone P' p' out); auto.
  - split; [exact Ca|]. exists out, n, m, ss, lines, ss', t. rewrite Co. auto.
Qed.
Lemma second_inline s ns k g' fs' : o_imports o = ImportInline -> forallb plainSource ns = true -> print (Some s) ns = Some out -> (noImport ns -> Forall (stillNode o k) ns) ->
  reach P' (g', Finished fs') -> exists out', lookup p' fs' = Some out' /\ sameText out out'.
Proof.
  intros Im Pl Pr St R. destruct C as (Co & Ce & Ca & Cr). destruct (again_out o (Some []) k s ns out p' (or_intror eq_refl) Pl Pr Il St) as (ss & lines & n & m & ss' & t & out' & Hp & Em & T & Po & Sm).
  exists out'. split; [|exact Sm]. eapply (C53_lemma P'); [rewrite Co; exact Im| |exact Ce|exact R|].
  - intros f (e0 & a0 & J & Ha & Hf). rewrite Ce in J. destruct J as [<-|[]]. assert (a0 = p') by congruence. subst a0. pose proof (importless_alone P' p' out Cr Il) as N.
    destruct Hf as [->|Hf]; [|exfalso; eapply N; exact Hf]. split; [apply N|]. intros content run n0 ss0 lines0 R0 Hp0. assert (content = out) by congruence. subst. rewrite (Il _ _ _ _ Hp0). cbn. lia.
  - split; [exact Ca|]. exists out, n, ss, lines, (ss_nodes ss'). split; [exact Cr|]. split; [exact Hp|]. split; [|exact Po].
    eapply inRules; [exact Cr|exact Hp|rewrite Em; apply rpNone|rewrite Co; exact T].
Qed.
Lemma first_plain ns content n ss lines m p ss' t : p_read P p = Some content -> parse 0 n content = ParseOk ss lines -> transform o None m ss = TOk ss' t -> settledRules P p ->
  ns = ss_nodes ss' -> exists k, noImport ns -> Forall (stillNode o k) ns.
Proof.
  intros R Hp T Sr ->. exists (pred m). intros Ni. unfold transform in T. destruct (transformNodes o None m (ss_nodes ss) (initState o None)) as [xs u| |] eqn:E; try discriminate. injection T as <- <-. cbn [ss_nodes] in *.
  pose proof (none_keeps o _ _ _ _ _ E Ni) as Nx. rewrite none_some in E by exact Nx. destruct m as [|m]; [discriminate|]. cbn [pred].
  eapply nodes_still; [exact E|eapply Sr; eauto| |apply init_held]. eapply Forall_impl; [|exact Nx]. cbn. intros nd H X. congruence.
Qed.
Lemma C57_one_lemma e p g fs g' fs' : p_entries P = [e] -> o_imports o = ImportPassthrough -> (forall a, p_abs P e = Some a -> ~ leads P a a) -> plainFile P p -> settledRules P p ->
  reach P (g, Finished fs) -> lookup p fs = Some out -> reach P' (g', Finished fs') -> exists out', lookup p' fs' = Some out' /\ sameText out out'.
Proof.
  intros Ee Im Nl Pf Sr R L R'. apply (C36_lemma P e Ee Im Nl g fs R) in L as [_ (content & n & m & ss & lines & ss' & t & Rd & Hp & T & Pr)].
  destruct (first_plain _ _ _ _ _ _ _ _ _ Rd Hp T Sr eq_refl) as (k & St). eapply (second_plain _ (ss_nodes ss') k); [exact Im| |exact Pr|exact St|exact R']. eapply transform_keeps; [exact Dc| |eapply Pf; eauto|exact T]. discriminate.
Qed.
Lemma C57_many_lemma p g fs g' fs' : o_imports o = ImportPassthrough -> plainFile P p -> settledRules P p ->
  reachApart P (g, Finished fs) -> lookup p fs = Some out -> reach P' (g', Finished fs') -> exists out', lookup p' fs' = Some out' /\ sameText out out'.
Proof.
  intros Im Pf Sr R L R'. destruct (C35_positive_lemma P ltac:(rewrite Im; discriminate) g fs R) as (_ & X & _). destruct (X p out L) as [_ [k (content & n & m & ss & lines & ss' & t & Rd & Hp & T & Pr)]].
  destruct (first_plain _ _ _ _ _ _ _ _ _ Rd Hp T Sr eq_refl) as (j & St). eapply (second_plain _ (ss_nodes ss') j); [exact Im| |exact Pr|exact St|exact R']. eapply transform_keeps; [exact Dc| |eapply Pf; eauto|exact T]. discriminate.
Qed.
Lemma C57_inline_lemma e p g fs g' fs' : p_entries P = [e] -> o_imports o = ImportInline -> oneImportEach P -> (forall f, involved P f -> plainFile P f) -> settledChain P p ->
  reach P (g, Finished fs) -> lookup p fs = Some out -> reach P' (g', Finished fs') -> exists out', lookup p' fs' = Some out' /\ sameText out out'.
Proof.
  intros Ee Im One Pf Sc R L R'. apply (C53_lemma P Im One e Ee g fs R) in L as [Ea (content & n & ss & lines & nds & Rd & Hp & In_ & Pr)].
  pose proof (proj1 (settled_still P) _ _ _ In_ Sc) as (k & St). eapply (second_inline _ nds k); [exact Im| |exact Pr|intros _; exact St|exact R'].
  eapply (proj1 (inlined_plain P Dc Pf)); eauto. exists e, p. rewrite Ee. split; [left; reflexivity|auto].
Qed.
End WithUnicode.
