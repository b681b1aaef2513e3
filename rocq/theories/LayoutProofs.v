(** White space and comments added or taken away (C61). *)
From Verif Require Import Bytes Utf8 Source Lexer BytesFacts LexSpec Ast AstInd Printer Parser ParserSpec ParseMono ParseResults ParseTable PrinterSpec PrinterProofs Strip PrintStrip
  Transformer TransSpec TransProofs TransRerun TransInline StripTrans Resolver Compile CompileSpec CompileOne
  ReadSpec LexStreamSpec LexGrammar LexCut ReadProofs FullValue LexStream JoinSpec JoinLex JoinTokens JoinRead JoinProofs MapProofs AgainSpec AgainProofs LayoutSpec LayoutSwap LayoutTokens LayoutLoose.

(** * Layout in characters *)
Lemma decode_snoc s z : s <> [] -> bz z < 128 -> decodeRune (s ++ [z]) = decodeRune s.
Proof.
  intros N L.
  assert (NC : isCont (bz z) = false) by (unfold isCont; destruct (Z.leb_spec 128 (bz z)); [lia|reflexivity]).
  assert (LO : forall b, (if b =? 224 then 160 else if b =? 240 then 144 else 128) <=? bz z = false).
  { intros b. destruct (b =? 224), (b =? 240); apply Z.leb_gt; lia. }
  destruct s as [|c0 [|c1 [|c2 [|c3 s0]]]]; [contradiction|..]; cbn [app decodeRune].
  - rewrite NC, LO. cbn [andb negb].
    destruct (bz c0 <? 128), ((bz c0 <? 194) || (244 <? bz c0)), (bz c0 <? 224); reflexivity.
  - rewrite NC. cbn [negb].
    destruct (bz c0 <? 128), ((bz c0 <? 194) || (244 <? bz c0)), (bz c0 <? 224); try reflexivity;
    match goal with |- context [if negb ?x then _ else _] => destruct x end; reflexivity.
  - rewrite NC. cbn [negb].
    destruct (bz c0 <? 128), ((bz c0 <? 194) || (244 <? bz c0)), (bz c0 <? 224); try reflexivity;
    repeat match goal with |- context [if negb ?x then _ else _] => destruct x end; reflexivity.
  - reflexivity.
Qed.
Lemma cuts_one z w cs : bz z < 128 -> bz z <> 13 -> cuts w cs -> cuts (z :: w) ((bz z, [z]) :: cs).
Proof.
  intros L N C. change [z] with (firstn 1 (z :: w)). apply cutPlain; [discriminate|apply decodeRune_ascii, L|exact N|exact C].
Qed.
Lemma cuts_snoc s cs : cuts s cs -> ~ In CR s -> forall z, bz z < 128 -> bz z <> 13 -> cuts (s ++ [z]) (cs ++ [(bz z, [z])]).
Proof.
  induction 1 as [|s c n cs Hs E Nc H IH|s c n cs E H IH]; intros NI z L N.
  - apply cuts_one; auto. constructor.
  - pose proof (JoinLex.decode_width _ _ _ E Hs) as W. cbn [app].
    replace (firstn n s) with (firstn n (s ++ [z])) by (rewrite firstn_app; replace (n - length s)%nat with 0%nat by lia; cbn; apply app_nil_r).
    apply cutPlain; auto; [destruct s; discriminate|rewrite decode_snoc; auto|].
    rewrite skipn_app. replace (n - length s)%nat with 0%nat by lia. cbn [skipn]. apply IH; auto.
    intros J. apply NI. rewrite <- (firstn_skipn n s). apply in_or_app. auto.
  - destruct NI. left. reflexivity.
Qed.
(** Without carriage returns a low character is one byte. *)
Lemma cuts_byte s cs : cuts s cs -> ~ In CR s -> forall c b, In c cs -> is b c -> bz b < 128 -> snd c = [b].
Proof.
  induction 1 as [|s c n cs Hs E Nc H IH|s c n cs E H IH]; intros NI d b J Hd L; [destruct J| |].
  - destruct J as [<-|J].
    + unfold is in Hd. cbn [fst snd] in *. subst c. apply decodeRune_low in E as (b' & s' & -> & Eb & ->); auto. cbn. f_equal. symmetry. apply bz_inj. exact Eb.
    + eapply IH; eauto. intros J'. apply NI. rewrite <- (firstn_skipn n s). apply in_or_app. auto.
  - destruct NI. left. reflexivity.
Qed.
Section WithUnicode.
Context {U : UnicodeDigits}.
Lemma comment_lexed body r : noClose body -> ~ In CR body ->
  exists t, cuts (B "/*" ++ body ++ B "*/") t /\ lexed t r Comment (PlStr body).
Proof.
  intros Nc Ni. pose proof (cuts_chars body) as C.
  assert (C1 := cuts_snoc _ _ C Ni "*"%byte eq_refl ltac:(vm_compute; discriminate)).
  assert (Ni1 : ~ In CR (body ++ ["*"%byte])) by (intros J; apply in_app_or in J as [J|[J|[]]]; [auto|discriminate]).
  assert (C2 := cuts_snoc _ _ C1 Ni1 "/"%byte eq_refl ltac:(vm_compute; discriminate)).
  set (c := (bz "/", ["/"%byte])) in *. set (x := (bz "*", ["*"%byte])) in *.
  exists (c :: x :: chars body ++ [x; c]). split.
  - change (B "/*" ++ body ++ B "*/") with ("/"%byte :: "*"%byte :: body ++ ["*"%byte] ++ ["/"%byte]).
    apply cuts_one; [reflexivity|vm_compute; discriminate|]. apply cuts_one; [reflexivity|vm_compute; discriminate|].
    change ([x; c]) with ([x] ++ [c]). rewrite !app_assoc. exact C2.
  - replace body with (flat (chars body)) at 2 by apply flat_chars.
    apply lxComment; try reflexivity.
    + apply opComment; [reflexivity|]. exists x, (chars body ++ x :: c :: r). split; [reflexivity|]. split; [reflexivity|]. intros u. discriminate.
    + intros (a & x' & y' & b & E0 & Hx & Hy). assert (E : chars body ++ [x] = a ++ x' :: y' :: b) by exact E0. clear E0.
      assert (Jx : In x' (chars body ++ [x])) by (rewrite E; apply in_or_app; right; left; reflexivity).
      assert (Jy : In y' (chars body ++ [x])) by (rewrite E; apply in_or_app; right; right; left; reflexivity).
      pose proof (cuts_byte _ _ C1 Ni1 _ _ Jx Hx eq_refl) as Ex. pose proof (cuts_byte _ _ C1 Ni1 _ _ Jy Hy eq_refl) as Ey.
      apply (Nc (flat a) (flat b)). change (B "*") with ["*"%byte]. rewrite <- (cuts_flat _ _ C1), E, flat_app.
      unfold flat at 2. cbn [map concat]. rewrite Ex, Ey. reflexivity.
Qed.
Lemma layout_skips w : layout w -> exists g o, cuts w g /\ skips false false g [] o.
Proof.
  induction 1 as [|b w Hb H IH|w H IH|body w Nc Ni H IH].
  - exists [], None. split; constructor.
  - destruct IH as (g & o & C & Sk). exists ((bz b, [b]) :: g), o. split.
    + destruct Hb as [->|[->| ->]]; (apply cuts_one; [reflexivity|vm_compute; discriminate|exact C]).
    + apply spBlank; auto. destruct Hb as [->|[->| ->]]; [left|right; left|right; right]; reflexivity.
  - destruct IH as (g & o & C & Sk). exists ((bz LF, [CR; LF]) :: g), o. split.
    + change [CR; LF] with (CR :: firstn 1 (LF :: w)). apply cutFold; [reflexivity|exact C].
    + apply spBlank; auto. right. right. reflexivity.
  - destruct IH as (g & o & C & Sk). destruct (comment_lexed body (g ++ []) Nc Ni) as (t & Ct & Lt). eexists (t ++ g), _. split.
    + replace (B "/*" ++ body ++ B "*/" ++ w) with ((B "/*" ++ body ++ B "*/") ++ w) by (rewrite <- !app_assoc; reflexivity).
      apply cuts_more; auto. right. exists (B "/*" ++ body ++ B "*"), "/"%byte. split; [rewrite <- !app_assoc; reflexivity|]. vm_compute. split; congruence.
    + apply spComment; [reflexivity|exact Lt|exact Sk].
Qed.
Lemma layout_tokens w : layout w -> tokenized w [].
Proof.
  intros H. destruct (layout_skips _ H) as (g & o & C & Sk). split; [|exact Logic.I]. eapply scEnd. exists g, [], [].
  cbn [app skipn]. rewrite app_nil_r. split; [exact C|]. split; [exact Sk|]. split; [constructor|]. split; [split; discriminate|]. split; reflexivity.
Qed.

(** * Trees *)
Local Existing Instance noLiberties.
Lemma punct_stop x : punctuation (k_tok x) -> stopTok x.
Proof.
  unfold punctuation, stopTok. intros H. cbn in H. repeat (destruct H as [H|H]; [rewrite <- H|]); [..|destruct H]; eexists; cbn; eauto 12.
Qed.
Lemma chars_one b r : bz b < 128 -> b <> CR -> chars (b :: r) = (bz b, [b]) :: chars r.
Proof. intros L N. symmetry. apply cuts_fun, cuts_one; [exact L| |apply cuts_chars]. intros E. apply N, bz_inj. exact E. Qed.
Lemma chars_crlf r : chars (CR :: LF :: r) = (bz LF, [CR; LF]) :: chars r.
Proof. symmetry. apply cuts_fun. change [CR; LF] with (CR :: firstn 1 (LF :: r)). apply cutFold; [reflexivity|apply cuts_chars]. Qed.
Lemma apart_quiet v : apart v -> low v /\ exists c t, chars v = c :: t /\ quiet c.
Proof.
  intros [(b & r & -> & J)|(r & ->)].
  - cbn [In] in J. repeat (destruct J as [<-|J]; [split; [eexists _, r; split; [reflexivity|reflexivity]|]; eexists _, _; (split; [apply chars_one; [reflexivity|discriminate]|]);
      first [left; solve [left; left; reflexivity | left; right; left; reflexivity | left; right; right; reflexivity | right; reflexivity]
            |right; reflexivity]|]). destruct J.
  - split; [eexists _, _; split; reflexivity|]. eexists _, _. split; [apply chars_crlf|]. left. left. right. right. reflexivity.
Qed.
Lemma layout_gentle w v : layout w -> w <> [] -> low (w ++ v) /\ exists c t, chars (w ++ v) = c :: t /\ gentle c.
Proof.
  intros [|b w' Hb _|w' _|body w' _ _ _] N; [contradiction|..]; cbn [app].
  - destruct Hb as [->|[->| ->]]; (split; [eexists _, _; split; reflexivity|]); eexists _, _; (split; [apply chars_one; [reflexivity|discriminate]|]); left;
    [left|right; left|right; right]; reflexivity.
  - split; [eexists _, _; split; reflexivity|]. eexists _, _. split; [apply chars_crlf|]. left. right. right. reflexivity.
  - rewrite <- app_assoc. cbn [app]. split; [eexists _, _; split; reflexivity|]. eexists _, _. split; [apply (chars_one "/"%byte); [reflexivity|discriminate]|]. right. reflexivity.
Qed.
Lemma mvs_still n ts : Forall (fun x => k_tok x <> EOF -> (0 < upto x)%nat) ts -> mvs (spread n 0) ts ts.
Proof.
  induction 1 as [|x ts Hx F IH]; constructor; auto.
  - constructor; auto. unfold spread, from, upto. cbn [sh_from sh_upto]. destruct (k_sp x) as [a b]. cbn [sp_start sp_end]. destruct (a <? n)%nat, (b <=? n)%nat; reflexivity.
  - apply sameHead_same.
Qed.
Lemma room_spread u w v ts1 ts2 ts0 x : tokenized (u ++ v) (ts1 ++ ts2) -> match ts2 with y :: _ => k_kept y = false | [] => True end -> layout w -> v <> [] ->
  ts1 = ts0 ++ [x] -> upto x = length u ->
  (punctuation (k_tok x) \/
     (k_tok x <> Whitespace /\ ~ In "\"%byte (skipn (from x) u) /\ ~ In CR (skipn (from x) u) /\ apart v /\
      match ts2 with
      | y :: _ => In (k_tok y) [Delim; Ident] \/ ~ (k_tok x = Delim /\ saysImportant (k_str y) \/ k_tok x = Ident /\ In (k_str y) [B "^"; B "~"; B "$"; B "*"; B "|"])
      | [] => True
      end)) ->
  exists ts2', tokenized (u ++ w ++ v) (ts0 ++ x :: ts2') /\ mvs (spread (length u) (length w)) (ts0 ++ x :: ts2) (ts0 ++ x :: ts2').
Proof.
  intros T Kp Lw Nv -> Ux D. rewrite <- app_assoc in T. cbn [app] in T.
  pose proof T as [T0 _]. pose proof (scanned_long _ _ _ _ _ T0 ltac:(lia)) as Lg. pose proof (scanned_ordered _ _ _ _ _ T0 ltac:(lia)) as Or.
  destruct D as [Px|(Nw & Nb & Nc & Ap & Ny)].
  - destruct (tokenized_spread u w v Nv (layout_tokens _ Lw) ts0 x ts2 T (punct_stop _ Px) Ux Kp) as (ts2' & T' & M). eauto.
  - destruct w as [|b w'].
    + exists ts2. split; [exact T|]. apply mvs_still. eapply Forall_impl; [|exact Lg]. cbn. intros y Hy E. specialize (Hy E). lia.
    + assert (Nn : b :: w' <> []) by discriminate. set (w := b :: w') in *.
      destruct (apart_quiet _ Ap) as [V1 V2]. destruct (layout_gentle _ v Lw Nn) as [W1 W2].
      assert (Lx : (from x < length u)%nat).
      { apply Forall_app in Lg as [_ Lg]. inversion Lg as [|? ? L1 _]; subst. apply Forall_app in Or as [_ Or]. inversion Or as [|? ? (_ & _ & O3) _]; subst. rewrite <- Ux. apply L1.
        intros X. specialize (O3 X). rewrite Ux, app_length in O3. destruct v; [contradiction|cbn [length] in O3; lia]. }
      apply (tokenized_loose u w v Nv (layout_tokens _ Lw) V1 W1 V2 W2 (no_cr_uncut _ _ Lx Nc) (no_back_solid _ _ Lx Nb) ts0 x ts2); auto.
      destruct ts2 as [|y ts2]; [exact Logic.I|]. split; [exact Kp|]. destruct Ny as [Ny|Ny]; [left|right; exact Ny].
      cbn [In] in Ny. destruct Ny as [<-|[<-|[]]]; reflexivity.
Qed.
Lemma room_uncut u v ts : tokenized (u ++ v) ts -> v <> [] -> room u v ts -> forall u1 c, u = u1 ++ [c] -> c <> CR.
Proof.
  intros [T _] Nv (ts1 & ts2 & -> & _ & [[-> _]|(ts0 & x & -> & Ux & D)]) u1 c E; [destruct u1; discriminate|].
  rewrite <- app_assoc in T. cbn [app] in T. destruct D as [Px|(_ & _ & Nc & _)].
  - destruct (stop_clean _ _ _ _ _ _ _ _ (punct_stop _ Px) Ux T ltac:(lia)) as [Cl|(s0 & z & Cl & L & N)]; [rewrite Cl in E; destruct u1; discriminate|].
    rewrite E in Cl. apply app_inj_tail in Cl as [_ <-]. intros ->. apply N. reflexivity.
  - pose proof (scanned_long _ _ _ _ _ T ltac:(lia)) as Lg. pose proof (scanned_ordered _ _ _ _ _ T ltac:(lia)) as Or.
    apply Forall_app in Lg as [_ Lg]. inversion Lg as [|? ? L1 _]; subst. apply Forall_app in Or as [_ Or]. inversion Or as [|? ? (_ & _ & O3) _]; subst.
    eapply no_cr_uncut; [|exact Nc|reflexivity]. rewrite <- Ux. apply L1. intros X. specialize (O3 X). rewrite Ux, !app_length in O3. destruct v; [contradiction|cbn [length] in O3; lia].
Qed.
Lemma C61_rooms_lemma run u w v ts nds : tokenized (u ++ v) ts -> gNodes (u ++ v) run ts nds -> room u v ts -> layout w -> v <> [] ->
  exists ts', tokenized (u ++ w ++ v) ts' /\ gNodes (u ++ w ++ v) run ts' (map (moveNode (spread (length u) (length w))) nds) /\
    forall u1 u2, u = u1 ++ u2 -> u2 <> [] -> room u1 (u2 ++ v) ts -> room u1 (u2 ++ w ++ v) ts'.
Proof.
  intros T G (ts1 & ts2 & -> & Kp & D) Lw Nv.
  assert (X : exists ts', tokenized (u ++ w ++ v) ts' /\ mvs (spread (length u) (length w)) (ts1 ++ ts2) ts' /\
    (u = [] \/ exists ts0 x ts2', ts1 = ts0 ++ [x] /\ ts' = ts0 ++ x :: ts2' /\ upto x = length u)).
  { destruct D as [[Eu ->]|(ts0 & x & E1 & Ux & D)].
    - destruct (tokenized_front u w v Nv (layout_tokens _ Lw) ts2 Eu T) as (ts' & T' & M). exists ts'. auto.
    - destruct (room_spread _ _ _ _ _ _ _ T Kp Lw Nv E1 Ux D) as (ts2' & T' & M). subst ts1. rewrite <- app_assoc. cbn [app]. eexists. split; [exact T'|]. split; [exact M|].
      right. exists ts0, x, ts2'. auto. }
  destruct X as (ts' & T' & M & Sp). exists ts'. split; [exact T'|]. split; [eapply nodes_moved; [apply spread_max|exact G|exact M]|].
  intros u1 u2 E N2 (a & b & Eab & K1 & D1).
  destruct Sp as [->|(ts0 & x & ts2' & -> & -> & Ux)]; [destruct u1, u2; discriminate || contradiction|].
  assert (L2 : (length u1 < length u)%nat) by (rewrite E, app_length; destruct u2; [contradiction|cbn [length]; lia]).
  rewrite <- app_assoc in Eab. cbn [app] in Eab.
  (* the earlier tokens and the one after them are the same *)
  assert (S0 : exists y b', b = y :: b' ++ ts2 /\ ts0 ++ [x] = a ++ y :: b').
  { apply app_eq_app in Eab as (l & [(E1 & E2)|(E1 & E2)]).
    - destruct l as [|y l]; [exists x, []; rewrite E1, E2, app_nil_r; auto|]. exists y, (l ++ [x]). rewrite E1, E2. cbn [app]. rewrite <- !app_assoc. auto.
    - destruct l as [|x' l]; [exists x, []; rewrite E1, app_nil_r; cbn [app] in *; auto|]. exfalso.
      destruct D1 as [[_ E0]|(a0 & x1 & E0 & U1 & _)]; [rewrite E0 in E1; destruct ts0; discriminate|].
      cbn [app] in E2. injection E2 as <- E2. rewrite E0 in E1.
      destruct (@exists_last _ (x :: l) ltac:(discriminate)) as (l0 & x2 & El). rewrite El, app_assoc in E1. apply app_inj_tail in E1 as [E1 <-].
      destruct l0 as [|x2 l0]; [injection El as <- ->; lia|]. injection El as <- ->. pose proof T as [T0 _].
      assert (T1 : scanned (u ++ v) 0 [] [] ((ts0 ++ x :: l0) ++ x1 :: b)).
      { rewrite E2 in T0. repeat (rewrite <- app_assoc in T0 || cbn [app] in T0). rewrite <- app_assoc. exact T0. }
      destruct (scanned_before _ _ _ _ _ _ _ T1 ltac:(lia)) as [F _]. apply Forall_app in F as [_ F]. inversion F as [|? ? F1 _]; subst.
      pose proof (scanned_ordered _ _ _ _ _ T1 ltac:(lia)) as Or. apply Forall_app in Or as [_ Or]. inversion Or as [|? ? O1 _]; subst. lia. }
  destruct S0 as (y & b' & -> & Ea).
  assert (Ap : apart (u2 ++ v) -> apart (u2 ++ w ++ v)).
  { destruct u2 as [|c u2]; [contradiction|]. intros [(d & r & E0 & J)|(r & E0)].
    - injection E0 as <- _. left. exists c, (u2 ++ w ++ v). auto.
    - injection E0 as -> E0. destruct u2 as [|c u2].
      + exfalso. refine (room_uncut u v (ts0 ++ x :: ts2) _ Nv _ u1 CR E eq_refl); [rewrite <- app_assoc in T; exact T|].
        exists (ts0 ++ [x]), ts2. rewrite <- app_assoc. auto.
      + injection E0 as -> _. right. eexists. reflexivity. }
  exists a, (y :: b' ++ ts2'). split.
  { change (x :: ts2') with ([x] ++ ts2'). rewrite app_assoc, Ea, <- app_assoc. reflexivity. }
  split; [exact K1|]. destruct D1 as [D1|(a0 & x1 & E0 & U1 & D1)]; [left; exact D1|right; exists a0, x1]. split; [exact E0|]. split; [exact U1|]. intuition.
Qed.
Lemma C61_tree_lemma run u w v nds : roomy run u v nds -> layout w -> v <> [] ->
  readsBytesPlainly run (u ++ w ++ v) (map (moveNode (spread (length u) (length w))) nds).
Proof.
  intros (ts & T & G & R) Lw Nv. destruct (C61_rooms_lemma _ _ _ _ _ _ T G R Lw Nv) as (ts' & T' & G' & _). exists ts'. auto.
Qed.
Lemma respaced_strip run x y : respaced run x y -> exists nx ny, readsBytesPlainly run x nx /\ readsBytesPlainly run y ny /\ strip nx = strip ny /\
  map fst (flat_map importOf nx) = map fst (flat_map importOf ny).
Proof.
  induction 1 as [x nds R|u w v nds R Lw Nv|x w nds R Lw|x y _ (nx & ny & R1 & R2 & E & E')|x y z _ (nx & ny & R1 & R2 & E & E') _ (ny' & nz & R3 & R4 & F & F')].
  - exists nds, nds. auto.
  - pose proof (C61_tree_lemma _ _ _ _ _ R Lw Nv) as R'. destruct R as (ts & T & G & _). eexists nds, _. split; [exists ts; split; [exact T|exact G]|].
    split; [exact R'|]. split; [symmetry; apply strip_moved|symmetry; apply imports_moved].
  - exists nds, nds. split; [exact R|]. split; [|auto].
    assert (Rw : readsBytesPlainly run w []) by (exists []; split; [apply layout_tokens, Lw|constructor]).
    pose proof (C60_reads_lemma _ _ _ _ _ R Rw) as R'. cbn [map] in R'. rewrite app_nil_r in R'. exact R'.
  - exists ny, nx. auto.
  - exists nx, nz. assert (ny' = ny) by (eapply C50_one_tree_lemma; eauto). subst. split; [exact R1|]. split; [exact R4|]. split; congruence.
Qed.
Lemma C61_parse_lemma run x y : respaced run x y -> exists n0, forall n, (n0 <= n)%nat -> exists ssx lx ssy ly,
  parse run n x = ParseOk ssx lx /\ parse run n y = ParseOk ssy ly /\ strip (ss_nodes ssx) = strip (ss_nodes ssy) /\
  map fst (ss_imports ssx) = map fst (ss_imports ssy) /\ print None (ss_nodes ssx) = print None (ss_nodes ssy).
Proof.
  intros R. destruct (respaced_strip _ _ _ R) as (nx & ny & Rx & Ry & E & E').
  destruct (C50_accept_lemma _ _ _ Rx) as (ix & lx & n1 & H1). destruct (C50_accept_lemma _ _ _ Ry) as (iy & ly & n2 & H2).
  exists (Nat.max n1 n2). intros n Hn. specialize (H1 n ltac:(lia)). specialize (H2 n ltac:(lia)).
  destruct (C14_lemma _ _ _ _ _ H1) as [F1 _]. destruct (C14_lemma _ _ _ _ _ H2) as [F2 _]. cbn [ss_nodes ss_imports] in F1, F2.
  exists (mkSheet nx ix), lx, (mkSheet ny iy), ly. cbn [ss_nodes ss_imports]. split; [exact H1|]. split; [exact H2|]. split; [exact E|]. split; [congruence|].
  rewrite <- (print_strip nx), E. apply print_strip.
Qed.

(** * Compile *)
Context {FO : FloatOps}.
Section Opts.
Variable o : topts.
Lemma ce_nodes_none n : forall ns, ce (map stripNode) (transformNodes o None n ns) (transformNodes o None n (map stripNode ns)).
Proof.
  destruct n as [|n]; [intros; apply ce_timeout|]. induction ns as [|nd r IH]; [cbn [map]; apply ce_ret; reflexivity|]. cbn [map]. intros t. rewrite !nodes_cons. revert t.
  apply (ce_bind (map stripNode)).
  - destruct (isImport nd) eqn:E; [|apply ce_node; exact E]. destruct nd as [r0|a]; [discriminate|]. cbn [isImport] in E. cbn [oneNode stripNode stripAt ar_name].
    rewrite E. apply ce_ret. reflexivity.
  - intros h. apply (ce_bind (map stripNode)); [exact IH|]. intros rs. apply ce_ret. apply map_app.
Qed.
Lemma transform_strip m ss ss' t ns imps : transform o None m ss = TOk ss' t -> strip ns = strip (ss_nodes ss) ->
  exists ns' t', transform o None m (mkSheet ns imps) = TOk (mkSheet ns' imps) t' /\ strip ns' = strip (ss_nodes ss').
Proof.
  unfold transform. intros H E. cbn [ss_nodes ss_imports].
  pose proof (ce_nodes_none m (ss_nodes ss) (initState o None)) as C1. pose proof (ce_nodes_none m ns (initState o None)) as C2.
  rewrite stripT_init in C1, C2. fold (strip ns) in C2. fold (strip (ss_nodes ss)) in C1. rewrite E, C1 in C2.
  destruct (transformNodes o None m (ss_nodes ss) (initState o None)) as [xs t1| |] eqn:E1; try discriminate. injection H as <- <-.
  destruct (transformNodes o None m ns (initState o None)) as [xs' t2| |]; try discriminate. injection C2 as C2 _.
  exists xs', t2. split; [reflexivity|]. cbn [ss_nodes]. symmetry. exact C2.
Qed.
End Opts.
Lemma C61_compile_lemma P P' e e' p p' x y : p_opts P' = p_opts P -> p_entries P = [e] -> p_entries P' = [e'] ->
  o_imports (p_opts P) = ImportPassthrough -> p_abs P e = Some p -> p_abs P' e' = Some p' -> ~ leads P p p -> ~ leads P' p' p' ->
  p_read P p = Some x -> p_read P' p' = Some y -> respaced 0 x y ->
  forall g fs g' fs', reach P (g, Finished fs) -> reach P' (g', Finished fs') -> forall out, lookup p fs = Some out ->
  exists out', lookup p' fs' = Some out' /\ sameText out out'.
Proof.
  intros Co Ce Ce' Im Ca Ca' Nl Nl' Rd Rd' R g fs g' fs' H H' out L.
  assert (NP : forall a, p_abs P e = Some a -> ~ leads P a a) by (intros a Ea; assert (a = p) by congruence; subst; exact Nl).
  assert (NP' : forall a, p_abs P' e' = Some a -> ~ leads P' a a) by (intros a Ea; assert (a = p') by congruence; subst; exact Nl').
  apply (C36_lemma P e Ce Im NP g fs H) in L as [_ (content & n & m & ss & lines & ss' & t & Rc & Hp & T & Pr)].
  assert (content = x) by congruence. subst content.
  destruct (respaced_strip _ _ _ R) as (nx & ny & Rx & Ry & E & _). pose proof (parse_plain _ _ _ _ _ _ Hp Rx) as En.
  destruct (C50_accept_lemma _ _ _ Ry) as (iy & ly & n2 & H2). specialize (H2 n2 ltac:(lia)).
  destruct (transform_strip _ _ _ _ _ ny iy T) as (ns' & t' & T' & E'); [congruence|].
  destruct (print_text _ _ _ Pr) as (css & mp & Pc & Eo).
  assert (Pc' : print None ns' = Some css) by (rewrite <- print_strip, E', print_strip; exact Pc).
  pose proof (parse_table y 0%nat n2) as Tb. rewrite H2 in Tb. destruct Tb as [Hd _].
  destruct (print_total (mkSource p' y ly) ns' css Hd Pc') as (out' & Po). destruct (print_text _ _ _ Po) as (css' & mp' & Pc2 & Eo'). assert (css' = css) by congruence. subst css'.
  exists out'. split; [|eexists css, _, _; split; [exact Eo|exact Eo']]. apply (C36_lemma P' e' Ce' ltac:(rewrite Co; exact Im) NP' g' fs' H'). split; [exact Ca'|].
  exists y, n2, m, (mkSheet ny iy), ly, (mkSheet ns' iy), t'. rewrite Co. auto.
Qed.
End WithUnicode.
