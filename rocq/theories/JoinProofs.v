(** Two files in a row. *)
From Verif Require Import Bytes Utf8 Source Lexer LexSpec Ast AstInd Printer Parser ParserSpec ParseMono ParseResults PrinterProofs Strip PrintStrip ReadSpec LexStreamSpec ReadProofs FullValue LexStream JoinSpec JoinTokens JoinRead.

Section WithUnicode.
Context {U : UnicodeDigits}.
Local Existing Instance noLiberties.

(** * A plain reading does not look at the text between its tokens *)
Section Content.
Variables c c' : bytes.
Lemma decl_content ts d : gDecl c ts d -> gDecl c' ts d.
Proof. destruct 1 as [star p cl ts vs i Hs Hp Hc Hi Hv|ts s Hl]; [constructor; auto|discriminate Hl]. Qed.
Lemma decls_content ts ds : gDecls c ts ds -> gDecls c' ts ds.
Proof. induction 1; [constructor|apply gdCons; auto using decl_content|apply gdSemi; auto using decl_content]. Qed.
Lemma body_content o ts sp ds : gBody c o ts sp ds -> gBody c' o ts sp ds.
Proof. intros (ts1 & y & -> & H & Hy & ->). exists ts1, y. auto using decls_content. Qed.
Variable run : nat.
Lemma rule_content kf ts r : gRule c run kf ts r -> gRule c' run kf ts r.
Proof.
  destruct 1 as [kf o ts sp ds Ho Hb|ts sels k o ts2 sp ds Hs Ho Hb|ts ks o ts2 sp ds Hk Ho Hb]; apply body_content in Hb.
  - apply grBare; auto.
  - eapply grSel; eauto.
  - apply grKey; auto.
Qed.
Lemma rules_content kf ts rs : gRules c run kf ts rs -> gRules c' run kf ts rs.
Proof. induction 1; constructor; auto using rule_content. Qed.
Lemma ruleBody_content kf o ts sp rs : gRuleBody c run kf o ts sp rs -> gRuleBody c' run kf o ts sp rs.
Proof. intros (ts1 & y & -> & H & Hy & ->). exists ts1, y. auto using rules_content. Qed.
Lemma at_content ts a : gAt c run ts a -> gAt c' run ts a.
Proof. destruct 1; econstructor; eauto using ruleBody_content, body_content. Qed.
Lemma nodes_content ts nds : gNodes c run ts nds -> gNodes c' run ts nds.
Proof. induction 1; [constructor|apply gnSkip; auto|apply gnRule; auto using rule_content|apply gnAt; auto using at_content]. Qed.
End Content.

Section Nodes.
Variable c : bytes.
Variable run : nat.
Lemma nodes_app ts nds : gNodes c run ts nds -> forall ts2 nds2, gNodes c run ts2 nds2 -> gNodes c run (ts ++ ts2) (nds ++ nds2).
Proof.
  induction 1 as [|x ts nds Hx H IH|ts r tsb nds G H IH|ts a tsb nds G H IH N]; intros ts2 nds2 H2; cbn [app]; auto.
  - apply gnSkip; auto.
  - rewrite <- app_assoc. apply gnRule; auto.
  - rewrite <- app_assoc. apply gnAt; auto. destruct N as [N|[N|(x & ts3 & -> & Hx)]]; auto. right. right. cbn. eauto.
Qed.

(** * Where a plain file ends *)
Lemma ends_app a b : ends b -> b <> [] -> ends (a ++ b).
Proof. intros H N. induction a as [|x a IH]; cbn; auto. apply endsMore; auto. destruct a; cbn; congruence. Qed.
Lemma ends_snoc a x : stopTok x -> ends (a ++ [x]).
Proof. intros H. apply ends_app; [constructor; auto|discriminate]. Qed.
Lemma is_stop x : is RCurly x -> stopTok x. Proof. intros [H _]. exists "}"%byte. rewrite H. cbn. auto 12. Qed.
Lemma body_ends o ts sp ds a : gBody c o ts sp ds -> ends (a ++ ts) /\ ts <> [].
Proof. intros (ts1 & y & -> & H & Hy & ->). rewrite app_assoc. split; [apply ends_snoc, is_stop; auto|destruct ts1; discriminate]. Qed.
Lemma ruleBody_ends kf o ts sp rs a : gRuleBody c run kf o ts sp rs -> ends (a ++ ts) /\ ts <> [].
Proof. intros (ts1 & y & -> & H & Hy & ->). rewrite app_assoc. split; [apply ends_snoc, is_stop; auto|destruct ts1; discriminate]. Qed.
Lemma rule_ends kf ts r : gRule c run kf ts r -> ends ts /\ ts <> [].
Proof.
  destruct 1 as [kf o ts sp ds Ho Hb|ts sels k o ts2 sp ds Hs Ho Hb|ts ks o ts2 sp ds Hk Ho Hb].
  - destruct (body_ends _ _ _ _ [o] Hb). split; [assumption|discriminate].
  - destruct (body_ends _ _ _ _ (ts ++ [o]) Hb) as [E _]. rewrite <- app_assoc in E. split; [exact E|destruct ts; discriminate].
  - destruct (body_ends _ _ _ _ (ts ++ [o]) Hb) as [E _]. rewrite <- app_assoc in E. split; [exact E|destruct ts; discriminate].
Qed.
Lemma at_ends ts a : gAt c run ts a -> ar_block a <> None -> ends ts.
Proof.
  destruct 1 as [ | |x ts qs o ts2 sp rs Hx Ex Hq Ho Hb|x y pre o ts sp rs Hx Hk Hp Ho Hb| |x o ts sp ds Hx N1 N2 Ko Hb]; cbn [ar_block]; intros N; try contradiction.
  - destruct (ruleBody_ends _ _ _ _ _ (x :: ts ++ [o]) Hb) as [E _]. cbn in E. rewrite <- app_assoc in E. exact E.
  - exact (proj1 (ruleBody_ends _ _ _ _ _ [x; y; o] Hb)).
  - exact (proj1 (body_ends _ _ _ _ [x; o] Hb)).
Qed.
Lemma ends_both a b : ends a -> ends b -> ends (a ++ b).
Proof. intros H H'. destruct b as [|x b]; [rewrite app_nil_r; exact H|apply ends_app; [exact H'|discriminate]]. Qed.
Lemma nodes_end ts nds : gNodes c run ts nds -> Forall (fun x => k_tok x <> CDO /\ k_tok x <> CDC) ts -> ends ts.
Proof.
  induction 1 as [|x ts nds Hx H IH|ts r tsb nds G H IH|ts a tsb nds G H IH N]; intros F.
  - constructor.
  - inversion F as [|? ? [F1 F2] F3]; subst. change (x :: ts) with ([x] ++ ts). apply ends_both; [|exact (IH F3)].
    apply endsOne. destruct Hx as [[Hx _]|[[Hx _]|[Hx _]]]; [exists ";"%byte; rewrite Hx; cbn; auto|contradiction|contradiction].
  - apply Forall_app in F as [_ F]. apply ends_both; [exact (proj1 (rule_ends _ _ _ G))|exact (IH F)].
  - apply Forall_app in F as [_ F]. destruct N as [N|[N|(x & ts3 & -> & Hx)]]; [discriminate N| |].
    + apply ends_both; [exact (at_ends _ _ G N)|exact (IH F)].
    + apply ends_app; [exact (IH F)|discriminate].
Qed.
End Nodes.

Lemma C60_reads_lemma run a b na nb : readsBytesPlainly run a na -> readsBytesPlainly run b nb ->
  readsBytesPlainly run (a ++ b) (na ++ map (moveNode (later (length a))) nb).
Proof.
  intros (ta & Ta & Ga) (tb & Tb & Gb).
  assert (E : ends ta). { eapply nodes_end; [exact Ga|]. destruct Ta as [Ta _]. apply (scanned_real _ _ _ _ _ Ta). lia. }
  destruct (tokenized_join _ _ _ _ Ta Tb E) as (tb' & T & M). exists (ta ++ tb'). split; [exact T|].
  apply nodes_app; [eapply nodes_content; exact Ga|]. eapply nodes_moved; [|exact Gb|exact M]. intros x y. cbn [later sh_upto]. lia.
Qed.

(** * The same text *)
Section Same.
Variable k : shift.
Lemma strip_values vs : Forall (fun v => stripValue (moveValue k v) = stripValue v) vs ->
  map stripValue (map (moveValue k) vs) = map stripValue vs.
Proof. rewrite map_map. intros F. apply map_ext_in. rewrite Forall_forall in F. exact F. Qed.
Lemma strip_value v : stripValue (moveValue k v) = stripValue v.
Proof. induction v using value_ind'; cbn [moveValue stripValue]; f_equal; auto using strip_values. Qed.
Lemma strip_valueList vs : map stripValue (map (moveValue k) vs) = map stripValue vs.
Proof. apply strip_values. apply Forall_forall. intros v _. apply strip_value. Qed.
Lemma strip_all {A} (f g : A -> A) l : (forall x, g (f x) = g x) -> map g (map f l) = map g l.
Proof. intros H. rewrite map_map. apply map_ext. exact H. Qed.
Lemma strip_in {A} (f g : A -> A) l : Forall (fun x => g (f x) = g x) l -> map g (map f l) = map g l.
Proof. intros F. rewrite map_map. apply map_ext_in. rewrite Forall_forall in F. exact F. Qed.
Lemma strip_part p : stripPart (movePart k p) = stripPart p.
Proof.
  assert (X : forall sels, Forall (fun s : span * list selpart => Forall (fun p => stripPart (movePart k p) = stripPart p) (snd s)) sels ->
    map (fun s => (sp0, map stripPart (snd s))) (map (fun s => (moveSpan k (fst s), map (movePart k) (snd s))) sels) =
    map (fun s => (sp0, map stripPart (snd s))) sels).
  { intros sels F. rewrite map_map. apply map_ext_in. intros s Hs. rewrite Forall_forall in F. cbn. f_equal. apply strip_in. exact (F _ Hs). }
  induction p as [| | | | |sp n a H|sp isp n a H|sp p o v m] using selpart_ind'; try reflexivity.
  - cbn [movePart stripPart]. f_equal. destruct a; cbn [argParts] in H; auto. f_equal. auto.
  - cbn [movePart stripPart]. f_equal. destruct a; cbn [argParts] in H; auto. f_equal. auto.
  - cbn [movePart stripPart]. rewrite strip_value. reflexivity.
Qed.
Lemma strip_sel s : stripSel (moveSel k s) = stripSel s.
Proof. unfold stripSel, moveSel. cbn [snd]. f_equal. apply strip_all, strip_part. Qed.
Lemma strip_key x : stripKey (moveKey k x) = stripKey x. Proof. destruct x; reflexivity. Qed.
Lemma strip_decl d : stripDecl (moveDecl k d) = stripDecl d.
Proof. destruct d; cbn [moveDecl stripDecl]; [rewrite strip_valueList|]; reflexivity. Qed.
Lemma strip_rule r : stripRule (moveRule k r) = stripRule r.
Proof.
  unfold stripRule, moveRule. cbn [r_prelude r_decls]. f_equal; [|apply strip_all, strip_decl].
  destruct (r_prelude r) as [|[sp l]|sp ks]; cbn [movePrelude stripPrelude]; auto.
  - rewrite (strip_all _ _ _ strip_sel). reflexivity.
  - rewrite (strip_all _ _ _ strip_key). reflexivity.
Qed.
Lemma strip_qpart p : stripQPart (moveQPart k p) = stripQPart p.
Proof. destruct p; cbn [moveQPart stripQPart]; rewrite ?strip_value; reflexivity. Qed.
Lemma strip_query q : stripQuery (moveQuery k q) = stripQuery q.
Proof. unfold stripQuery, moveQuery. cbn [snd]. f_equal. apply strip_all, strip_qpart. Qed.
Lemma strip_atPrelude p : stripAtPrelude (moveAtPrelude k p) = stripAtPrelude p.
Proof.
  destruct p as [| |[sp qs]| |q]; cbn [moveAtPrelude stripAtPrelude snd]; auto.
  - rewrite (strip_all _ _ _ strip_query). reflexivity.
  - rewrite strip_query. reflexivity.
Qed.
Lemma strip_block b : stripBlock (moveBlock k b) = stripBlock b.
Proof. destruct b; cbn [moveBlock stripBlock]; f_equal; apply strip_all; [exact strip_decl|exact strip_rule]. Qed.
Lemma strip_node nd : stripNode (moveNode k nd) = stripNode nd.
Proof.
  destruct nd as [r|a]; cbn [moveNode stripNode]; f_equal; [apply strip_rule|]. unfold stripAt, moveAt. cbn [ar_name ar_preludes ar_block]. f_equal.
  - apply strip_all, strip_atPrelude.
  - destruct (ar_block a); cbn [option_map]; [rewrite strip_block|]; reflexivity.
Qed.
Lemma strip_moved nds : strip (map (moveNode k) nds) = strip nds.
Proof. apply strip_all, strip_node. Qed.
Lemma print_moved nds : print None (map (moveNode k) nds) = print None nds.
Proof. rewrite <- (print_strip (map _ nds)), strip_moved. apply print_strip. Qed.
Lemma imports_moved nds : map fst (flat_map importOf (map (moveNode k) nds)) = map fst (flat_map importOf nds).
Proof.
  induction nds as [|nd nds IH]; [reflexivity|]. cbn [map flat_map]. rewrite !map_app, IH. f_equal.
  destruct nd as [r|a]; [reflexivity|]. cbn [moveNode importOf moveAt ar_name ar_preludes]. destruct (beq (ar_name a) (B "import")); [|reflexivity].
  destruct (ar_preludes a) as [|[ | |[? ?]| | ] ps]; reflexivity.
Qed.
End Same.

Lemma parse_plain run n content ss lines nds : parse run n content = ParseOk ss lines -> readsBytesPlainly run content nds -> ss_nodes ss = nds.
Proof.
  intros P R. destruct (C50_accept_lemma _ _ _ R) as (imps & lines' & n0 & H).
  assert (E : parse run n content = parse run (Nat.max n n0) content). { symmetry. apply parse_stable; [lia|]. rewrite P. discriminate. }
  rewrite P, H in E by lia. injection E as -> _. reflexivity.
Qed.
Lemma C60_parse_lemma run a b na nb : readsBytesPlainly run a na -> readsBytesPlainly run b nb ->
  exists n0, forall n, (n0 <= n)%nat -> exists ssa la ssb lb ss l,
    parse run n a = ParseOk ssa la /\ parse run n b = ParseOk ssb lb /\ parse run n (a ++ b) = ParseOk ss l /\
    ss_nodes ss = ss_nodes ssa ++ map (moveNode (later (length a))) (ss_nodes ssb) /\
    map fst (ss_imports ss) = map fst (ss_imports ssa) ++ map fst (ss_imports ssb).
Proof.
  intros Ra Rb. destruct (C50_accept_lemma _ _ _ Ra) as (ia & la & n1 & Ha). destruct (C50_accept_lemma _ _ _ Rb) as (ib & lb & n2 & Hb).
  destruct (C50_accept_lemma _ _ _ (C60_reads_lemma _ _ _ _ _ Ra Rb)) as (i & l & n3 & H).
  exists (Nat.max n1 (Nat.max n2 n3)). intros n Hn. specialize (Ha n ltac:(lia)). specialize (Hb n ltac:(lia)). specialize (H n ltac:(lia)).
  do 6 eexists. do 3 (split; [eassumption|]). split; [reflexivity|].
  apply C14_lemma in Ha as [Ea _]. apply C14_lemma in Hb as [Eb _]. apply C14_lemma in H as [E _]. rewrite Ea, Eb, E. cbn [ss_nodes].
  rewrite flat_map_app, map_app, imports_moved. reflexivity.
Qed.

Lemma printNodes_app ns ms : printNodes (ns ++ ms) = printNodes ns +++ printNodes ms.
Proof.
  unfold printNodes. induction ns as [|x ns IH]; cbn [all app]; [destruct (all printNode ms); reflexivity|]. rewrite IH.
  destruct (printNode x), (all printNode ns), (all printNode ms); try reflexivity. cbv [cat]. rewrite app_assoc. reflexivity.
Qed.
Lemma print_app ns ms : print None (ns ++ ms) = match print None ns, print None ms with Some a, Some b => Some (a ++ b) | _, _ => None end.
Proof.
  destruct (printNodes ns) as [x|] eqn:E1, (printNodes ms) as [y|] eqn:E2;
    try (unfold print; rewrite printNodes_app, E1, E2; cbn; try destruct (runOps None p0 x); reflexivity).
  - rewrite (print_none _ _ E1), (print_none _ _ E2). rewrite (print_none _ (x ++ y)); [rewrite textOf_app; reflexivity|]. rewrite printNodes_app, E1, E2. reflexivity.
Qed.
Lemma C60_text_lemma run n a b na nb ssa la ssb lb ss l ta tb : readsBytesPlainly run a na -> readsBytesPlainly run b nb ->
  parse run n a = ParseOk ssa la -> parse run n b = ParseOk ssb lb -> parse run n (a ++ b) = ParseOk ss l ->
  print None (ss_nodes ssa) = Some ta -> print None (ss_nodes ssb) = Some tb -> print None (ss_nodes ss) = Some (ta ++ tb).
Proof.
  intros Ra Rb Pa Pb P Ta Tb. rewrite (parse_plain _ _ _ _ _ _ P (C60_reads_lemma _ _ _ _ _ Ra Rb)), print_app, print_moved.
  rewrite (parse_plain _ _ _ _ _ _ Pa Ra) in Ta. rewrite (parse_plain _ _ _ _ _ _ Pb Rb) in Tb. rewrite Ta, Tb. reflexivity.
Qed.
End WithUnicode.
