(** What parsed stylesheets mean for the printer and the transformer; recovery,
    imports; the witnesses of the parser theorems. *)
From Verif Require Import Bytes Utf8 Source Lexer BytesFacts LexSpec LexFacts LexNext LexProps SourceSpec Ast AstInd
  Printer PrinterProofs MapProofs Transformer TransSpec TransWitness Samples
  Parser LexSpec ParserSpec ParseMono ParseInv ParseSound ParserProofs.
From Coq Require Import Sorting.Sorted.

(** * Printing *)
Lemma cat_none a b : a +++ b = None <-> a = None \/ b = None.
Proof. unfold cat. destruct a, b; intuition congruence. Qed.
Lemma all_none {A} (f : A -> ops) l : all f l = None <-> Exists (fun x => f x = None) l.
Proof.
  induction l as [|x l IH]; cbn [all]; [split; [discriminate|intros H; inversion H]|].
  rewrite cat_none, IH, Exists_cons. reflexivity.
Qed.
Lemma sepBy_none {A} s (f : A -> ops) l : s <> None -> (sepBy s f l = None <-> Exists (fun x => f x = None) l).
Proof.
  intros Hs. induction l as [|x l IH]; [split; [discriminate|intros H; inversion H]|].
  destruct l as [|y l].
  - cbn [sepBy]. rewrite Exists_cons, Exists_nil. tauto.
  - change (sepBy s f (x :: y :: l)) with (f x +++ s +++ sepBy s f (y :: l)). rewrite !cat_none, IH, (Exists_cons _ x). tauto.
Qed.
Lemma w_none s : w s = None <-> False. Proof. split; [discriminate|tauto]. Qed.
Lemma ws_none s : ws s = None <-> False. Proof. split; [discriminate|tauto]. Qed.
Lemma nop_none : nop = None <-> False. Proof. split; [discriminate|tauto]. Qed.
Lemma Exists_iff {A} (P Q : A -> Prop) l : Forall (fun x => P x <-> Q x) l -> (Exists P l <-> Exists Q l).
Proof. induction 1 as [|x l H _ IH]; [split; intros X; inversion X|]. rewrite !Exists_cons, H, IH. reflexivity. Qed.
Lemma Exists_flat {A C} (f : A -> list C) P l : Exists P (flat_map f l) <-> Exists (fun x => Exists P (f x)) l.
Proof. induction l as [|x l IH]; [split; intros X; inversion X|]. cbn [flat_map]. rewrite Exists_app, Exists_cons, IH. reflexivity. Qed.
Ltac none := rewrite ?cat_none, ?w_none, ?ws_none, ?nop_none.

Lemma emptyParens_list vs :
  (fix any (l : list value) : Prop := match l with [] => False | a :: r => emptyParens a \/ any r end) vs <-> Exists emptyParens vs.
Proof. induction vs as [|v vs IH]; [split; [tauto|intros H; inversion H]|]. rewrite Exists_cons, IH. reflexivity. Qed.
Lemma value_none v : soundValue v -> (printValue v = None <-> emptyParens v).
Proof.
  induction v using value_ind'; intros Hs; cbn [printValue]; none; cbn [emptyParens]; try tauto.
  - rewrite sepBy_none by discriminate. rewrite emptyParens_list. apply soundValue_brackets in Hs as [_ Hs].
    assert (X : Exists (fun x => printValue x = None) vs <-> Exists emptyParens vs); [|tauto].
    apply Exists_iff. rewrite Forall_forall in *. auto.
  - rewrite all_none. rewrite emptyParens_list. apply soundValue_func in Hs as [_ Hs].
    assert (X : Exists (fun x => printValue x = None) vs <-> Exists emptyParens vs); [|tauto].
    apply Exists_iff. rewrite Forall_forall in *. auto.
  - cbn in Hs. destruct Hs as (_ & H1 & H2). rewrite IHv1, IHv2 by auto. tauto.
  - cbn in Hs. destruct Hs as [-> | Hs]; [cbn; tauto|]. rewrite IHv by auto. pose proof (sound_notNil _ Hs). tauto.
Qed.
Lemma opt_none v : optValue v -> ((if isNil v then nop else printValue v) = None <-> emptyParens v).
Proof.
  intros [-> | [H _]]; [cbn; split; [discriminate|tauto]|].
  rewrite <- value_none by auto. destruct v; cbn [isNil]; try tauto. destruct H.
Qed.
Lemma values_none vs : Forall plainValue vs -> (printValues vs = None <-> Exists emptyParens vs).
Proof.
  induction 1 as [|v vs Hv Hvs IH]; [split; [discriminate|intros H; inversion H]|]. rewrite Exists_cons, <- IH.
  destruct vs as [|v' vs].
  - cbn [printValues]. rewrite nop_none, value_none by apply Hv. tauto.
  - change (printValues (v :: v' :: vs)) with
      (printValue v +++ (if negb (isComma v') && negb (isComma v) then w " " else nop) +++ printValues (v' :: vs)).
    rewrite !cat_none, value_none by apply Hv.
    destruct (_ && _); none; tauto.
Qed.

Lemma printParts_none l : printParts l = None <-> Exists (fun p => printPart p = None) l.
Proof.
  induction l as [|p l IH]; [split; [discriminate|intros H; inversion H]|]. rewrite Exists_cons, <- IH.
  destruct l as [|q l].
  - cbn [printParts]. rewrite nop_none. destruct p; cbn [isWs]; try tauto. cbn. rewrite nop_none, w_none. tauto.
  - change (printParts (p :: q :: l)) with (printPart p +++ printParts (q :: l)). apply cat_none.
Qed.
Lemma printAnb_some a o b : printAnb a o b <> None.
Proof.
  unfold printAnb. intros H. apply cat_none in H as [H|H]; [|apply cat_none in H as [H|H]].
  - destruct (_ && _) in H; [|discriminate]. destruct (beq _ _) in H; [discriminate|]. destruct (hasPrefix _ _) in H; discriminate.
  - destruct (negb _) in H; discriminate.
  - destruct (_ && _) in H; [|discriminate]. apply cat_none in H as [H|H]; [|discriminate]. destruct (_ || _) in H; discriminate.
Qed.
Lemma soundPart_args p a : (exists sp n, p = SPseudo sp n a) \/ (exists sp isp n, p = SPseudoEl sp isp n a) ->
  soundPart p -> Forall (fun s => Forall soundPart (snd s)) (argParts a).
Proof.
  intros Hp Hs. assert (H : match a with PASel _ sels =>
      (fix each (l : list (span * list selpart)) : Prop :=
           match l with
           | [] => True
           | s :: r => snd s <> [] /\
               (fix all (ps : list selpart) : Prop :=
                  match ps with [] => True | p :: r => soundPart p /\ all r end) (snd s) /\ each r
           end) sels | _ => True end).
  { destruct Hp as [(sp & n & ->)|(sp & isp & n & ->)]; destruct a; auto; apply Hs. }
  destruct a as [| | |sp sels]; cbn [argParts]; try constructor. clear Hp Hs.
  induction sels as [|[s ps] sels IH]; constructor.
  - destruct H as (_ & H & _). cbn [snd] in *. clear IH. induction ps as [|q ps IH]; constructor; [apply H|apply IH, H].
  - apply IH. apply H.
Qed.
Definition selValues (sels : list selector) : list value := flat_map (fun s => flat_map partValues (snd s)) sels.
Lemma selList_none sels : Forall (fun s => Forall (fun p => printPart p = None <-> Exists emptyParens (partValues p)) (snd s)) sels ->
  (printSelList sels = None <-> Exists emptyParens (selValues sels)).
Proof.
  intros H. unfold printSelList, selValues. rewrite sepBy_none by discriminate. rewrite Exists_flat. apply Exists_iff.
  eapply Forall_impl; [|exact H]. intros [sp ps] Hp. unfold printSelector. cbn [snd] in *. rewrite printParts_none, Exists_flat.
  apply Exists_iff. exact Hp.
Qed.
Lemma part_none p : soundPart p -> (printPart p = None <-> Exists emptyParens (partValues p)).
Proof.
  assert (Hno : False <-> Exists emptyParens []) by (split; [tauto|intros H; inversion H]).
  induction p using selpart_ind'; intros Hs; rewrite printPart_eq; none; cbn [partValues]; try (rewrite <- Hno; tauto).
  - assert (Ha := soundPart_args _ a (or_introl (ex_intro _ sp (ex_intro _ n eq_refl))) Hs).
    destruct a as [| | |sp1 sels]; cbn [printArgs argParts] in *; none; try (rewrite <- Hno; tauto).
    + pose proof (printAnb_some a op b). rewrite <- Hno. tauto.
    + rewrite selList_none; [unfold selValues; tauto|]. rewrite Forall_forall in *. intros s Hin. specialize (H s Hin). specialize (Ha s Hin).
      rewrite Forall_forall in *. auto.
  - assert (Ha := soundPart_args _ a (or_intror (ex_intro _ sp (ex_intro _ isp (ex_intro _ n eq_refl)))) Hs).
    destruct a as [| | |sp1 sels]; cbn [printArgs argParts] in *; none; try (rewrite <- Hno; tauto).
    + pose proof (printAnb_some a op b). rewrite <- Hno. tauto.
    + rewrite selList_none; [unfold selValues; tauto|]. rewrite Forall_forall in *. intros s Hin. specialize (H s Hin). specialize (Ha s Hin).
      rewrite Forall_forall in *. auto.
  - cbn in Hs. destruct Hs as (Hv & _). rewrite Exists_cons, <- Hno, <- opt_none by auto.
    destruct (isNil v); none; tauto.
Qed.
Lemma decl_none d : soundDecl d -> (printDecl d = None <-> Exists emptyParens (declValues d)).
Proof.
  destruct d as [sp prop vs imp|sp s]; cbn [soundDecl printDecl declValues]; none.
  - intros [_ H]. rewrite values_none by auto. destruct imp; none; tauto.
  - intros _. split; [tauto|intros H; inversion H].
Qed.
Lemma decls_none ds : Forall soundDecl ds -> (printDecls ds = None <-> Exists emptyParens (flat_map declValues ds)).
Proof.
  intros H. unfold printDecls. rewrite sepBy_none by discriminate. rewrite Exists_flat. apply Exists_iff.
  eapply Forall_impl; [|exact H]. apply decl_none.
Qed.
Lemma Forall_Exists_none {A} (P : A -> Prop) l : Forall (fun x => ~ P x) l -> ~ Exists P l.
Proof. intros H X. apply Exists_exists in X as (x & Hi & Hx). rewrite Forall_forall in H. exact (H x Hi Hx). Qed.
Lemma rule_none k r : soundRule k r -> (printRule r = None <-> noSelectors r \/ Exists emptyParens (ruleValues r)).
Proof.
  intros [Hp Hd]. unfold printRule, ruleValues, noSelectors. rewrite Exists_app, <- decls_none by auto. none.
  assert (X : printPrelude (r_prelude r) = None <-> r_prelude r = PrNil \/
     Exists emptyParens (match r_prelude r with PrSel (_, sels) => flat_map (fun s => flat_map partValues (snd s)) sels | _ => [] end)).
  { destruct (r_prelude r) as [|[sp sels]|sp ks]; cbn [printPrelude].
    - split; auto.
    - rewrite selList_none.
      + unfold selValues. split; auto. intros [H|H]; [discriminate|auto].
      + destruct Hp as (_ & _ & Hs). eapply Forall_impl; [|exact Hs]. intros s [_ Hs1]. eapply Forall_impl; [|exact Hs1]. apply part_none.
    - rewrite all_none. split; [|intros [H|H]; [discriminate|inversion H]].
      intros H. exfalso. revert H. apply Forall_Exists_none, Forall_all. intros [|]; discriminate. }
  rewrite X. assert (Some [M (r_sp r)] = None <-> False) by (split; [discriminate|tauto]). tauto.
Qed.
Lemma query_none q : soundQuery q -> (printMq q = None <-> Exists emptyParens (queryValues q)).
Proof.
  intros [_ H]. unfold printMq, queryValues. rewrite sepBy_none by discriminate. rewrite Exists_flat. apply Exists_iff.
  eapply Forall_impl; [|exact H]. intros [sp v|sp isp prop v|sp isp prop a op b]; cbn [soundQueryPart printMqPart]; none.
  - intros _. split; [tauto|intros X; inversion X].
  - intros Hv. rewrite Exists_cons, Exists_nil, <- opt_none by auto. destruct (isNil v); none; tauto.
  - intros (_ & Ha & Hb). rewrite !Exists_cons, Exists_nil, <- !opt_none by auto.
    destruct (isNil a), (isNil b); none; tauto.
Qed.
Lemma queries_none q : soundQueries q -> (printMql q = None <-> Exists emptyParens (flat_map queryValues (snd q))).
Proof.
  intros [_ H]. unfold printMql. rewrite sepBy_none by discriminate. rewrite Exists_flat. apply Exists_iff.
  eapply Forall_impl; [|exact H]. apply query_none.
Qed.

Definition soundAP (p : atprelude) : Prop :=
  match p with APMql q => soundQueries q | APMq q => soundQuery q | _ => True end.
Definition soundBlock (b : option block) : Prop :=
  match b with Some (BRules _ rs) => exists k, Forall (soundRule k) rs | Some (BDecls _ ds) => Forall soundDecl ds | None => True end.
Lemma knownAtRule_dec s : knownAtRule s \/ ~ knownAtRule s.
Proof. unfold knownAtRule. destruct (in_dec (list_eq_dec Byte.byte_eq_dec) s
  [B "import"; B "media"; B "keyframes"; B "-webkit-keyframes"; B "-o-keyframes"; B "custom-media"]); auto. Qed.
Lemma soundAt_parts a : soundAt a -> Forall soundAP (ar_preludes a) /\ soundBlock (ar_block a).
Proof.
  intros (H1 & H2 & H3 & H4 & H5). destruct (knownAtRule_dec (ar_name a)) as [Hk|Hk].
  - cbn in Hk. destruct Hk as [Hk|[Hk|Hk]].
    + destruct (H1 (eq_sym Hk)) as (-> & sp & t & rest & -> & Hr). split; [|exact I]. constructor; [exact I|].
      destruct Hr as [-> | (q & -> & Hq)]; auto.
    + destruct (H3 (eq_sym Hk)) as (Hq & bsp & rs & -> & Hrs). split; [|exists false; auto].
      destruct Hq as [-> | (q & -> & Hq)]; repeat constructor; auto; apply Hq.
    + destruct Hk as [Hk|[Hk|[Hk|[Hk|[]]]]].
      4:{ destruct (H2 (eq_sym Hk)) as (-> & sp & nm & q & -> & Hq). split; [|exact I]. repeat constructor; apply Hq. }
      all: assert (Hin : In (ar_name a) [B "keyframes"; B "-webkit-keyframes"; B "-o-keyframes"]) by (rewrite <- Hk; cbn; auto);
        destruct (H4 Hin) as ((sp & s & Hp) & bsp & rs & -> & Hrs); (split; [|exists true; auto]);
        destruct Hp as [-> | ->]; repeat constructor.
  - destruct (H5 Hk) as (-> & bsp & ds & -> & Hd). split; [constructor|exact Hd].
Qed.
Lemma atprelude_none p : soundAP p -> (printAtPrelude p = None <-> p = APNilMql \/ Exists emptyParens (preludeValues p)).
Proof.
  assert (Hno : False <-> Exists emptyParens []) by (split; [tauto|intros H; inversion H]).
  destruct p as [sp s|sp s|q| |q]; cbn [soundAP printAtPrelude preludeValues]; intros H; none; rewrite <- ?Hno.
  - split; [tauto|intros [X|X]; [discriminate|tauto]].
  - split; [tauto|intros [X|X]; [discriminate|tauto]].
  - rewrite queries_none by auto. split; [auto|intros [X|X]; [discriminate|auto]].
  - tauto.
  - rewrite query_none by auto. split; [auto|intros [X|X]; [discriminate|auto]].
Qed.
Lemma Exists_or {A} (P Q : A -> Prop) l : Exists (fun x => P x \/ Q x) l <-> Exists P l \/ Exists Q l.
Proof.
  induction l as [|x l IH]; [split; [intros H; inversion H|intros [H|H]; inversion H]|]. rewrite !Exists_cons, IH. tauto.
Qed.
Lemma Exists_eq_in {A} (x : A) l : Exists (fun y => y = x) l <-> In x l.
Proof. rewrite Exists_exists. split; [intros (y & H & ->); auto|intros H; exists x; auto]. Qed.

Lemma node_none n : soundNode n -> (printNode n = None <-> unprintable n).
Proof.
  destruct n as [r|a]; cbn [soundNode printNode]; unfold unprintable, nodeValues; cbn [nodeRules noQuery]; intros H.
  - rewrite (rule_none false r H). rewrite Exists_app, Exists_flat, !Exists_cons, !Exists_nil. tauto.
  - apply soundAt_parts in H as [Hp Hb]. rewrite !Exists_app. unfold printAt. none.
    assert (X0 : Some [M (ar_sp a)] = None <-> False) by (split; [discriminate|tauto]).
    assert (X1 : (match ar_preludes a with [] => nop | ps => w " " +++ sepBy (w " ") printAtPrelude ps end) = None <->
       In APNilMql (ar_preludes a) \/ Exists emptyParens (flat_map preludeValues (ar_preludes a))).
    { assert (Y : (match ar_preludes a with [] => nop | ps => w " " +++ sepBy (w " ") printAtPrelude ps end) = None <->
         sepBy (w " ") printAtPrelude (ar_preludes a) = None) by (destruct (ar_preludes a); none; [cbn; none|]; tauto).
      rewrite Y, sepBy_none by discriminate. rewrite Exists_flat, <- Exists_eq_in, <- Exists_or.
      apply Exists_iff. eapply Forall_impl; [|exact Hp]. apply atprelude_none. }
    assert (X2 : (match ar_block a with Some b => w "{" +++ printBlock b +++ w "}" | None => w ";" end) = None <->
       Exists noSelectors (blockRules (ar_block a)) \/ Exists emptyParens (flat_map ruleValues (blockRules (ar_block a))) \/
       Exists emptyParens (flat_map declValues (blockDecls (ar_block a)))).
    { destruct (ar_block a) as [[bsp ds|bsp rs]|]; cbn [blockRules blockDecls flat_map printBlock soundBlock] in *; none; rewrite ?Exists_nil.
      - rewrite decls_none by auto. tauto.
      - destruct Hb as [k Hb]. rewrite all_none, Exists_flat.
        assert (Z : Exists (fun x => printRule x = None) rs <-> Exists (fun r => noSelectors r \/ Exists emptyParens (ruleValues r)) rs).
        { apply Exists_iff. eapply Forall_impl; [|exact Hb]. apply rule_none. }
        rewrite Z, Exists_or. tauto.
      - tauto. }
    rewrite X0, X1, X2. tauto.
Qed.
Lemma nodes_none ns : Forall soundNode ns -> (print None ns = None <-> Exists unprintable ns).
Proof.
  intros H. assert (X : print None ns = None <-> printNodes ns = None).
  { split; intros E.
    - destruct (printNodes ns) as [l|] eqn:El; auto. apply print_none in El. congruence.
    - unfold print. rewrite E. reflexivity. }
  rewrite X. unfold printNodes. rewrite all_none. apply Exists_iff. eapply Forall_impl; [|exact H]. apply node_none.
Qed.

Section WithUnicode.
Context {U : UnicodeDigits}.
Lemma parse_ok run n content ss lines : parse run n content = ParseOk ss lines ->
  exists l l1, newLexer content [] = Ok l /\ parseLoop run n l = Ok (ss_nodes ss, ss_imports ss, l1) /\ lines = l_lines l1.
Proof.
  unfold parse. destruct (newLexer content []) as [l|p ls|] eqn:El; try discriminate.
  destruct (parseLoop run n l) as [[[nds is] l1]|[sp m|] ls|] eqn:E; try discriminate.
  intros H. inversion H; subst. exists l, l1. auto.
Qed.
Lemma C15_lemma run n content ss lines : parse run n content = ParseOk ss lines -> Forall soundNode (ss_nodes ss).
Proof. intros H. apply parse_ok in H as (l & l1 & _ & H & _). apply parseLoop_sound in H. apply H. Qed.

Lemma C18_lemma run n content ss lines : parse run n content = ParseOk ss lines ->
  (print None (ss_nodes ss) = None <-> Exists unprintable (ss_nodes ss)).
Proof. intros H. apply nodes_none. eapply C15_lemma; eauto. Qed.

(** * Transforming *)
Lemma sound_valueOk v : soundValue v -> valueOk v.
Proof.
  induction v using value_ind'; intros Hs; cbn [valueOk]; auto.
  - apply soundValue_brackets in Hs as [_ Hs]. induction H as [|v vs Hv _ IH]; auto. inversion Hs; subst. exact (conj (Hv ltac:(assumption)) (IH ltac:(assumption))).
  - apply soundValue_func in Hs as [Hm Hs]. split.
    + intros ->. specialize (Hm eq_refl). apply Forall_forall. intros a Ha. rewrite Forall_forall in *.
      split; [apply sound_notNil; auto|]. intros (sp1 & op & a1 & a2 & ->). specialize (Hm _ Ha). discriminate.
    + clear Hm. induction H as [|v vs Hv _ IH]; auto. inversion Hs; subst. exact (conj (Hv ltac:(assumption)) (IH ltac:(assumption))).
  - cbn in Hs. destruct Hs as (_ & H1 & H2). repeat split; auto using sound_notNil.
  - cbn in Hs. destruct Hs as [-> | Hs]; [exact I|auto].
Qed.
Lemma sound_declOk d : soundDecl d -> declOk d.
Proof.
  destruct d as [sp prop vs imp|]; cbn; auto. intros [_ H]. eapply Forall_impl; [|exact H].
  intros v [H1 H2]. split; [apply sound_valueOk; auto|]. split; [apply sound_notNil; auto|].
  intros (sp1 & op & a1 & a2 & ->). discriminate.
Qed.
Lemma sound_nodeOk n : soundNode n -> ~ blocked n -> nodeOk n /\ Forall declOk (ruleDecls n).
Proof.
  destruct n as [r|a]; cbn [soundNode blocked nodeOk ruleDecls].
  - intros [Hp Hd] Hb. split; [|eapply Forall_impl; [|exact Hd]; apply sound_declOk].
    unfold noSelectors in Hb. unfold ruleOk. destruct (r_prelude r) as [|[lsp sels]|sp ks]; [contradiction| |destruct Hp; discriminate].
    exists lsp, sels. split; auto. destruct Hp as (_ & _ & H). eapply Forall_impl; [|exact H]. intros s [Hs _]. exact Hs.
  - intros (_ & _ & Hm & _) Hb. split; [|constructor]. intros Hn. destruct (Hm Hn) as ([E|(q & E & _)] & _).
    + destruct Hb. rewrite E. left. reflexivity.
    + exists q, []. exact E.
Qed.
Lemma C31_parsed_lemma run n content ss lines : parse run n content = ParseOk ss lines ->
  ~ Exists blocked (ss_nodes ss) -> sheetOk (ss_nodes ss).
Proof.
  intros H Hb. apply C15_lemma in H. assert (X : Forall (fun nd => nodeOk nd /\ Forall declOk (ruleDecls nd)) (ss_nodes ss)).
  { rewrite Forall_forall in *. intros nd Hi. apply sound_nodeOk; auto. intros Y. apply Hb. apply Exists_exists. eauto. }
  split; eapply Forall_impl; try exact X; intros nd [? ?]; auto.
Qed.
Lemma C31_total_lemma (FO : FloatOps) run n content ss lines o : parse run n content = ParseOk ss lines ->
  ~ Exists blocked (ss_nodes ss) ->
  exists N, forall m, (N <= m)%nat -> exists ss' t, transform o None m ss = TOk ss' t.
Proof. intros H Hb. apply C31_lemma. eapply C31_parsed_lemma; eauto. Qed.

(** * Recovery *)
Lemma C13_lemma content l n p lines : pstate content l -> parseDeclaration n l = Panic p lines ->
  (forall d l2, parseDeclarationOrFallback n l = Ok (d, l2) ->
     exists ls s, toSemicolon (setLines l lines) ls /\ next ls = Ok l2 /\
       d = DRaw (mkSpan (l_start l) (l_lastPos ls)) (sub content (l_start l) (l_lastPos ls)) /\
       sub content (l_start l) (l_lastPos ls) = s ++ B ";") /\
  (forall ls l2, toSemicolon (setLines l lines) ls -> next ls = Ok l2 ->
     exists N, forall m, (N <= m)%nat -> parseDeclarationOrFallback m l =
       Ok (DRaw (mkSpan (l_start l) (l_lastPos ls)) (sub content (l_start l) (l_lastPos ls)), l2)).
Proof.
  intros Hp Hd. assert (Hp1 : pstate content (setLines l lines)) by (apply pLines; auto).
  assert (Hslice : forall ls l2, toSemicolon (setLines l lines) ls -> next ls = Ok l2 ->
    contentSlice l2 (l_start l) (l_lastPos ls) = Ok (sub content (l_start l) (l_lastPos ls))).
  { intros ls l2 Ht E. destruct (to_semi _ _ _ Ht Hp1) as (P2 & P3 & P4).
    assert (P5 : pstate content l2) by (eapply pNext; eauto). unfold contentSlice.
    destruct (pstate_wfl _ _ P5) as (-> & _). destruct (pstate_wfl _ _ P2) as (_ & _ & W & _).
    cbn in P3. rewrite slice_ok by lia. reflexivity. }
  split.
  - intros d l2 H. unfold parseDeclarationOrFallback in H. rewrite Hd in H. unfold parseRaw in H.
    apply bind_ok in H as (ls & H1 & H). apply bind_ok in H as (l3 & H2 & H). apply raw_to in H1.
    change (sp_start (tokenSpan (setLines l lines))) with (l_start l) in H. unfold tokenEnd in H.
    rewrite (Hslice ls l3 H1 H2) in H. cbn [bind] in H. apply ok_inj in H. inversion H; subst.
    destruct (to_semi _ _ _ H1 Hp1) as (P2 & P3 & P4). destruct (semi_text _ _ P2 P4) as (s & Hs). cbn in P3.
    exists ls, (sub content (l_start l) (l_start ls) ++ s). repeat split; auto.
    rewrite <- app_assoc, <- Hs. destruct (pstate_wfl _ _ P2) as (_ & _ & W & _). unfold sub.
    replace (l_lastPos ls - l_start l)%nat with ((l_start ls - l_start l) + (l_lastPos ls - l_start ls))%nat by lia.
    rewrite firstn_plus. f_equal. rewrite skipn_skipn'. f_equal. f_equal. lia.
  - intros ls l2 Ht E. destruct (to_raw _ _ Ht) as (N & HN). exists (Nat.max n N). intros m Hm.
    unfold parseDeclarationOrFallback.
    assert (X : parseDeclaration m l = Panic p lines).
    { assert (Hle : (n <= m)%nat) by lia. destruct (parseDeclaration_mono _ _ l Hle) as [X|X]; congruence. }
    rewrite X. unfold parseRaw.
    assert (Y : rawLoop m (setLines l lines) = Ok ls).
    { assert (Hle : (N <= m)%nat) by lia. destruct (rawLoop_mono _ _ Hle (setLines l lines)) as [Y|Y]; congruence. }
    rewrite Y. cbn [bind]. rewrite E. cbn [bind]. change (sp_start (tokenSpan (setLines l lines))) with (l_start l).
    unfold tokenEnd. rewrite (Hslice ls l2 Ht E). reflexivity.
Qed.

(** * Imports *)
Definition atStarts (ns : list node) : list nat :=
  flat_map (fun nd => match nd with NAt a => [sp_start (ar_sp a)] | NRule _ => [] end) ns.
Lemma at_starts run content n : forall l nds is l1, pstate content l -> visits run content Top l ->
  parseLoop run n l = Ok (nds, is, l1) ->
  StronglySorted lt (atStarts nds) /\ Forall (fun s => (l_start l <= s)%nat) (atStarts nds).
Proof.
  assert (TS : False -> forall i, ~ stuck (skipn i content)) by tauto.
  assert (TM : False -> ~ badMath content) by tauto.
  assert (TL : False -> forall l, visits run content InDecls l -> ~ lostDeclaration l) by tauto.
  assert (EM : badMath content -> True) by auto. assert (EC : badCustomMedia content -> True) by auto.
  induction n as [|n IH]; intros l nds is l1 Hp Hv H; [discriminate|].
  assert (Hrule : plainTop (l_cur l) = true -> StronglySorted lt (atStarts nds) /\ Forall (fun s => (l_start l <= s)%nat) (atStarts nds)).
  { intros Hc. rewrite plainTop_loop in H by auto. apply bind_ok in H as ([r l2] & H1 & H). apply bind_ok in H as ([[nds2 is2] l3] & H2 & H).
    apply ok_inj in H. inversion H; subst. clear H.
    pose proof (Tr_qrule run content False True TS TM TL EM n false (sp_start (tokenSpan l)) PrNil l Hp (vTopPrelude _ _ _ Hv Hc)) as R.
    pose proof H1 as H1'. unfold parseQualifiedRule in H1'. rewrite H1' in R. destruct R as (R1 & _ & _ & _ & R2 & _).
    destruct (IH _ _ _ _ R1 (vRule _ _ _ _ _ _ Hv Hc H1) H2) as [I1 I2]. cbn [snd] in *. split; auto.
    destruct (pstate_wfl _ _ Hp) as (_ & _ & W & _). eapply Forall_impl; [|exact I2]. cbn. intros. lia. }
  assert (Hskip : In (l_cur l) [Semicolon; CDO; CDC] -> (l2 <- next l ;; parseLoop run n l2) = Ok (nds, is, l1) ->
    StronglySorted lt (atStarts nds) /\ Forall (fun s => (l_start l <= s)%nat) (atStarts nds)).
  { intros Hc H1. apply bind_ok in H1 as (l2 & E & H1). pose proof (pstate_call _ _ Hp) as G. rewrite E in G. destruct G as (_ & G & _).
    assert (P2 : pstate content l2) by (eapply pNext; eauto).
    destruct (IH _ _ _ _ P2 (vSkip _ _ _ _ Hv Hc E) H1) as [I1 I2]. split; auto.
    destruct (pstate_wfl _ _ Hp) as (_ & _ & W & _). eapply Forall_impl; [|exact I2]. cbn. intros. lia. }
  cbn [parseLoop] in H.
  destruct (l_cur l) eqn:Ec; try (apply Hrule; reflexivity);
    try (apply Hskip; [cbn [In]; clear; intuition|exact H]; fail).
  - apply ok_inj in H. inversion H; subst. split; constructor.
  - apply bind_ok in H as ([[nd i2] l2] & H1 & H). apply bind_ok in H as ([[nds2 is2] l3] & H2 & H).
    apply ok_inj in H. inversion H; subst. clear H.
    pose proof (Tr_atRule run content False True TS TM TL EM EC n l Hp Hv Ec) as R. rewrite H1 in R.
    destruct R as (R1 & _ & _ & _ & R2 & _). cbn [snd] in *.
    destruct (IH _ _ _ _ R1 (vAt _ _ _ _ _ _ _ Hv Ec H1) H2) as [I1 I2].
    pose proof (at_sound run n l _ _ _ H1) as (_ & _ & Hid).
    destruct (pstate_wfl _ _ Hp) as (_ & _ & W & WT & _). rewrite Ec in WT. cbn in WT. destruct WT as (u & Hu & Hs).
    assert (Hlt : (l_start l < l_lastPos l)%nat).
    { pose proof (f_equal (@length byte) Hs) as L. rewrite sub_length in L by lia. rewrite app_length in L.
      assert (0 < length u)%nat by (destruct Hu as [-> | ->]; cbn; lia). lia. }
    assert (Hat : exists a, nd = NAt a /\ sp_start (ar_sp a) = l_start l \/ atStarts (nd :: nds2) = atStarts nds2).
    { destruct nd as [r|a]; [exists (mkAt 0 (mkSpan 0 0) [] [] None); right; reflexivity|].
      exists a. left. split; auto. cbn in Hid. unfold atRuleId in Hid. congruence. }
    assert (I2' : Forall (fun s => (l_start l < s)%nat) (atStarts nds2)) by (eapply Forall_impl; [|exact I2]; cbn; intros; lia).
    destruct Hat as (a & [[-> Ha]|Ha]).
    + cbn [atStarts flat_map app]. fold (atStarts nds2). rewrite Ha. split; [constructor; auto|].
      constructor; [lia|]. eapply Forall_impl; [|exact I2']. cbn. intros. lia.
    + rewrite Ha. split; auto. eapply Forall_impl; [|exact I2']. cbn. intros. lia.
Qed.

Lemma sorted_NoDup l : StronglySorted lt l -> NoDup l.
Proof.
  induction 1 as [|x l Hs IH Hf]; constructor; auto. intros Hi. rewrite Forall_forall in Hf. specialize (Hf x Hi). lia.
Qed.
Definition atIds (ns : list node) : list ptr := flat_map (fun nd => match nd with NAt a => [atRuleId a] | NRule _ => [] end) ns.
Lemma map_NoDup {A C} (f : A -> C) l : NoDup (map f l) -> NoDup l.
Proof.
  induction l as [|x l IH]; constructor; inversion H; subst; auto. intros Hi. apply H2. apply in_map; auto.
Qed.
Lemma atIds_starts ns : map snd (atIds ns) = atStarts ns.
Proof. induction ns as [|[r|a] ns IH]; cbn; auto. f_equal. exact IH. Qed.
Lemma C14_lemma run n content ss lines : parse run n content = ParseOk ss lines ->
  ss_imports ss = flat_map importOf (ss_nodes ss) /\ StronglySorted lt (atStarts (ss_nodes ss)) /\
  NoDup (atIds (ss_nodes ss)) /\ NoDup (map snd (ss_imports ss)).
Proof.
  intros H. apply parse_ok in H as (l & l1 & El & H & _).
  pose proof (at_starts run content n l _ _ _ (pNew _ _ El) (vStart _ _ _ El) H) as [S1 _].
  apply parseLoop_sound in H as (_ & <- & _). split; auto. split; auto.
  assert (N : NoDup (atIds (ss_nodes ss))) by (apply (map_NoDup snd); rewrite atIds_starts; apply sorted_NoDup; auto).
  split; auto. clear S1 l l1 El. induction (ss_nodes ss) as [|nd ns IH]; [constructor|].
  assert (Hin : forall p, In p (map snd (flat_map importOf ns)) -> In p (atIds ns)).
  { intros p Hp. apply in_map_iff in Hp as ([t q] & <- & Hp). apply in_flat_map in Hp as (nd2 & Hn & Hp).
    apply in_flat_map. exists nd2. split; auto. destruct nd2 as [r|a]; cbn [importOf] in Hp; [destruct Hp|].
    destruct (beq (ar_name a) (B "import")); [|cbn [In] in Hp; destruct Hp].
    destruct (ar_preludes a) as [|[]]; cbn [In] in Hp; try (destruct Hp; fail). destruct Hp as [Hp|[]]. inversion Hp; subst. left. reflexivity. }
  destruct nd as [r|a]; cbn [flat_map importOf atIds app] in *; [apply IH; exact N|].
  inversion N as [|x y N1 N2]; subst. specialize (IH N2). 
  destruct (beq (ar_name a) (B "import")); [|exact IH]. destruct (ar_preludes a) as [|[]]; auto.
  cbn. constructor; auto.
Qed.
End WithUnicode.
