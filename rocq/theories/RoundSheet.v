(** Printed rules, media queries, at-rules and stylesheets are read back. *)
From Verif Require Import Bytes Utf8 Source Ast AstInd Lexer Parser Printer Strip.
From Verif Require Import BytesFacts LexSpec LexFacts LexProps PrinterProofs RoundSpec RoundLex RoundValue RoundDecl RoundSel.

(** * Text *)
Definition blocktext (ds : list decl) : bytes := B "{" ++ declstext ds ++ B "}".
Definition keytext (k : keysel) : bytes := match k with KPercent _ v => v ++ B "%" | KIdent _ v => v end.
Definition pretext (p : prelude) : bytes :=
  match p with PrNil => [] | PrSel (_, l) => selsText l | PrKey _ ks => concat (map keytext ks) end.
Definition ruletext (r : qrule) : bytes := pretext (r_prelude r) ++ blocktext (r_decls r).
Definition qptext (p : mqpart) : bytes :=
  match p with
  | MIdent _ v => v
  | MPlain _ _ prop v => B "(" ++ prop ++ (if isNil v then [] else B ":" ++ vtext v) ++ B ")"
  | MRange _ _ prop l o r =>
    B "(" ++ (if isNil l then [] else vtext l ++ o) ++ prop ++ (if isNil r then [] else o ++ vtext r) ++ B ")"
  end.
Definition qtext (q : mquery) : bytes := join (B " ") (map qptext (snd q)).
Definition qstext (qs : list mquery) : bytes := join (B ",") (map qtext qs).
Definition aptext (p : atprelude) : bytes :=
  match p with
  | APString _ v => B """" ++ v ++ B """"
  | APIdent _ v => v
  | APMql l => qstext (snd l)
  | APNilMql => []
  | APMq q => qtext q
  end.
Definition atblocktext (b : block) : bytes :=
  match b with BDecls _ ds => declstext ds | BRules _ rs => concat (map ruletext rs) end.
Definition attext (a : atrule) : bytes :=
  B "@" ++ ar_name a ++ (match ar_preludes a with [] => [] | ps => B " " ++ join (B " ") (map aptext ps) end)
  ++ (match ar_block a with Some b => B "{" ++ atblocktext b ++ B "}" | None => B ";" end).
Definition nodetext (n : node) : bytes := match n with NRule r => ruletext r | NAt a => attext a end.
Definition sheettext (ns : list node) : bytes := concat (map nodetext ns).

Lemma txt_mark sq o t : txt o t -> txt (Some [M sq] +++ o) t.
Proof. intros (l & -> & <-). exists (M sq :: l). split; reflexivity. Qed.
Ltac tx := repeat first [apply txt_w | apply txt_ws | apply txt_nop | apply txt_mark | apply txt_cat].
Lemma txt_rule r : okRule r = true \/ okFrame r = true -> txt (printRule r) (ruletext r).
Proof.
  unfold okRule, okFrame, printRule, ruletext, blocktext. intros H. apply txt_mark. rewrite !andb_true_iff in H.
  assert (D : forallb okDecl (r_decls r) = true) by tauto.
  apply txt_cat; [|tx; apply txt_decls; auto].
  destruct (r_prelude r) as [|[sq sels]|sq ks]; cbn [printPrelude pretext].
  - destruct H as [[H _]|[H _]]; discriminate.
  - destruct H as [[H _]|[H _]]; [|discriminate]. apply andb_true_iff in H as [_ H]. unfold printSelList, selsText.
    apply (txt_sepBy _ _ _ (fun s => partstext (snd s))); [apply txt_w|]. rewrite forallb_forall in H. apply Forall_forall. intros s I.
    apply txt_selector. specialize (H s I). unfold okSelector in H. rewrite !andb_true_iff in H. tauto.
  - apply (txt_all _ keytext). apply Forall_forall. intros [? v|? v] _; cbn [printKey keytext]; tx.
Qed.
Lemma txt_qpart p : okQueryPart p = true -> txt (printMqPart p) (qptext p).
Proof.
  destruct p as [? v|? ? prop v|? ? prop l o r]; cbn [okQueryPart printMqPart qptext]; intros H; tx.
  - rewrite !andb_true_iff in H. destruct H as [_ H]. destruct (isNil v); [tx|]. tx. exact (txt_value _ Outside H).
  - rewrite !andb_true_iff in H. destruct H as [_ H]. destruct (isNil l); [tx|]. apply andb_true_iff in H as [H _]. tx. exact (txt_value _ Outside H).
  - rewrite !andb_true_iff in H. destruct H as [_ H]. destruct (isNil r) eqn:Er; [tx|]. tx. destruct (isNil l); apply andb_true_iff in H.
    + exact (txt_value _ Outside (proj1 H)).
    + destruct H as [_ H]. exact (txt_value _ Outside H).
Qed.
Lemma txt_query q : okQuery q = true -> txt (printMq q) (qtext q).
Proof.
  unfold okQuery, printMq, qtext. rewrite andb_true_iff. intros [_ H]. apply txt_sepBy; [tx|]. rewrite forallb_forall in H.
  apply Forall_forall. intros. apply txt_qpart; auto.
Qed.
Lemma txt_queries l : okQueries l = true -> txt (printMql l) (qstext (snd l)).
Proof.
  unfold okQueries, printMql, qstext. rewrite andb_true_iff. intros [_ H]. apply txt_sepBy; [tx|]. rewrite forallb_forall in H.
  apply Forall_forall. intros. apply txt_query; auto.
Qed.
Lemma txt_rules rs : (forall r, In r rs -> okRule r = true \/ okFrame r = true) -> txt (all printRule rs) (concat (map ruletext rs)).
Proof. intros H. apply txt_all. apply Forall_forall. intros. apply txt_rule; auto. Qed.
Lemma forallb_in {A} (f : A -> bool) l x : forallb f l = true -> In x l -> f x = true.
Proof. rewrite forallb_forall. auto. Qed.

(** The shapes of writable at-rules. *)
Inductive atForm : atrule -> Prop :=
| fImport run sq ssp s : quotable s = true -> atForm (mkAt run sq (B "import") [APString ssp s] None)
| fImportM run sq ssp s q : quotable s = true -> okQueries q = true -> atForm (mkAt run sq (B "import") [APString ssp s; APMql q] None)
| fMedia run sq q bsp rs : okQueries q = true -> forallb okRule rs = true -> atForm (mkAt run sq (B "media") [APMql q] (Some (BRules bsp rs)))
| fKeyS run sq n ssp s bsp rs : keyframesName n = true -> quotable s = true -> forallb okFrame rs = true ->
    atForm (mkAt run sq n [APString ssp s] (Some (BRules bsp rs)))
| fKeyI run sq n ssp s bsp rs : keyframesName n = true -> identifier s = true -> forallb okFrame rs = true ->
    atForm (mkAt run sq n [APIdent ssp s] (Some (BRules bsp rs)))
| fCustom run sq ssp s q : identifier s = true -> okQuery q = true -> atForm (mkAt run sq (B "custom-media") [APIdent ssp s; APMq q] None)
| fOther run sq n bsp ds : identifier n = true -> beq n (B "import") = false -> beq n (B "media") = false -> keyframesName n = false ->
    beq n (B "custom-media") = false -> forallb okDecl ds = true -> atForm (mkAt run sq n [] (Some (BDecls bsp ds))).
Lemma at_form a : okAtRule a = true -> atForm a.
Proof.
  destruct a as [run sq n pres b]. unfold okAtRule. cbn [ar_name ar_preludes ar_block].
  destruct (beq n (B "import")) eqn:E1.
  { apply beq_eq in E1. subst n. destruct pres as [|[ | | | | ] [|[ | | | | ] [|? ?]]]; try discriminate; destruct b; try discriminate.
    - apply fImport.
    - rewrite andb_true_iff. intros [? ?]. apply fImportM; auto. }
  destruct (beq n (B "media")) eqn:E2.
  { apply beq_eq in E2. subst n. destruct pres as [|[ | | | | ] [|? ?]]; try discriminate; destruct b as [[|]|]; try discriminate.
    rewrite andb_true_iff. intros [? ?]. apply fMedia; auto. }
  destruct (keyframesName n) eqn:E3.
  { destruct pres as [|[ | | | | ] [|? ?]]; try discriminate; destruct b as [[|]|]; try discriminate;
    rewrite andb_true_iff; intros [? ?]; [apply fKeyS|apply fKeyI]; auto. }
  destruct (beq n (B "custom-media")) eqn:E4.
  { apply beq_eq in E4. subst n. destruct pres as [|[ | | | | ] [|[ | | | | ] [|? ?]]]; try discriminate; destruct b; try discriminate.
    rewrite andb_true_iff. intros [? ?]. apply fCustom; auto. }
  destruct pres; try discriminate; destruct b as [[|]|]; try discriminate.
  rewrite andb_true_iff. intros [? ?]. apply fOther; auto.
Qed.
Lemma txt_at a : okAtRule a = true -> txt (printAt a) (attext a).
Proof.
  intros H. apply at_form in H. unfold printAt, attext.
  destruct H; cbn [ar_sp ar_name ar_preludes ar_block printBlock atblocktext sepBy map join printAtPrelude aptext]; tx;
    try (apply txt_queries; auto); try (apply txt_query; auto); try (apply txt_decls; auto);
    apply txt_rules; intros r I; eauto using forallb_in.
Qed.
Lemma txt_sheet ns : forallb writable ns = true -> txt (printNodes ns) (sheettext ns).
Proof.
  intros H. apply txt_all. apply Forall_forall. intros [r|a] I; pose proof (forallb_in _ _ _ H I) as W; cbn [writable printNode nodetext] in *.
  - apply txt_rule; auto.
  - apply txt_at; auto.
Qed.

(** * Reading *)
Section WithUnicode.
Context {U : UnicodeDigits}.
Variable run : nat.

(** What may follow a rule: text that does not begin with white space. *)
Definition edge (q : bytes) : Prop := lexable q /\ unsp q = q.
Lemma edge_solid q : lexable q -> solid q -> edge q. Proof. intros L S. split; auto. apply solid_unsp; auto. Qed.
Lemma edge_tok c t T : In (c, t) singles -> bz c > 32 -> edge (c :: T).
Proof. intros I S. apply edge_solid; [eapply tok_lexable; apply tok_single; eauto|exact S]. Qed.
Lemma adv T t os on T' l : Tok T t os on T' -> is T l -> l_rws l = false -> edge T' ->
  exists l', next l = Ok l' /\ is T' l' /\ l_rws l' = false.
Proof. intros K I W (L & E). rewrite <- E in L. destruct (advance _ _ _ _ _ _ K I W L) as (l' & E1 & I1 & W1). rewrite E in I1. eauto. Qed.

(** ** Rules *)
Lemma block_at ds q : forallb okDecl ds = true -> edge q ->
  Tok (blocktext ds ++ q) LCurly None None (declstext ds ++ B "}" ++ q) /\ forall l, is (blocktext ds ++ q) l -> l_rws l = false ->
  exists sq ds' l', ev (fun n => parseDeclarationBlock n l) (sq, ds', l') /\ map stripDecl ds' = map stripDecl ds /\
    is q l' /\ l_rws l' = false.
Proof.
  intros O (L & E). unfold blocktext. rewrite <- !app_assoc. rewrite <- E in L. destruct (block_read ds O q L) as (K & R).
  split; auto. intros l I W. destruct (R l I W) as (sq & ds' & l' & H1 & H2 & H3 & H4). rewrite E in H3. exists sq, ds', l'. auto.
Qed.
Definition ruleStart (t : token) : Prop := partToken t = true \/ t = Percentage.
Definition readRule (k : bool) (r : qrule) : Prop := forall q, edge q ->
  edge (ruletext r ++ q) /\ (forall l, is (ruletext r ++ q) l -> ruleStart (l_cur l)) /\
  forall l, is (ruletext r ++ q) l -> l_rws l = false ->
  exists r' l', ev (fun n => parseQualifiedRule run n k l) (r', l') /\ stripRule r' = stripRule (tidyRule r) /\ is q l' /\ l_rws l' = false.
Lemma qruleLoop_block k s pr l T' T sq ds l1 : Tok T LCurly None None T' -> is T l ->
  ev (fun n => parseDeclarationBlock n l) (sq, ds, l1) ->
  ev (fun n => qruleLoop run n k s pr l) (mkRule run (mkSpan s (sp_end sq)) pr sq ds, l1).
Proof.
  intros K I (n0 & E). exists (S n0). intros [|n] Ln; [lia|]. cbn [qruleLoop]. rewrite (cur _ _ _ _ _ _ K I), E by lia. reflexivity.
Qed.
Lemma rule_read r : okRule r = true -> readRule false r.
Proof.
  unfold okRule. rewrite andb_true_iff. intros [O D] q Q. destruct r as [rn sq pr bsp ds]. cbn [r_prelude r_decls] in *.
  destruct pr as [|[ssp sels]|]; try discriminate. apply andb_true_iff in O as [N O].
  unfold ruletext. cbn [r_prelude r_decls pretext]. rewrite <- app_assoc.
  destruct (block_at ds q D Q) as (KB & RB).
  destruct (selectors_read sels ltac:(destruct sels; discriminate) O (declstext ds ++ B "}" ++ q)) as (L1 & S1 & C1 & R1).
  assert (ET : "{"%byte :: declstext ds ++ B "}" ++ q = blocktext ds ++ q) by (unfold blocktext; rewrite <- !app_assoc; reflexivity).
  rewrite ET in *. clear ET. set (T := selsText sels ++ blocktext ds ++ q) in *.
  split; [apply edge_solid; auto|]. split; [intros l I; left; auto|]. intros l I W.
  destruct (R1 l I W) as (sq' & sels' & l1 & (n0 & E1) & D1 & I1 & W1).
  destruct (RB l1 I1 W1) as (bq & ds' & l2 & E2 & D2 & I2 & W2).
  destruct (qruleLoop_block false (sp_start (tokenSpan l)) (PrSel (sq', sels')) l1 _ _ bq ds' l2 KB I1 E2) as (n1 & E3).
  eexists _, l2. split; [|split; [|auto]].
  - exists (S (n0 + n1)). intros [|n] Ln; [lia|]. unfold parseQualifiedRule. cbn [qruleLoop]. specialize (C1 l I).
    rewrite E1 by lia. cbn [bind]. rewrite E3 by lia. destruct (l_cur l); try discriminate; reflexivity.
  - unfold stripRule, tidyRule. cbn [r_prelude r_decls stripPrelude]. rewrite D1, D2, map_map. reflexivity.
Qed.
Lemma frame_read r : okFrame r = true -> readRule true r.
Proof.
  unfold okFrame. rewrite andb_true_iff. intros [O D] q Q. destruct r as [rn sq pr bsp ds]. cbn [r_prelude r_decls] in *.
  unfold ruletext. cbn [r_prelude r_decls pretext]. rewrite <- app_assoc.
  destruct (block_at ds q D Q) as (KB & RB).
  assert (EB : edge (blocktext ds ++ q)) by (apply edge_solid; [eapply tok_lexable; eauto|vm_compute; reflexivity]).
  set (TB := blocktext ds ++ q) in *.
  destruct pr as [|[ssp sels]|ksp [|[vsp v|vsp v] [|? ?]]]; try discriminate; cbn [pretext map concat keytext]; rewrite app_nil_r.
  - rewrite <- app_assoc. assert (K : Tok (v ++ "%"%byte :: TB) Percentage None (Some v) TB) by (apply tok_percent; auto).
    change (B "%" ++ TB) with ("%"%byte :: TB).
    assert (S : solid (v ++ "%"%byte :: TB)).
    { destruct (numeral_first _ O) as (c & r & -> & F). cbn. lia. }
    split; [apply edge_solid; auto; eapply tok_lexable; eauto|].
    split; [intros l I; right; apply (cur _ _ _ _ _ _ K I)|]. intros l I W.
    destruct (adv _ _ _ _ _ _ K I W EB) as (l1 & E1 & I1 & W1).
    destruct (RB l1 I1 W1) as (bq & ds' & l2 & E2 & D2 & I2 & W2).
    set (pr := PrKey (mkSpan (sp_start (tokenSpan l)) (lastEndOf (sp_start (tokenSpan l)) (map keySpan [KPercent (tokenSpan l) v]))) [KPercent (tokenSpan l) v]).
    destruct (qruleLoop_block true (sp_start (tokenSpan l)) pr l1 _ _ bq ds' l2 KB I1 E2) as (n1 & E3).
    eexists _, l2. split; [|split; [|auto]].
    + exists (Datatypes.S (Datatypes.S n1)). intros [|n] Ln; [lia|]. unfold parseQualifiedRule. cbn [qruleLoop].
      rewrite (cur _ _ _ _ _ _ K I). unfold parseKeyframeSelectorList.
      destruct n as [|n]; [lia|]. cbn [keyLoop]. rewrite (cur _ _ _ _ _ _ K I), (num _ _ _ _ _ _ K I). tq. cbn [bind]. rewrite E1. cbn [bind].
      rewrite (cur _ _ _ _ _ _ KB I1). tq. cbn [bind]. fold pr. rewrite E3 by lia. reflexivity.
    + unfold stripRule, tidyRule. cbn [r_prelude r_decls stripPrelude]. rewrite D2. reflexivity.
  - assert (Ov : identifier v = true) by (apply bmem_In in O; destruct O as [<-|[<-|[]]]; reflexivity).
    assert (K : Tok (v ++ TB) Ident (Some v) None TB) by (apply tok_ident; auto; vm_compute; split; congruence).
    split; [apply edge_solid; [eapply tok_lexable; eauto|apply identifier_solid; auto]|].
    split; [intros l I; left; rewrite (cur _ _ _ _ _ _ K I); reflexivity|]. intros l I W.
    destruct (adv _ _ _ _ _ _ K I W EB) as (l1 & E1 & I1 & W1).
    destruct (RB l1 I1 W1) as (bq & ds' & l2 & E2 & D2 & I2 & W2).
    set (pr := PrKey (mkSpan (sp_start (tokenSpan l)) (lastEndOf (sp_start (tokenSpan l)) (map keySpan [KIdent (tokenSpan l) v]))) [KIdent (tokenSpan l) v]).
    destruct (qruleLoop_block true (sp_start (tokenSpan l)) pr l1 _ _ bq ds' l2 KB I1 E2) as (n1 & E3).
    eexists _, l2. split; [|split; [|auto]].
    + exists (Datatypes.S (Datatypes.S n1)). intros [|n] Ln; [lia|]. unfold parseQualifiedRule. cbn [qruleLoop].
      rewrite (cur _ _ _ _ _ _ K I). unfold parseKeyframeSelectorList.
      destruct n as [|n]; [lia|]. cbn [keyLoop]. rewrite (cur _ _ _ _ _ _ K I), (str _ _ _ _ _ _ K I). tq.
      assert (X : negb (beq v (B "from")) && negb (beq v (B "to")) = false) by (apply bmem_In in O; destruct O as [<-|[<-|[]]]; reflexivity).
      rewrite X. cbn [bind]. rewrite E1. cbn [bind].
      rewrite (cur _ _ _ _ _ _ KB I1). tq. cbn [bind]. fold pr. rewrite E3 by lia. reflexivity.
    + unfold stripRule, tidyRule. cbn [r_prelude r_decls stripPrelude]. rewrite D2. reflexivity.
Qed.
Lemma rules_read k rs q : Forall (readRule k) rs -> edge q ->
  let T := concat (map ruletext rs) ++ "}"%byte :: q in
  edge T /\ forall l, is T l -> l_rws l = false ->
  exists rs' e l', ev (fun n => rulesLoop run n k l) (rs', e, l') /\ map stripRule rs' = map (fun r => stripRule (tidyRule r)) rs /\
    is q l' /\ l_rws l' = false.
Proof.
  intros F Q. induction F as [|r rs Fr F IH]; cbv zeta.
  - cbn [map concat app]. assert (K : Tok ("}"%byte :: q) RCurly None None q) by (apply tok_single; simpl; tauto).
    split; [apply (edge_tok _ RCurly); [simpl; tauto|vm_compute; reflexivity]|]. intros l I W.
    destruct (adv _ _ _ _ _ _ K I W Q) as (l1 & E1 & I1 & W1).
    exists [], (tokenEnd l), l1. split; [|auto]. exists 1%nat. intros [|n] Ln; [lia|]. cbn [rulesLoop]. rewrite (cur _ _ _ _ _ _ K I), E1. reflexivity.
  - cbv zeta in IH. destruct IH as (Q1 & R1). cbn [map concat]. rewrite <- app_assoc. set (T1 := concat (map ruletext rs) ++ "}"%byte :: q) in *.
    destruct (Fr T1 Q1) as (Q2 & C2 & R2). split; auto. intros l I W.
    destruct (R2 l I W) as (r' & l1 & (n0 & E1) & D1 & I1 & W1).
    destruct (R1 l1 I1 W1) as (rs' & e & l2 & (n1 & E2) & D2 & I2 & W2).
    exists (r' :: rs'), e, l2. split; [|cbn [map]; rewrite D1, D2; auto].
    exists (S (n0 + n1)). intros [|n] Ln; [lia|]. cbn [rulesLoop]. specialize (C2 l I).
    rewrite E1 by lia. cbn [bind]. rewrite E2 by lia.
    destruct C2 as [C2|C2]; [|rewrite C2; reflexivity]. destruct (l_cur l); try discriminate; reflexivity.
Qed.

(** ** Media queries *)
Ltac en := apply endNum_stop; [reflexivity | vm_compute; congruence..].
Lemma ascii_chr T : (exists c s, T = c :: s /\ ascii c /\ bz c <> 33) -> chr T <> 33.
Proof. intros (c & s & -> & A & N). rewrite chr_first; auto. Qed.
Lemma val_read v q : okAt Outside v = true -> edge q -> endNum q ->
  edge (vtext v ++ q) /\ (exists t os on T', Tok (vtext v ++ q) t os on T' /\ valueToken t = true) /\ chr (vtext v ++ q) <> 33 /\
  forall l, is (vtext v ++ q) l -> l_rws l = false ->
  exists v' l', ev (fun n => parseValue n l) (v', l') /\ stripValue v' = stripValue v /\ is q l' /\ l_rws l' = false.
Proof.
  intros O (L & E) N. assert (A : after v q) by (split; [auto|rewrite E; auto]).
  destruct (value_read v Outside O q A) as (S & R). specialize (R ltac:(discriminate)). cbn [readAt] in R.
  split; [apply edge_solid; [apply starts_lexable; auto|apply (value_solid Outside); auto]|].
  split; [destruct S as (t & os & on & T' & K & D); rewrite (outside_paren v O) in D; exists t, os, on, T'; auto|].
  split; [destruct (first_of v Outside O) as (c & s & -> & F); apply ascii_chr; exists c, (s ++ q); split; [reflexivity|]; unfold firstOk in F; tauto|].
  intros l I W. destruct (R l I W) as (v' & l' & H1 & H2 & H3 & H4). rewrite E in H3. exists v', l'. auto.
Qed.
Lemma ident_read prop q : identifier prop = true -> edge q -> endNum q ->
  edge (prop ++ q) /\ Tok (prop ++ q) Ident (Some prop) None q /\ chr (prop ++ q) <> 33 /\
  forall l, is (prop ++ q) l -> l_rws l = false ->
  exists isp l', ev (fun n => parseValue n l) (VIdent isp prop, l') /\ is q l' /\ l_rws l' = false.
Proof.
  intros O Q N. destruct (val_read (VIdent sp0 prop) q O Q N) as (H1 & _ & H2 & H3). cbn [vtext] in *.
  split; auto. split; [apply tok_ident; auto; apply endNum_word; auto|]. split; auto.
  intros l I W. destruct (H3 l I W) as (v' & l' & E & D & I' & W'). destruct v'; try discriminate. injection D as ->.
  eexists _, l'. split; [exact E|auto].
Qed.
Definition mediaOps : list bytes := [B "<"; B ">"; B "<="; B ">="].
Lemma op_read op T : In op mediaOps -> edge T -> chr T <> 33 -> (exists t os on T', Tok T t os on T' /\ t <> Delim) ->
  edge (op ++ T) /\ endNum (op ++ T) /\ (exists s T', Tok (op ++ T) Delim s None T') /\
  forall l, is (op ++ T) l -> l_rws l = false ->
  exists l', parseMediaRangeOperator l = Ok (op, l') /\ is T l' /\ l_rws l' = false.
Proof.
  intros Io Q C (t & os & on & T' & K & Nt).
  assert (Nd : forall l, is T l -> teq (l_cur l) Delim = false).
  { intros l I. rewrite (cur _ _ _ _ _ _ K I). destruct t; try reflexivity. congruence. }
  assert (D1 : forall c X, In c (B "<>") -> chr X <> 33 -> Tok (c :: X) Delim (Some [c]) None X).
  { intros c X Ic Cx. apply tok_delim; [destruct Ic as [<-|[<-|[]]]; vm_compute; tauto|].
    destruct Ic as [<-|[<-|[]]]; unfold delimOk;
      repeat match goal with |- (_ -> _) /\ _ => split; [intros X0; vm_compute in X0; try discriminate X0|] end;
      try (intros X0; vm_compute in X0; discriminate X0).
    apply Z.eqb_neq in Cx. rewrite Cx. reflexivity. }
  assert (Ke : Tok ("="%byte :: T) Delim (Some (B "=")) None T) by (apply tok_delim; [vm_compute; tauto|apply delim_plain; vm_compute; tauto]).
  assert (Qe : edge ("="%byte :: T)) by (apply edge_solid; [eapply tok_lexable; eauto|vm_compute; reflexivity]).
  assert (Ce : chr ("="%byte :: T) <> 33) by (vm_compute; congruence).
  destruct Io as [<-|[<-|[<-|[<-|[]]]]].
  - pose proof (D1 "<"%byte T ltac:(vm_compute; tauto) C) as KO. change (B "<" ++ T) with ("<"%byte :: T).
    split; [apply edge_solid; [eapply tok_lexable; eauto|vm_compute; reflexivity]|]. split; [en|]. split; [eauto|].
    intros l I W. destruct (adv _ _ _ _ _ _ KO I W Q) as (l1 & E1 & I1 & W1). exists l1. split; auto.
    unfold parseMediaRangeOperator. rewrite (str _ _ _ _ _ _ KO I), E1. cbn [bind]. rewrite (Nd l1 I1). reflexivity.
  - pose proof (D1 ">"%byte T ltac:(vm_compute; tauto) C) as KO. change (B ">" ++ T) with (">"%byte :: T).
    split; [apply edge_solid; [eapply tok_lexable; eauto|vm_compute; reflexivity]|]. split; [en|]. split; [eauto|].
    intros l I W. destruct (adv _ _ _ _ _ _ KO I W Q) as (l1 & E1 & I1 & W1). exists l1. split; auto.
    unfold parseMediaRangeOperator. rewrite (str _ _ _ _ _ _ KO I), E1. cbn [bind]. rewrite (Nd l1 I1). reflexivity.
  - pose proof (D1 "<"%byte ("="%byte :: T) ltac:(vm_compute; tauto) Ce) as KO. change (B "<=" ++ T) with ("<"%byte :: "="%byte :: T).
    split; [apply edge_solid; [eapply tok_lexable; eauto|vm_compute; reflexivity]|]. split; [en|]. split; [eauto|].
    intros l I W. destruct (adv _ _ _ _ _ _ KO I W Qe) as (l1 & E1 & I1 & W1).
    destruct (adv _ _ _ _ _ _ Ke I1 W1 Q) as (l2 & E2 & I2 & W2). exists l2. split; auto.
    unfold parseMediaRangeOperator. rewrite (str _ _ _ _ _ _ KO I), E1. cbn [bind].
    rewrite (cur _ _ _ _ _ _ Ke I1), (str _ _ _ _ _ _ Ke I1). tq. change (negb (beq (B "=") (B "="))) with false.
    change (negb (beq [ "<"%byte ] (B "<") || beq [ "<"%byte ] (B ">"))) with false. cbn [orb]. cbv iota. rewrite E2. reflexivity.
  - pose proof (D1 ">"%byte ("="%byte :: T) ltac:(vm_compute; tauto) Ce) as KO. change (B ">=" ++ T) with (">"%byte :: "="%byte :: T).
    split; [apply edge_solid; [eapply tok_lexable; eauto|vm_compute; reflexivity]|]. split; [en|]. split; [eauto|].
    intros l I W. destruct (adv _ _ _ _ _ _ KO I W Qe) as (l1 & E1 & I1 & W1).
    destruct (adv _ _ _ _ _ _ Ke I1 W1 Q) as (l2 & E2 & I2 & W2). exists l2. split; auto.
    unfold parseMediaRangeOperator. rewrite (str _ _ _ _ _ _ KO I), E1. cbn [bind].
    rewrite (cur _ _ _ _ _ _ Ke I1), (str _ _ _ _ _ _ Ke I1). tq. change (negb (beq (B "=") (B "="))) with false.
    change (negb (beq [ ">"%byte ] (B "<") || beq [ ">"%byte ] (B ">"))) with false. cbn [orb]. cbv iota. rewrite E2. reflexivity.
Qed.

(** A feature in parentheses. *)
Definition readFeature (p : mqpart) : Prop := forall q, lexable (unsp q) ->
  (exists T', Tok (qptext p ++ q) LParen None None T') /\
  forall l, is (qptext p ++ q) l -> l_rws l = false ->
  exists p' l', ev (fun n => parseMediaFeature n l) (p', l') /\ stripQPart p' = stripQPart p /\ is (unsp q) l' /\ l_rws l' = false.
Lemma paren_edge q : edge (")"%byte :: q).
Proof. apply (edge_tok _ RParen); [simpl; tauto|vm_compute; reflexivity]. Qed.
Lemma plain_read sq isp prop v : okQueryPart (MPlain sq isp prop v) = true -> readFeature (MPlain sq isp prop v).
Proof.
  cbn [okQueryPart]. rewrite andb_true_iff. intros [Op Ov] q Lq. cbn [qptext].
  set (R := ")"%byte :: q). assert (KR : Tok R RParen None None q) by (apply tok_single; simpl; tauto).
  assert (NR : endNum R) by (unfold R; en).
  destruct (isNil v) eqn:Ev.
  - assert (ET : (B "(" ++ prop ++ [] ++ B ")") ++ q = "("%byte :: prop ++ R) by (rewrite <- !app_assoc; reflexivity).
    rewrite ET. clear ET.
    assert (K : Tok ("("%byte :: prop ++ R) LParen None None (prop ++ R)) by (apply tok_single; simpl; tauto).
    split; [eauto|]. intros l I W.
    destruct (ident_read prop R Op (paren_edge q) NR) as (Q1 & _ & _ & R1).
    destruct (adv _ _ _ _ _ _ K I W Q1) as (l1 & E1 & I1 & W1).
    destruct (R1 l1 I1 W1) as (isp' & l2 & (n0 & E2) & I2 & W2).
    destruct (advance _ _ _ _ _ _ KR I2 W2 Lq) as (l3 & E3 & I3 & W3).
    eexists _, l3. split; [|split; [|auto]].
    + exists n0. intros n Ln. unfold parseMediaFeature, expect at 1. rewrite (cur _ _ _ _ _ _ K I). tq. rewrite E1. cbn [bind].
      rewrite E2 by lia. cbn [bind]. rewrite (cur _ _ _ _ _ _ KR I2), E3. reflexivity.
    + destruct v; try discriminate. reflexivity.
  - set (V := vtext v ++ R).
    assert (ET : (B "(" ++ prop ++ (B ":" ++ vtext v) ++ B ")") ++ q = "("%byte :: prop ++ ":"%byte :: V) by (unfold V; rewrite <- !app_assoc; reflexivity).
    rewrite ET. clear ET. cbn [orb] in Ov.
    assert (K : Tok ("("%byte :: prop ++ ":"%byte :: V) LParen None None (prop ++ ":"%byte :: V)) by (apply tok_single; simpl; tauto).
    assert (KC : Tok (":"%byte :: V) Colon None None V) by (apply tok_single; simpl; tauto).
    split; [eauto|]. intros l I W.
    destruct (val_read v R Ov (paren_edge q) NR) as (QV & _ & _ & RV).
    destruct (ident_read prop (":"%byte :: V) Op) as (Q1 & _ & _ & R1); [apply (edge_tok _ Colon); [simpl; tauto|vm_compute; reflexivity]|en|].
    destruct (adv _ _ _ _ _ _ K I W Q1) as (l1 & E1 & I1 & W1).
    destruct (R1 l1 I1 W1) as (isp' & l2 & (n0 & E2) & I2 & W2).
    destruct (adv _ _ _ _ _ _ KC I2 W2 QV) as (l3 & E3 & I3 & W3).
    destruct (RV l3 I3 W3) as (v' & l4 & (n1 & E4) & D4 & I4 & W4).
    destruct (advance _ _ _ _ _ _ KR I4 W4 Lq) as (l5 & E5 & I5 & W5).
    eexists _, l5. split; [|split; [|auto]].
    + exists (n0 + n1)%nat. intros n Ln. unfold parseMediaFeature, expect at 1. rewrite (cur _ _ _ _ _ _ K I). tq. rewrite E1. cbn [bind].
      rewrite E2 by lia. cbn [bind]. rewrite (cur _ _ _ _ _ _ KC I2), E3. cbn [bind]. rewrite E4 by lia. cbn [bind].
      unfold expect. rewrite (cur _ _ _ _ _ _ KR I4). tq. rewrite E5. reflexivity.
    + cbn [stripQPart]. rewrite D4. reflexivity.
Qed.
Lemma range_read sq isp prop l o r : okQueryPart (MRange sq isp prop l o r) = true -> readFeature (MRange sq isp prop l o r).
Proof.
  cbn [okQueryPart]. rewrite !andb_true_iff. intros [[Op Oo] Ov] q Lq. cbn [qptext]. apply bmem_In in Oo.
  set (R := ")"%byte :: q). assert (KR : Tok R RParen None None q) by (apply tok_single; simpl; tauto).
  assert (NR : endNum R) by (unfold R; en).
  destruct (isNil l) eqn:El.
  - apply andb_true_iff in Ov as [Or Oi]. apply negb_true_iff in Oi. pose proof (ok_not_nil _ _ Or) as Er. rewrite Er.
    set (V := vtext r ++ R).
    assert (ET : (B "(" ++ [] ++ prop ++ (o ++ vtext r) ++ B ")") ++ q = "("%byte :: prop ++ o ++ V) by (unfold V; rewrite <- !app_assoc; reflexivity).
    rewrite ET. clear ET.
    destruct (val_read r R Or (paren_edge q) NR) as (QV & (t & os & on & T' & KV & TV) & CV & RV). fold V in QV, KV, CV, RV.
    destruct (op_read o V Oo QV CV) as (QO & NO & (so & TO & KO) & RO); [exists t, os, on, T'; split; [assumption|intros ->; discriminate]|].
    destruct (ident_read prop (o ++ V) Op QO NO) as (Q1 & _ & _ & R1).
    assert (K : Tok ("("%byte :: prop ++ o ++ V) LParen None None (prop ++ o ++ V)) by (apply tok_single; simpl; tauto).
    split; [eauto|]. intros l0 I W.
    destruct (adv _ _ _ _ _ _ K I W Q1) as (l1 & E1 & I1 & W1).
    destruct (R1 l1 I1 W1) as (isp' & l2 & (n0 & E2) & I2 & W2).
    destruct (RO l2 I2 W2) as (l3 & E3 & I3 & W3).
    destruct (RV l3 I3 W3) as (v' & l4 & (n1 & E4) & D4 & I4 & W4).
    destruct (advance _ _ _ _ _ _ KR I4 W4 Lq) as (l5 & E5 & I5 & W5).
    exists (MRange (mkSpan (sp_start (tokenSpan l0)) (tokenEnd l4)) isp' prop VNil o v'), l5. split; [|split; [|auto]].
    + exists (n0 + n1)%nat. intros n Ln. unfold parseMediaFeature, expect at 1. rewrite (cur _ _ _ _ _ _ K I). tq. rewrite E1. cbn [bind].
      rewrite E2 by lia. cbn [bind]. rewrite (cur _ _ _ _ _ _ KO I2), E3. cbn [bind]. rewrite E4 by lia. cbn [bind].
      unfold expect. rewrite (cur _ _ _ _ _ _ KR I4). tq. rewrite E5. cbn [bind].
      destruct v'; try reflexivity. destruct r; discriminate.
    + destruct l; try discriminate. cbn [stripQPart]. rewrite D4. reflexivity.
  - apply andb_true_iff in Ov as [Ol Or].
    destruct (isNil r) eqn:Er.
    + set (P := prop ++ R).
      assert (ET : (B "(" ++ (vtext l ++ o) ++ prop ++ [] ++ B ")") ++ q = "("%byte :: vtext l ++ o ++ P) by (unfold P; rewrite <- !app_assoc; reflexivity).
      rewrite ET. clear ET.
      destruct (ident_read prop R Op (paren_edge q) NR) as (Q1 & K1 & C1 & R1). fold P in Q1, K1, C1, R1.
      destruct (op_read o P Oo Q1 C1) as (QO & NO & (so & TO & KO) & RO); [exists Ident, (Some prop), None, R; split; [auto|discriminate]|].
      destruct (val_read l (o ++ P) Ol QO NO) as (QV & _ & _ & RV).
      assert (K : Tok ("("%byte :: vtext l ++ o ++ P) LParen None None (vtext l ++ o ++ P)) by (apply tok_single; simpl; tauto).
      split; [eauto|]. intros l0 I W.
      destruct (adv _ _ _ _ _ _ K I W QV) as (l1 & E1 & I1 & W1).
      destruct (RV l1 I1 W1) as (v' & l2 & (n0 & E2) & D2 & I2 & W2).
      destruct (RO l2 I2 W2) as (l3 & E3 & I3 & W3).
      destruct (R1 l3 I3 W3) as (isp' & l4 & (n1 & E4) & I4 & W4).
      destruct (advance _ _ _ _ _ _ KR I4 W4 Lq) as (l5 & E5 & I5 & W5).
      exists (MRange (mkSpan (sp_start (tokenSpan l0)) (tokenEnd l4)) isp' prop v' o VNil), l5. split; [|split; [|auto]].
      * exists (n0 + n1)%nat. intros n Ln. unfold parseMediaFeature, expect at 1. rewrite (cur _ _ _ _ _ _ K I). tq. rewrite E1. cbn [bind].
        rewrite E2 by lia. cbn [bind]. rewrite (cur _ _ _ _ _ _ KO I2), E3. cbn [bind]. rewrite E4 by lia. cbn [bind].
        rewrite (cur _ _ _ _ _ _ KR I4). tq. cbn [bind].
        unfold expect. rewrite (cur _ _ _ _ _ _ KR I4). tq. rewrite E5. reflexivity.
      * destruct r; try discriminate. cbn [stripQPart]. rewrite D2. reflexivity.
    + cbn [orb] in Or. set (V := vtext r ++ R). set (P := prop ++ o ++ V).
      assert (ET : (B "(" ++ (vtext l ++ o) ++ prop ++ (o ++ vtext r) ++ B ")") ++ q = "("%byte :: vtext l ++ o ++ P) by (unfold P, V; rewrite <- !app_assoc; reflexivity).
      rewrite ET. clear ET.
      destruct (val_read r R Or (paren_edge q) NR) as (Q2 & (t & os & on & T' & K2 & T2) & C2 & R2). fold V in Q2, K2, C2, R2.
      destruct (op_read o V Oo Q2 C2) as (QO2 & NO2 & (so2 & TO2 & KO2) & RO2); [exists t, os, on, T'; split; [assumption|intros ->; discriminate]|].
      destruct (ident_read prop (o ++ V) Op QO2 NO2) as (Q1 & K1 & C1 & R1). fold P in Q1, K1, C1, R1.
      destruct (op_read o P Oo Q1 C1) as (QO & NO & (so & TO & KO) & RO); [exists Ident, (Some prop), None, (o ++ V); split; [auto|discriminate]|].
      destruct (val_read l (o ++ P) Ol QO NO) as (QV & _ & _ & RV).
      assert (K : Tok ("("%byte :: vtext l ++ o ++ P) LParen None None (vtext l ++ o ++ P)) by (apply tok_single; simpl; tauto).
      split; [eauto|]. intros l0 I W.
      destruct (adv _ _ _ _ _ _ K I W QV) as (l1 & E1 & I1 & W1).
      destruct (RV l1 I1 W1) as (v' & l2 & (n0 & E2) & D2 & I2 & W2).
      destruct (RO l2 I2 W2) as (l3 & E3 & I3 & W3).
      destruct (R1 l3 I3 W3) as (isp' & l4 & (n1 & E4) & I4 & W4).
      destruct (RO2 l4 I4 W4) as (l5 & E5 & I5 & W5).
      destruct (R2 l5 I5 W5) as (v2 & l6 & (n2 & E6) & D6 & I6 & W6).
      destruct (advance _ _ _ _ _ _ KR I6 W6 Lq) as (l7 & E7 & I7 & W7).
      exists (MRange (mkSpan (sp_start (tokenSpan l0)) (tokenEnd l6)) isp' prop v' o v2), l7. split; [|split; [|auto]].
      * exists (n0 + n1 + n2)%nat. intros n Ln. unfold parseMediaFeature, expect at 1. rewrite (cur _ _ _ _ _ _ K I). tq. rewrite E1. cbn [bind].
        rewrite E2 by lia. cbn [bind]. rewrite (cur _ _ _ _ _ _ KO I2), E3. cbn [bind]. rewrite E4 by lia. cbn [bind].
        rewrite (cur _ _ _ _ _ _ KO2 I4). tq. rewrite E5. cbn [bind]. rewrite beq_refl. cbn [negb]. rewrite E6 by lia. cbn [bind].
        unfold expect. rewrite (cur _ _ _ _ _ _ KR I6). tq. rewrite E7. reflexivity.
      * cbn [stripQPart]. rewrite D2, D6. reflexivity.
Qed.
Definition readQPart (p : mqpart) : Prop := forall q, lexable (unsp q) -> endWord q ->
  edge (qptext p ++ q) /\ (forall l, is (qptext p ++ q) l -> l_cur l = LParen \/ l_cur l = Ident) /\
  forall l, is (qptext p ++ q) l -> l_rws l = false ->
  exists p' l', stripQPart p' = stripQPart p /\ is (unsp q) l' /\ l_rws l' = false /\
    forall ps l2, ev (fun n => mqPartsLoop n l') (ps, l2) -> ev (fun n => mqPartsLoop n l) (p' :: ps, l2).
Lemma qpart_read p : okQueryPart p = true -> readQPart p.
Proof.
  intros O q Lq Wq.
  assert (X : readFeature p -> match p with MIdent _ _ => False | _ => True end -> edge (qptext p ++ q) /\ (forall l, is (qptext p ++ q) l -> l_cur l = LParen \/ l_cur l = Ident) /\
  forall l, is (qptext p ++ q) l -> l_rws l = false ->
  exists p' l', stripQPart p' = stripQPart p /\ is (unsp q) l' /\ l_rws l' = false /\
    forall ps l2, ev (fun n => mqPartsLoop n l') (ps, l2) -> ev (fun n => mqPartsLoop n l) (p' :: ps, l2)).
  { intros F M. destruct (F q Lq) as ((T' & K) & R).
    split; [apply edge_solid; [eapply tok_lexable; eauto|destruct p; [contradiction|vm_compute; reflexivity..]]|].
    split; [intros l I; left; apply (cur _ _ _ _ _ _ K I)|]. intros l I W.
    destruct (R l I W) as (p' & l1 & (n0 & E1) & D1 & I1 & W1). exists p', l1. split; auto. split; auto. split; auto.
    intros ps l2 (n1 & E2). exists (S (n0 + n1)). intros [|n] Ln; [lia|]. cbn [mqPartsLoop].
    rewrite (cur _ _ _ _ _ _ K I), E1 by lia. cbn [bind]. rewrite E2 by lia. reflexivity. }
  destruct p as [sq v|sq isp prop v|sq isp prop l o r].
  - cbn [okQueryPart qptext] in *. assert (K : Tok (v ++ q) Ident (Some v) None q) by (apply tok_ident; auto).
    split; [apply edge_solid; [eapply tok_lexable; eauto|apply identifier_solid; auto]|].
    split; [intros l I; right; apply (cur _ _ _ _ _ _ K I)|]. intros l I W.
    destruct (advance _ _ _ _ _ _ K I W Lq) as (l1 & E1 & I1 & W1).
    exists (MIdent (tokenSpan l) v), l1. split; [reflexivity|]. split; auto. split; auto.
    intros ps l2 (n1 & E2). exists (S n1). intros [|n] Ln; [lia|]. cbn [mqPartsLoop].
    rewrite (cur _ _ _ _ _ _ K I), E1. cbn [bind]. rewrite E2 by lia. cbn [bind]. rewrite (str _ _ _ _ _ _ K I). reflexivity.
  - apply X; [apply plain_read; auto|exact Logic.I].
  - apply X; [apply range_read; auto|exact Logic.I].
Qed.
Definition queryEnd (r : bytes) : Prop := exists c t r', r = c :: r' /\ In (c, t) [(","%byte, Comma); ("{"%byte, LCurly); (";"%byte, Semicolon)].
Lemma queryEnd_facts r : queryEnd r -> edge r /\ endWord r /\
  exists t T', Tok r t None None T' /\ (t = Comma \/ t = LCurly \/ t = Semicolon).
Proof.
  intros (c & t & r' & -> & I).
  assert (J : In (c, t) singles /\ bz c > 32 /\ endWord (c :: r') /\ (t = Comma \/ t = LCurly \/ t = Semicolon)).
  { repeat (destruct I as [I|I]; [injection I as <- <-; split; [simpl; tauto|]; split; [vm_compute; reflexivity|]; split; [vm_compute; split; congruence|tauto]|]).
    destruct I. }
  destruct J as (J1 & J2 & J3 & J4). split; [eapply edge_tok; eauto|]. split; auto. exists t, r'. split; auto. apply tok_single; auto.
Qed.
Lemma qparts_read ps : ps <> [] -> forallb okQueryPart ps = true -> forall r, queryEnd r ->
  let T := join (B " ") (map qptext ps) ++ r in
  edge T /\ (forall l, is T l -> l_cur l = LParen \/ l_cur l = Ident) /\ forall l, is T l -> l_rws l = false ->
  exists ps' l', ev (fun n => mqPartsLoop n l) (ps', l') /\ map stripQPart ps' = map stripQPart ps /\ ps' <> [] /\ is r l' /\ l_rws l' = false.
Proof.
  induction ps as [|p ps IH]; intros N O r R; [congruence|]. clear N. cbv zeta.
  cbn [forallb] in O. apply andb_true_iff in O as [Op O].
  destruct (queryEnd_facts r R) as ((Lr & Ur) & Wr & t & T' & K & Dt).
  destruct ps as [|p2 ps].
  - cbn [map join]. destruct (qpart_read p Op r) as (Q1 & C1 & R1); [rewrite Ur; auto|auto|]. split; auto. split; auto.
    intros l I W. destruct (R1 l I W) as (p' & l1 & D1 & I1 & W1 & G). rewrite Ur in I1.
    exists [p'], l1. split; [|cbn [map]; rewrite D1; split; [reflexivity|]; split; [discriminate|auto]].
    apply G. exists 1%nat. intros [|n] Ln; [lia|]. cbn [mqPartsLoop]. rewrite (cur _ _ _ _ _ _ K I1).
    destruct Dt as [->|[->| ->]]; reflexivity.
  - destruct (IH ltac:(discriminate) O r R) as (Q2 & C2 & R2).
    change (join (B " ") (map qptext (p :: p2 :: ps))) with (qptext p ++ B " " ++ join (B " ") (map qptext (p2 :: ps))).
    rewrite <- !app_assoc. set (T2 := join (B " ") (map qptext (p2 :: ps)) ++ r) in *.
    assert (UU : unsp (B " " ++ T2) = T2) by reflexivity.
    destruct (qpart_read p Op (B " " ++ T2)) as (Q1 & C1 & R1); [rewrite UU; apply Q2|vm_compute; split; congruence|]. split; auto. split; auto.
    intros l I W. destruct (R1 l I W) as (p' & l1 & D1 & I1 & W1 & G). rewrite UU in I1.
    destruct (R2 l1 I1 W1) as (ps' & l2 & E2 & D2 & N2 & I2 & W2).
    exists (p' :: ps'), l2. split; [apply G; exact E2|]. split; [cbn [map] in *; rewrite D1, D2; reflexivity|]. split; [discriminate|auto].
Qed.
Definition listDone (r : bytes) : Prop := exists r', r = "{"%byte :: r' \/ r = ";"%byte :: r'.
Lemma listDone_facts r : listDone r -> queryEnd r /\ edge r /\ exists t T', Tok r t None None T' /\ (t = LCurly \/ t = Semicolon).
Proof.
  intros (r' & D). assert (Q : queryEnd r) by (destruct D as [->| ->]; [exists "{"%byte, LCurly, r'|exists ";"%byte, Semicolon, r']; simpl; tauto).
  split; auto. split; [apply queryEnd_facts; auto|].
  destruct D as [->| ->]; [exists LCurly, r'|exists Semicolon, r']; (split; [apply tok_single; simpl; tauto|tauto]).
Qed.
Lemma queries_read qs : qs <> [] -> forallb okQuery qs = true -> forall r, listDone r ->
  let T := qstext qs ++ r in
  edge T /\ forall l, is T l -> l_rws l = false ->
  exists qs' l', ev (fun n => mqListLoop n l) (qs', l') /\ map stripQuery qs' = map stripQuery qs /\ is r l' /\ l_rws l' = false.
Proof.
  induction qs as [|s qs IH]; intros N O r R; [congruence|]. clear N. cbv zeta.
  cbn [forallb] in O. apply andb_true_iff in O as [Oq O]. unfold okQuery in Oq. apply andb_true_iff in Oq as [Oe Oq].
  assert (Ne : snd s <> []) by (destruct (snd s); discriminate).
  assert (X : forall l, l_cur l = LParen \/ l_cur l = Ident -> teq (l_cur l) EOF = false) by (intros l [-> | ->]; reflexivity).
  destruct (listDone_facts r R) as (Qr & Er & t & T' & K & Dt).
  destruct qs as [|s2 qs].
  - unfold qstext. cbn [map join]. destruct (qparts_read (snd s) Ne Oq r Qr) as (Q1 & C1 & R1). fold (qtext s) in Q1, C1, R1.
    split; auto. intros l I W. destruct (R1 l I W) as (ps' & l1 & (n0 & E1) & D1 & N1 & I1 & W1).
    exists [(mkSpan (sp_start (tokenSpan l)) (lastEndOf (sp_start (tokenSpan l)) (map mqpartSpan ps')), ps')], l1.
    split; [|split; [cbn [map]; unfold stripQuery; cbn [snd]; rewrite D1; reflexivity|auto]].
    exists (S n0). intros [|n] Ln; [lia|]. cbn [mqListLoop]. rewrite (X l (C1 l I)), E1 by lia. cbn [bind].
    assert (Y : teq t Comma = false) by (destruct Dt as [->| ->]; reflexivity).
    rewrite (cur _ _ _ _ _ _ K I1), Y. destruct ps'; [congruence|]. reflexivity.
  - destruct (IH ltac:(discriminate) O r R) as (Q2 & R2).
    change (qstext (s :: s2 :: qs)) with (qtext s ++ B "," ++ qstext (s2 :: qs)). rewrite <- !app_assoc.
    set (T2 := qstext (s2 :: qs) ++ r) in *.
    assert (KC : Tok (B "," ++ T2) Comma None None T2) by (apply tok_single; simpl; tauto).
    destruct (qparts_read (snd s) Ne Oq (B "," ++ T2)) as (Q1 & C1 & R1); [exists ","%byte, Comma, T2; split; [reflexivity|simpl; tauto]|].
    fold (qtext s) in Q1, C1, R1. split; auto. intros l I W. destruct (R1 l I W) as (ps' & l1 & (n0 & E1) & D1 & N1 & I1 & W1).
    destruct (adv _ _ _ _ _ _ KC I1 W1 Q2) as (l2 & E2 & I2 & W2).
    destruct (R2 l2 I2 W2) as (qs' & l3 & (n1 & E3) & D3 & I3 & W3).
    exists ((mkSpan (sp_start (tokenSpan l)) (lastEndOf (sp_start (tokenSpan l)) (map mqpartSpan ps')), ps') :: qs'), l3.
    split; [|split; [cbn [map] in *; rewrite D3; unfold stripQuery at 1; cbn [snd]; rewrite D1; reflexivity|auto]].
    exists (S (n0 + n1)). intros [|n] Ln; [lia|]. cbn [mqListLoop]. rewrite (X l (C1 l I)), E1 by lia. cbn [bind].
    rewrite (cur _ _ _ _ _ _ KC I1). tq. rewrite E2. cbn [bind]. rewrite E3 by lia. destruct ps'; [congruence|]. reflexivity.
Qed.
Lemma mql_read qs : qs <> [] -> forallb okQuery qs = true -> forall r, listDone r ->
  let T := qstext qs ++ r in
  edge T /\ forall l, is T l -> l_rws l = false ->
  exists sq qs' l', ev (fun n => parseMediaQueryList n l) (Some (sq, qs'), l') /\ map stripQuery qs' = map stripQuery qs /\ is r l' /\ l_rws l' = false.
Proof.
  intros N O r R. destruct (queries_read qs N O r R) as (Q & G). split; auto. intros l I W.
  destruct (G l I W) as (qs' & l1 & (n0 & E) & D & I1 & W1). eexists _, qs', l1. split; [|auto].
  exists n0. intros n Ln. unfold parseMediaQueryList. rewrite E by lia. cbn [bind].
  destruct qs'; [destruct qs; [congruence|discriminate]|]. reflexivity.
Qed.

(** ** At-rules and stylesheets *)
Definition readNode (nd : node) : Prop := forall q, edge q ->
  edge (nodetext nd ++ q) /\ forall l, is (nodetext nd ++ q) l -> l_rws l = false ->
  exists nd' i l', stripNode nd' = stripNode (tidyNode nd) /\ is q l' /\ l_rws l' = false /\
    forall nds imps l2, ev (fun n => parseLoop run n l') (nds, imps, l2) -> ev (fun n => parseLoop run n l) (nd' :: nds, i ++ imps, l2).
Lemma parseLoop_at l nd i l1 nds imps l2 : l_cur l = At -> ev (fun n => parseAtRule run n l) (nd, i, l1) ->
  ev (fun n => parseLoop run n l1) (nds, imps, l2) -> ev (fun n => parseLoop run n l) (nd :: nds, i ++ imps, l2).
Proof.
  intros C (n0 & E0) (n1 & E1). exists (S (n0 + n1)). intros [|n] Ln; [lia|]. cbn [parseLoop]. rewrite C, E0 by lia. cbn [bind].
  rewrite E1 by lia. reflexivity.
Qed.
Lemma parseLoop_semi q l l1 x : is (";"%byte :: q) l -> l_rws l = false -> next l = Ok l1 ->
  ev (fun n => parseLoop run n l1) x -> ev (fun n => parseLoop run n l) x.
Proof.
  intros I W E (n0 & E0). exists (S n0). intros [|n] Ln; [lia|]. cbn [parseLoop].
  assert (K : Tok (";"%byte :: q) Semicolon None None q) by (apply tok_single; simpl; tauto).
  rewrite (cur _ _ _ _ _ _ K I), E. cbn [bind]. rewrite E0 by lia. reflexivity.
Qed.
Lemma at_edge s T : identifier s = true -> endName T -> edge ("@"%byte :: s ++ T).
Proof. intros H1 H2. apply edge_solid; [eapply tok_lexable; apply tok_at; eauto|vm_compute; reflexivity]. Qed.
Lemma name_sp T : endName (" "%byte :: T). Proof. vm_compute. split; congruence. Qed.
(** Past the name and the space of an at-rule. *)
Lemma at_name s T l : identifier s = true -> edge T -> is ("@"%byte :: s ++ " "%byte :: T) l -> l_rws l = false ->
  l_cur l = At /\ l_str l = s /\ exists l', next l = Ok l' /\ is T l' /\ l_rws l' = false.
Proof.
  intros H1 (L & E) I W. pose proof (tok_at s (" "%byte :: T) H1 (name_sp T)) as K.
  split; [apply (cur _ _ _ _ _ _ K I)|]. split; [apply (str _ _ _ _ _ _ K I)|].
  destruct (advance _ _ _ _ _ _ K I W) as (l' & E1 & I1 & W1); [exact L|]. exists l'. split; auto.
Qed.
Lemma semi_edge q : edge (";"%byte :: q). Proof. apply (edge_tok _ Semicolon); [simpl; tauto|vm_compute; reflexivity]. Qed.
Lemma curly_edge q : edge ("{"%byte :: q). Proof. apply (edge_tok _ LCurly); [simpl; tauto|vm_compute; reflexivity]. Qed.
Lemma string_edge s T : quotable s = true -> edge (dq :: s ++ dq :: T).
Proof. intros Q. apply edge_solid; [eapply tok_lexable; apply tok_string; auto|vm_compute; reflexivity]. Qed.
Lemma queries_split q : okQueries q = true -> snd q <> [] /\ forallb okQuery (snd q) = true.
Proof. unfold okQueries. rewrite andb_true_iff. intros [H1 H2]. split; auto. destruct (snd q); discriminate. Qed.

Lemma rule_node r : okRule r = true -> readNode (NRule r).
Proof.
  intros O q Q. destruct (rule_read r O q Q) as (Q1 & C1 & R1). split; auto. intros l I W.
  destruct (R1 l I W) as (r' & l1 & (n0 & E1) & D1 & I1 & W1). exists (NRule r'), [], l1.
  split; [cbn [stripNode tidyNode]; rewrite D1; reflexivity|]. split; auto. split; auto.
  intros nds imps l2 (n1 & E2). exists (S (n0 + n1)). intros [|n] Ln; [lia|]. cbn [parseLoop app].
  pose proof (C1 l I) as C. rewrite E1 by lia. cbn [bind]. rewrite E2 by lia. cbn [bind].
  destruct C as [C|C]; [|rewrite C; reflexivity]. destruct (l_cur l); try discriminate; reflexivity.
Qed.
Lemma import_node rn sq ssp s : quotable s = true -> readNode (NAt (mkAt rn sq (B "import") [APString ssp s] None)).
Proof.
  intros Oq q Q. cbn [nodetext]. unfold attext. cbn [ar_name ar_preludes ar_block map join aptext].
  assert (ET : (B "@" ++ B "import" ++ (B " " ++ B """" ++ s ++ B """") ++ B ";") ++ q = "@"%byte :: B "import" ++ " "%byte :: dq :: s ++ dq :: ";"%byte :: q)
    by (cbn; rewrite <- !app_assoc; reflexivity).
  rewrite ET. clear ET. set (S1 := ";"%byte :: q).
  split; [apply at_edge; [reflexivity|apply name_sp]|]. intros l I W.
  destruct (at_name (B "import") (dq :: s ++ dq :: S1) l eq_refl (string_edge s S1 Oq) I W) as (C & Cs & l1 & E1 & I1 & W1).
  pose proof (tok_string s S1 Oq) as K1.
  destruct (adv _ _ _ _ _ _ K1 I1 W1 (semi_edge q)) as (l2 & E2 & I2 & W2).
  assert (K2 : Tok S1 Semicolon None None q) by (apply tok_single; simpl; tauto).
  destruct (adv _ _ _ _ _ _ K2 I2 W2 Q) as (l3 & E3 & I3 & W3).
  set (a := mkAt run (mkSpan (sp_start (tokenSpan l)) (sp_end (tokenSpan l1))) (B "import") [APString (tokenSpan l1) s] None).
  exists (NAt a), [(s, atRuleId a)], l3. split; [reflexivity|]. split; auto. split; auto.
  intros nds imps l4 E4. eapply parseLoop_at; [exact C| |eapply parseLoop_semi; eauto].
  exists 2%nat. intros [|[|n]] Ln; [lia|lia|]. unfold parseAtRule. rewrite Cs. change (beq (B "import") (B "import")) with true. cbv iota.
  unfold parseImportAtRule. rewrite E1. cbn [bind]. rewrite (cur _ _ _ _ _ _ K1 I1). unfold expect.
  rewrite (cur _ _ _ _ _ _ K1 I1). tq. rewrite E2. cbn [bind].
  unfold parseMediaQueryList. cbn [mqListLoop mqPartsLoop]. rewrite !(cur _ _ _ _ _ _ K2 I2). tq. cbn [bind]. rewrite !(cur _ _ _ _ _ _ K2 I2). tq. cbn [bind].
  rewrite (str _ _ _ _ _ _ K1 I1), Cs. reflexivity.
Qed.
Lemma importm_node rn sq ssp s qs : quotable s = true -> okQueries qs = true -> readNode (NAt (mkAt rn sq (B "import") [APString ssp s; APMql qs] None)).
Proof.
  intros Oq Oqs q Q. cbn [nodetext]. unfold attext. cbn [ar_name ar_preludes ar_block map join aptext].
  set (S1 := ";"%byte :: q). set (M1 := qstext (snd qs) ++ S1).
  assert (ET : (B "@" ++ B "import" ++ (B " " ++ (B """" ++ s ++ B """") ++ B " " ++ qstext (snd qs)) ++ B ";") ++ q = "@"%byte :: B "import" ++ " "%byte :: dq :: s ++ dq :: " "%byte :: M1)
    by (unfold M1, S1; rewrite <- !app_assoc; reflexivity).
  rewrite ET. clear ET.
  split; [apply at_edge; [reflexivity|apply name_sp]|]. intros l I W.
  destruct (at_name (B "import") (dq :: s ++ dq :: " "%byte :: M1) l eq_refl (string_edge s _ Oq) I W) as (C & Cs & l1 & E1 & I1 & W1).
  pose proof (tok_string s (" "%byte :: M1) Oq) as K1.
  destruct (queries_split qs Oqs) as (Nq & Fq).
  destruct (mql_read (snd qs) Nq Fq S1) as (QM & RM); [exists q; right; reflexivity|]. fold M1 in QM, RM.
  destruct (advance _ _ _ _ _ _ K1 I1 W1 (proj1 QM)) as (l2 & E2 & I2 & W2).
  destruct (RM l2 I2 W2) as (sq' & qs' & l3 & (n0 & E3) & D3 & I3 & W3).
  assert (K2 : Tok S1 Semicolon None None q) by (apply tok_single; simpl; tauto).
  destruct (adv _ _ _ _ _ _ K2 I3 W3 Q) as (l4 & E4 & I4 & W4).
  set (a := mkAt run (mkSpan (sp_start (tokenSpan l)) (sp_end sq')) (B "import") [APString (tokenSpan l1) s; APMql (sq', qs')] None).
  exists (NAt a), [(s, atRuleId a)], l4. split.
  { unfold a. cbn [stripNode tidyNode ar_name ar_preludes ar_block ar_run ar_sp option_map]. unfold stripAt.
    cbn [ar_name ar_preludes ar_block map stripAtPrelude snd option_map]. rewrite D3. reflexivity. }
  split; auto. split; auto.
  intros nds imps l5 E5. eapply parseLoop_at; [exact C| |eapply parseLoop_semi; eauto].
  exists n0. intros n Ln. unfold parseAtRule. rewrite Cs. change (beq (B "import") (B "import")) with true. cbv iota.
  unfold parseImportAtRule. rewrite E1. cbn [bind]. rewrite (cur _ _ _ _ _ _ K1 I1). unfold expect.
  rewrite (cur _ _ _ _ _ _ K1 I1). tq. rewrite E2. cbn [bind]. rewrite E3 by lia. cbn [bind fst].
  rewrite (str _ _ _ _ _ _ K1 I1), Cs. reflexivity.
Qed.
Lemma media_node rn sq qs bsp rs : okQueries qs = true -> forallb okRule rs = true ->
  readNode (NAt (mkAt rn sq (B "media") [APMql qs] (Some (BRules bsp rs)))).
Proof.
  intros Oqs Or q Q. cbn [nodetext]. unfold attext. cbn [ar_name ar_preludes ar_block map join aptext atblocktext].
  set (R1 := concat (map ruletext rs) ++ "}"%byte :: q). set (M1 := qstext (snd qs) ++ "{"%byte :: R1).
  assert (ET : (B "@" ++ B "media" ++ (B " " ++ qstext (snd qs)) ++ B "{" ++ concat (map ruletext rs) ++ B "}") ++ q = "@"%byte :: B "media" ++ " "%byte :: M1)
    by (unfold M1, R1; rewrite <- !app_assoc; reflexivity).
  rewrite ET. clear ET.
  split; [apply at_edge; [reflexivity|apply name_sp]|]. intros l I W.
  destruct (queries_split qs Oqs) as (Nq & Fq).
  destruct (mql_read (snd qs) Nq Fq ("{"%byte :: R1)) as (QM & RM); [exists R1; left; reflexivity|]. fold M1 in QM, RM.
  destruct (rules_read false rs q) as (QR & RR); [apply Forall_forall; intros r Ir; apply rule_read; eapply forallb_in; eauto|auto|]. fold R1 in QR, RR.
  destruct (at_name (B "media") M1 l eq_refl QM I W) as (C & Cs & l1 & E1 & I1 & W1).
  destruct (RM l1 I1 W1) as (sq' & qs' & l2 & (n0 & E2) & D2 & I2 & W2).
  assert (K2 : Tok ("{"%byte :: R1) LCurly None None R1) by (apply tok_single; simpl; tauto).
  destruct (adv _ _ _ _ _ _ K2 I2 W2 QR) as (l3 & E3 & I3 & W3).
  destruct (RR l3 I3 W3) as (rs' & e & l4 & (n1 & E4) & D4 & I4 & W4).
  set (a := mkAt run (mkSpan (sp_start (tokenSpan l)) e) (B "media") [APMql (sq', qs')] (Some (BRules (mkSpan (sp_start (tokenSpan l2)) e) rs'))).
  exists (NAt a), [], l4. split.
  { unfold a. cbn [stripNode tidyNode ar_name ar_preludes ar_block ar_run ar_sp option_map]. unfold stripAt.
    cbn [ar_name ar_preludes ar_block map stripAtPrelude stripBlock snd option_map]. rewrite D2, D4, map_map. reflexivity. }
  split; auto. split; auto.
  intros nds imps l5 E5. eapply parseLoop_at; [exact C| |exact E5].
  exists (n0 + n1)%nat. intros n Ln. unfold parseAtRule. rewrite Cs. change (beq (B "media") (B "import")) with false. change (beq (B "media") (B "media")) with true. cbv iota.
  unfold parseMediaAtRule. rewrite E1. cbn [bind]. rewrite E2 by lia. cbn [bind]. unfold expect. rewrite (cur _ _ _ _ _ _ K2 I2). tq.
  rewrite E3. cbn [bind]. rewrite E4 by lia. cbn [bind]. rewrite Cs. reflexivity.
Qed.
Lemma keyframes_split n : keyframesName n = true -> identifier n = true /\ beq n (B "import") = false /\ beq n (B "media") = false.
Proof. unfold keyframesName. intros H. apply bmem_In in H. repeat (destruct H as [<-|H]; [vm_compute; auto|]). destruct H. Qed.
(** The part of a keyframes rule after its name. *)
Lemma keyframes_node rn sq nm pre pre' P t os on bsp rs : keyframesName nm = true -> forallb okFrame rs = true ->
  (match pre with APString _ _ | APIdent _ _ => True | _ => False end) ->
  aptext pre = P -> (forall T, edge (P ++ "{"%byte :: T) /\ Tok (P ++ "{"%byte :: T) t os on ("{"%byte :: T)) ->
  (forall T l, is (P ++ "{"%byte :: T) l -> match l_cur l with
         | TString => Ok (APString (tokenSpan l) (l_str l))
         | Ident => Ok (APIdent (tokenSpan l) (l_str l))
         | _ => errorf l (B "unexpected token " ++ tokenString (l_cur l) ++ B ", expected string or identifier for keyframes")
         end = Ok (pre' l)) -> (forall l, stripAtPrelude (pre' l) = stripAtPrelude pre) ->
  readNode (NAt (mkAt rn sq nm [pre] (Some (BRules bsp rs)))).
Proof.
  intros Ok_ Or Hp EP HP HM HS q Q. cbn [nodetext]. unfold attext. cbn [ar_name ar_preludes ar_block map join atblocktext]. rewrite EP.
  set (R1 := concat (map ruletext rs) ++ "}"%byte :: q).
  assert (ET : (B "@" ++ nm ++ (B " " ++ P) ++ B "{" ++ concat (map ruletext rs) ++ B "}") ++ q = "@"%byte :: nm ++ " "%byte :: P ++ "{"%byte :: R1)
    by (unfold R1; rewrite <- !app_assoc; reflexivity).
  rewrite ET. clear ET. destruct (keyframes_split nm Ok_) as (Oi & N1 & N2).
  split; [apply at_edge; [auto|apply name_sp]|]. intros l I W.
  destruct (rules_read true rs q) as (QR & RR); [apply Forall_forall; intros r Ir; apply frame_read; eapply forallb_in; eauto|auto|]. fold R1 in QR, RR.
  destruct (HP R1) as (QP & K1).
  destruct (at_name nm (P ++ "{"%byte :: R1) l Oi QP I W) as (C & Cs & l1 & E1 & I1 & W1).
  destruct (adv _ _ _ _ _ _ K1 I1 W1 (curly_edge R1)) as (l2 & E2 & I2 & W2).
  assert (K2 : Tok ("{"%byte :: R1) LCurly None None R1) by (apply tok_single; simpl; tauto).
  destruct (adv _ _ _ _ _ _ K2 I2 W2 QR) as (l3 & E3 & I3 & W3).
  destruct (RR l3 I3 W3) as (rs' & e & l4 & (n1 & E4) & D4 & I4 & W4).
  set (a := mkAt run (mkSpan (sp_start (tokenSpan l)) e) nm [pre' l1] (Some (BRules (mkSpan (sp_start (tokenSpan l2)) e) rs'))).
  exists (NAt a), [], l4. split.
  { unfold a. cbn [stripNode tidyNode ar_name ar_preludes ar_block ar_run ar_sp option_map]. unfold stripAt.
    cbn [ar_name ar_preludes ar_block map stripBlock option_map]. rewrite HS, D4, map_map. reflexivity. }
  split; auto. split; auto.
  intros nds imps l5 E5. eapply parseLoop_at; [exact C| |exact E5].
  exists n1. intros n Ln. unfold parseAtRule. rewrite Cs, N1, N2. fold (keyframesName nm). rewrite Ok_.
  unfold parseKeyframes. rewrite E1. cbn [bind]. rewrite (HM R1 l1 I1). cbn [bind]. rewrite E2. cbn [bind]. unfold expect. rewrite (cur _ _ _ _ _ _ K2 I2). tq.
  rewrite E3. cbn [bind]. rewrite E4 by lia. cbn [bind]. rewrite Cs. reflexivity.
Qed.
Lemma keyS_node rn sq nm ssp s bsp rs : keyframesName nm = true -> quotable s = true -> forallb okFrame rs = true ->
  readNode (NAt (mkAt rn sq nm [APString ssp s] (Some (BRules bsp rs)))).
Proof.
  intros Ok_ Oq Or.
  assert (A : forall T, (B """" ++ s ++ B """") ++ "{"%byte :: T = dq :: s ++ dq :: "{"%byte :: T) by (intros T; rewrite <- !app_assoc; reflexivity).
  apply (keyframes_node rn sq nm (APString ssp s) (fun l => APString (tokenSpan l) s) (B """" ++ s ++ B """") TString (Some s) None bsp rs Ok_ Or Logic.I eq_refl).
  - intros T. rewrite A. split; [apply string_edge; auto|apply tok_string; auto].
  - intros T l I. rewrite A in I. pose proof (tok_string s ("{"%byte :: T) Oq) as K. rewrite (cur _ _ _ _ _ _ K I), (str _ _ _ _ _ _ K I). reflexivity.
  - reflexivity.
Qed.
Lemma keyI_node rn sq nm ssp s bsp rs : keyframesName nm = true -> identifier s = true -> forallb okFrame rs = true ->
  readNode (NAt (mkAt rn sq nm [APIdent ssp s] (Some (BRules bsp rs)))).
Proof.
  intros Ok_ Oq Or.
  assert (A : forall T, Tok (s ++ "{"%byte :: T) Ident (Some s) None ("{"%byte :: T)) by (intros T; apply tok_ident; [auto|vm_compute; split; congruence]).
  apply (keyframes_node rn sq nm (APIdent ssp s) (fun l => APIdent (tokenSpan l) s) s Ident (Some s) None bsp rs Ok_ Or Logic.I eq_refl).
  - intros T. split; [apply edge_solid; [eapply tok_lexable; eauto|apply identifier_solid; auto]|auto].
  - intros T l I. rewrite (cur _ _ _ _ _ _ (A T) I), (str _ _ _ _ _ _ (A T) I). reflexivity.
  - reflexivity.
Qed.
Lemma custom_node rn sq ssp s qy : identifier s = true -> okQuery qy = true ->
  readNode (NAt (mkAt rn sq (B "custom-media") [APIdent ssp s; APMq qy] None)).
Proof.
  intros Oi Oqy q Q. cbn [nodetext]. unfold attext. cbn [ar_name ar_preludes ar_block map join aptext].
  set (S1 := ";"%byte :: q). set (M1 := qtext qy ++ S1).
  assert (ET : (B "@" ++ B "custom-media" ++ (B " " ++ s ++ B " " ++ qtext qy) ++ B ";") ++ q = "@"%byte :: B "custom-media" ++ " "%byte :: s ++ " "%byte :: M1)
    by (unfold M1, S1; rewrite <- !app_assoc; reflexivity).
  rewrite ET. clear ET.
  split; [apply at_edge; [reflexivity|apply name_sp]|]. intros l I W.
  destruct (mql_read [qy] ltac:(discriminate) ltac:(cbn [forallb]; rewrite Oqy; reflexivity) S1) as (QM & RM); [exists q; right; reflexivity|].
  change (qstext [qy] ++ S1) with M1 in QM, RM.
  assert (A : after (VIdent sp0 s) (" "%byte :: M1)) by (split; [right; en|exact (proj1 QM)]).
  destruct (value_read (VIdent sp0 s) Outside Oi (" "%byte :: M1) A) as (SV & RV). specialize (RV ltac:(discriminate)). cbn [readAt vtext] in RV. cbn [vtext] in SV.
  assert (QI : edge (s ++ " "%byte :: M1)) by (apply edge_solid; [exact (starts_lexable (VIdent sp0 s) _ SV)|apply identifier_solid; auto]).
  destruct (at_name (B "custom-media") (s ++ " "%byte :: M1) l eq_refl QI I W) as (C & Cs & l1 & E1 & I1 & W1).
  destruct (RV l1 I1 W1) as (v' & l2 & (n0 & E2) & D2 & I2 & W2). change (unsp (" "%byte :: M1)) with M1 in I2.
  destruct v'; try discriminate. injection D2 as ->.
  destruct (RM l2 I2 W2) as (sq' & qs' & l3 & (n1 & E3) & D3 & I3 & W3).
  destruct qs' as [|q' [|? ?]]; try discriminate. injection D3 as D3.
  assert (K2 : Tok S1 Semicolon None None q) by (apply tok_single; simpl; tauto).
  destruct (adv _ _ _ _ _ _ K2 I3 W3 Q) as (l4 & E4 & I4 & W4).
  eexists (NAt (mkAt run (mkSpan (sp_start (tokenSpan l)) (sp_end (fst q'))) (B "custom-media") [APIdent _ s; APMq q'] None)), [], l4. split.
  { cbn [stripNode tidyNode ar_name ar_preludes ar_block ar_run ar_sp option_map]. unfold stripAt.
    cbn [ar_name ar_preludes ar_block map stripAtPrelude option_map]. unfold stripQuery. rewrite D3. reflexivity. }
  split; auto. split; auto.
  intros nds imps l5 E5. eapply parseLoop_at; [exact C| |eapply parseLoop_semi; eauto].
  exists (n0 + n1)%nat. intros n Ln. unfold parseAtRule. rewrite Cs. change (beq (B "custom-media") (B "import")) with false.
  change (beq (B "custom-media") (B "media")) with false.
  change (bmem (B "custom-media") [B "keyframes"; B "-webkit-keyframes"; B "-o-keyframes"]) with false.
  change (beq (B "custom-media") (B "custom-media")) with true. cbv iota.
  unfold parseCustomMediaAtRule. rewrite E1. cbn [bind]. rewrite E2 by lia. cbn [bind]. rewrite E3 by lia. cbn [bind]. rewrite Cs. reflexivity.
Qed.
Lemma generic_node rn sq nm bsp ds : identifier nm = true -> beq nm (B "import") = false -> beq nm (B "media") = false -> keyframesName nm = false ->
  beq nm (B "custom-media") = false -> forallb okDecl ds = true -> readNode (NAt (mkAt rn sq nm [] (Some (BDecls bsp ds)))).
Proof.
  intros Oi N1 N2 N3 N4 Od q Q. cbn [nodetext]. unfold attext. cbn [ar_name ar_preludes ar_block map join atblocktext].
  assert (ET : (B "@" ++ nm ++ [] ++ B "{" ++ declstext ds ++ B "}") ++ q = "@"%byte :: nm ++ blocktext ds ++ q) by (unfold blocktext; rewrite <- !app_assoc; reflexivity).
  rewrite ET. clear ET.
  assert (EN : endName (blocktext ds ++ q)) by (vm_compute; split; congruence).
  split; [apply at_edge; auto|]. intros l I W.
  destruct (block_at ds q Od Q) as (KB & RB).
  pose proof (tok_at nm _ Oi EN) as K.
  destruct (adv _ _ _ _ _ _ K I W) as (l1 & E1 & I1 & W1); [apply edge_solid; [eapply tok_lexable; eauto|vm_compute; reflexivity]|].
  destruct (RB l1 I1 W1) as (sq' & ds' & l2 & (n0 & E2) & D2 & I2 & W2).
  exists (NAt (mkAt run (mkSpan (sp_start (tokenSpan l)) (sp_end sq')) nm [] (Some (BDecls sq' ds')))), [], l2. split.
  { cbn [stripNode tidyNode ar_name ar_preludes ar_block ar_run ar_sp option_map]. unfold stripAt.
    cbn [ar_name ar_preludes ar_block map stripAtPrelude option_map stripBlock]. rewrite D2. reflexivity. }
  split; auto. split; auto.
  intros nds imps l5 E5. eapply parseLoop_at; [apply (cur _ _ _ _ _ _ K I)| |exact E5].
  exists n0. intros n Ln. unfold parseAtRule. rewrite (str _ _ _ _ _ _ K I), N1, N2, N4. fold (keyframesName nm). rewrite N3.
  unfold parseGenericAtRule. rewrite E1. cbn [bind]. rewrite E2 by lia. cbn [bind]. rewrite (str _ _ _ _ _ _ K I). reflexivity.
Qed.
Lemma node_read nd : writable nd = true -> readNode nd.
Proof.
  destruct nd as [r|a]; cbn [writable]; intros O; [apply rule_node; auto|]. apply at_form in O. destruct O.
  - apply import_node; auto.
  - apply importm_node; auto.
  - apply media_node; auto.
  - apply keyS_node; auto.
  - apply keyI_node; auto.
  - apply custom_node; auto.
  - apply generic_node; auto.
Qed.
Lemma eof_edge : edge []. Proof. split; [eapply tok_lexable; apply tok_eof|reflexivity]. Qed.
(** The tokens after the last node: none. *)
Definition ending (q : bytes) : Prop := edge q /\ exists q', Tok q EOF None None q'.
Lemma ending_nil : ending []. Proof. split; [apply eof_edge|]. exists []. apply tok_eof. Qed.
Lemma sheet_read ns q : forallb writable ns = true -> ending q -> edge (sheettext ns ++ q) /\ forall l, is (sheettext ns ++ q) l -> l_rws l = false ->
  exists ns' imps l', ev (fun n => parseLoop run n l) (ns', imps, l') /\ strip ns' = strip (tidy ns).
Proof.
  intros O Eq. revert O. induction ns as [|nd ns IH]; intros O; unfold sheettext; cbn [map concat app].
  - destruct Eq as (Q & q' & K). split; auto. intros l I W. exists [], [], l. split; [|reflexivity]. exists 1%nat. intros [|n] Ln; [lia|].
    cbn [parseLoop]. rewrite (cur _ _ _ _ _ _ K I). reflexivity.
  - cbn [forallb] in O. apply andb_true_iff in O as [On O]. destruct (IH O) as (Q & R). fold (sheettext ns). rewrite <- app_assoc.
    destruct (node_read nd On (sheettext ns ++ q) Q) as (Q1 & R1). split; auto. intros l I W.
    destruct (R1 l I W) as (nd' & i & l1 & D1 & I1 & W1 & G). destruct (R l1 I1 W1) as (ns' & imps & l2 & E & D).
    exists (nd' :: ns'), (i ++ imps), l2. split; [apply G; exact E|]. unfold strip, tidy in *. cbn [map]. rewrite D1, D. reflexivity.
Qed.
End WithUnicode.
