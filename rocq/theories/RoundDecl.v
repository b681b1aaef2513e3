(** Printed declarations are read back. *)
From Verif Require Import Bytes Utf8 Source Ast AstInd Lexer Parser Printer Strip.
From Verif Require Import BytesFacts LexSpec LexFacts PrinterProofs RoundSpec RoundLex RoundValue.

(** * Text *)
Fixpoint dtext (vs : list value) : bytes :=
  match vs with
  | [] => []
  | v :: r =>
    match r with
    | [] => vtext v
    | v' :: _ => vtext v ++ (if negb (isComma v') && negb (isComma v) then B " " else []) ++ dtext r
    end
  end.
Definition impText (imp : bool) : bytes := if imp then B "!important" else [].
Definition decltext (d : decl) : bytes :=
  match d with
  | DDecl _ prop vs imp => prop ++ B ":" ++ dtext vs ++ impText imp
  | DRaw _ v => v
  end.
Definition declstext (ds : list decl) : bytes := join (B ";") (map decltext ds).

Lemma txt_declValue v : okDeclValue v = true -> txt (printValue v) (vtext v).
Proof. destruct v; cbn [okDeclValue]; intros H; try exact (txt_value _ Outside H); [apply txt_w|apply txt_ws]. Qed.
Lemma txt_values vs : forallb okDeclValue vs = true -> txt (printValues vs) (dtext vs).
Proof.
  induction vs as [|v [|v' vs] IH]; intros H.
  - apply txt_nop.
  - simpl in H. apply andb_true_iff in H as [H _]. apply txt_declValue; auto.
  - change (txt (printValue v +++ (if negb (isComma v') && negb (isComma v) then w " " else nop) +++ printValues (v' :: vs))
      (vtext v ++ (if negb (isComma v') && negb (isComma v) then B " " else []) ++ dtext (v' :: vs))).
    simpl in H. apply andb_true_iff in H as [H1 H2].
    apply txt_cat; [apply txt_declValue; auto|]. apply txt_cat; [|apply IH; auto].
    destruct (negb (isComma v') && negb (isComma v)); [apply txt_w|apply txt_nop].
Qed.
Lemma txt_decl d : okDecl d = true -> txt (printDecl d) (decltext d).
Proof.
  destruct d as [? ? ? imp|]; cbn [okDecl]; [|discriminate]. rewrite !andb_true_iff. intros [_ H]. cbn [printDecl decltext].
  repeat first [apply txt_w | apply txt_ws | apply txt_cat]; [apply txt_values; auto|].
  destruct imp; [apply txt_w|apply txt_nop].
Qed.
Lemma txt_decls ds : forallb okDecl ds = true -> txt (printDecls ds) (declstext ds).
Proof.
  intros H. apply txt_sepBy; [apply txt_w|]. rewrite forallb_forall in H. apply Forall_forall. intros. apply txt_decl; auto.
Qed.

(** Decide comparisons of tokens. *)
Ltac tq := repeat match goal with |- context [teq ?a ?b] =>
    let z := eval vm_compute in (teq a b) in
    match z with true => idtac | false => idtac end; change (teq a b) with z end;
  cbn [negb andb]; cbv iota.

Section WithUnicode.
Context {U : UnicodeDigits}.

(** A declaration ends at ";" or "}". *)
Definition declEnd (r : bytes) : Prop := exists c r', r = c :: r' /\ (c = ";"%byte \/ c = "}"%byte).
Lemma declEnd_tok r : declEnd r -> exists t T', Tok r t None None T' /\ (t = Semicolon \/ t = RCurly).
Proof.
  intros (c & r' & -> & [-> | ->]).
  - exists Semicolon, r'. split; auto. apply tok_single; simpl; tauto.
  - exists RCurly, r'. split; auto. apply tok_single; simpl; tauto.
Qed.
Lemma declEnd_solid r : declEnd r -> solid r.
Proof. intros (c & r' & -> & [-> | ->]); vm_compute; reflexivity. Qed.

(** What follows a value of a declaration. *)
Definition valueEnd (q : bytes) : Prop :=
  (exists c q', q = c :: q' /\ In c (B " ,;}")) \/ exists q', q = B "!important" ++ q'.
Lemma valueEnd_num q : valueEnd q -> endNum q.
Proof.
  intros [(c & q' & -> & H)|(q' & ->)].
  - repeat (destruct H as [<-|H]; [apply endNum_stop; [reflexivity|vm_compute; congruence..]|]). destruct H.
  - apply endNum_stop; [reflexivity|vm_compute; congruence..].
Qed.
Lemma delim_lone c q : valueEnd q -> delimOk c q.
Proof.
  intros V.
  assert (D : exists d q', q = d :: q' /\ (bz d = 32 \/ bz d = 44 \/ bz d = 59 \/ bz d = 125 \/ (bz d = 33 /\ chr q' = 105))).
  { destruct V as [(c0 & q' & -> & H)|(q' & ->)].
    - exists c0, q'. split; auto. repeat (destruct H as [<-|H]; [vm_compute; tauto|]). destruct H.
    - eexists. eexists. split; [reflexivity|]. right. right. right. right. split; [reflexivity|]. apply chr_ascii. vm_compute. reflexivity. }
  destruct D as (d & q' & -> & D).
  assert (C : chr (d :: q') = bz d) by (apply chr_ascii; lia).
  unfold delimOk. rewrite C. cbn [skipn].
  assert (ND : isDigit (bz d) = false) by (apply digit_no; lia).
  assert (SI : forall x y, startsIdentifier (bz d) x y = false).
  { intros. unfold startsIdentifier. destruct D as [->|[->|[->|[->|[-> _]]]]]; reflexivity. }
  assert (SN : forall g x, g = 43 \/ g = 45 -> startsNumber g (bz d) x = false).
  { intros g x G. unfold startsNumber. rewrite ND. destruct (Z.eqb_spec (bz d) 46); [lia|]. destruct G; subst; reflexivity. }
  split; [intros; apply SN; auto|]. split.
  { intros; split; [apply SN; auto|]. split; [|apply SI]. destruct (Z.eqb_spec (bz d) 45); [lia|reflexivity]. }
  split.
  { intros. destruct (Z.eqb_spec (bz d) 33) as [E|]; [|reflexivity]. cbn [andb].
    destruct D as [D|[D|[D|[D|[_ D]]]]]; try lia. }
  split; [intros; apply SI|]. split.
  { intros. destruct D as [->|[->|[->|[->|[-> _]]]]]; reflexivity. }
  split; [|intros; lia].
  intros. unfold startsNumber. rewrite ND. destruct D as [->|[->|[->|[->|[-> _]]]]]; reflexivity.
Qed.

(** * The values *)
Definition finish (imp : bool) (r : bytes) : bytes := impText imp ++ r.
Definition endOk (e : option nat) : Prop := e <> None.

Lemma decl_end l r e d imp : declEnd r -> is r l -> ev (fun n => declLoop n (Some e) d imp l) ([], (if (d <? e)%nat then e else d), imp, l).
Proof.
  intros D I. destruct (declEnd_tok _ D) as (t & T' & K & X). exists 2%nat. intros [|[|n]] L; try lia.
  cbn [declLoop]. rewrite (cur _ _ _ _ _ _ K I). destruct X as [-> | ->]; cbn [parseValue]; rewrite (cur _ _ _ _ _ _ K I); reflexivity.
Qed.
Lemma finish_valueEnd imp r : declEnd r -> valueEnd (finish imp r).
Proof.
  intros (c & r' & -> & H). destruct imp; [right; eexists; reflexivity|]. left. exists c, r'. split; auto.
  destruct H; subst; vm_compute; tauto.
Qed.
Lemma valueEnd_solid imp r : declEnd r -> solid (finish imp r).
Proof. intros D. destruct imp; [vm_compute; reflexivity|]. apply declEnd_solid; auto. Qed.
Lemma important_tok r : declEnd r -> Tok (B "!important" ++ r) Delim (Some (B "!")) None (B "important" ++ r) /\
  Tok (B "important" ++ r) Ident (Some (B "important")) None r.
Proof.
  intros (c & r' & -> & H). split.
  - apply (tok_delim "!"%byte (B "important" ++ c :: r')); [vm_compute; tauto|].
    unfold delimOk. change (bz "!") with 33. repeat (split; [intros; discriminate|]). intros; discriminate.
  - apply tok_ident; [reflexivity|]. destruct H; subst; (split; [reflexivity|vm_compute; congruence]).
Qed.

Lemma finish_read imp r : declEnd r -> lexable (finish imp r) /\ forall l e d, is (finish imp r) l -> l_rws l = false ->
  exists e' l', ev (fun n => declLoop n (Some e) d false l) ([], e', imp, l') /\ is r l' /\ l_rws l' = false.
Proof.
  intros D. destruct imp; cbn [finish impText].
  - destruct (important_tok _ D) as [K1 K2]. unfold finish, impText. split; [eapply tok_lexable; eauto|]. intros l e d I W.
    destruct (advance _ _ _ _ _ _ K1 I W (tok_lexable _ _ _ _ _ K2)) as (l1 & E1 & I1 & W1).
    destruct (declEnd_tok _ D) as (t & T' & K3 & _). pose proof (solid_unsp _ (declEnd_solid _ D)) as U3.
    destruct (advance _ _ _ _ _ _ K2 I1 W1) as (l2 & E2 & I2 & W2); [rewrite U3; eapply tok_lexable; eauto|]. rewrite U3 in I2.
    destruct (decl_end l2 r e (tokenEnd l1) true D I2) as (n0 & E3).
    eexists. exists l2. split; [|auto]. exists (S n0). intros [|n] L; [lia|]. cbn [declLoop].
    rewrite (cur _ _ _ _ _ _ K1 I), (str _ _ _ _ _ _ K1 I). cbn [beq negb]. change (negb (beq (B "!") (B "!"))) with false. cbv iota.
    rewrite E1. cbn [bind]. rewrite (str _ _ _ _ _ _ K2 I1). change (isImportantString (B "important")) with true. cbn [negb].
    rewrite E2. cbn [bind]. apply E3. lia.
  - unfold finish, impText. cbn [app]. destruct (declEnd_tok _ D) as (t & T' & K3 & _). split; [eapply tok_lexable; eauto|].
    intros l e d I W. eexists. exists l. split; [|auto]. apply (decl_end l r e d false); auto.
Qed.

Lemma dtext_cons v vs : exists sep, dtext (v :: vs) = vtext v ++ sep ++ dtext vs /\
  (sep = B " " \/ (sep = [] /\ (vs = [] \/ exists v' vs', vs = v' :: vs' /\ (isComma v' = true \/ isComma v = true)))).
Proof.
  destruct vs as [|v' vs].
  - exists []. split; [cbn; rewrite app_nil_r; reflexivity|]. auto.
  - exists (if negb (isComma v') && negb (isComma v) then B " " else []). split; [reflexivity|].
    destruct (isComma v') eqn:E1; [|destruct (isComma v) eqn:E2]; cbn [negb andb]; eauto 10.
Qed.
Lemma declValue_solid v r : okDeclValue v = true -> solid (vtext v ++ r).
Proof.
  destruct v; cbn [okDeclValue]; intros H; try exact (value_solid Outside _ _ H); [vm_compute; reflexivity|].
  apply bmem_In in H. repeat (destruct H as [<-|H]; [vm_compute; reflexivity|]). destruct H.
Qed.
Lemma lone_delims s : bmem s loneDelims = true -> exists c, s = [c] /\ In c delims /\ s <> B "!".
Proof.
  intros H. apply bmem_In in H. repeat (destruct H as [<-|H]; [eexists; split; [reflexivity|]; split; [vm_compute; tauto|discriminate]|]). destruct H.
Qed.

Lemma outside_paren v : okAt Outside v = true -> beginsParen v = false.
Proof.
  destruct v; cbn; try reflexivity; try discriminate.
  destruct (beq op _); [discriminate|]. destruct (beq op _); [discriminate|]. destruct (beq op _ || beq op _); discriminate.
Qed.
Lemma values_read vs : forallb okDeclValue vs = true -> forall imp r, declEnd r ->
  let T := dtext vs ++ finish imp r in
  lexable T /\ solid T /\ forall l e d, is T l -> l_rws l = false -> (vs = [] -> e <> None) ->
  exists vs' e' l', ev (fun n => declLoop n e d false l) (vs', e', imp, l') /\ map stripValue vs' = map stripValue vs /\
    is r l' /\ l_rws l' = false.
Proof.
  induction vs as [|v vs IH]; intros O imp r D; cbv zeta.
  - cbn [dtext app]. destruct (finish_read imp r D) as [L R]. split; auto. split; [apply valueEnd_solid; auto|].
    intros l e d I W N. destruct e as [e|]; [|specialize (N eq_refl); congruence].
    destruct (R l e d I W) as (e' & l' & E & I' & W'). exists [], e', l'. auto.
  - cbn [forallb] in O. apply andb_true_iff in O as [Ov O]. specialize (IH O imp r D). cbv zeta in IH.
    destruct (dtext_cons v vs) as (sep & -> & Sep). rewrite <- !app_assoc.
    set (T1 := dtext vs ++ finish imp r) in *. set (q := sep ++ T1). destruct IH as (L1 & S1 & R1).
    assert (Uq : unsp q = T1).
    { destruct Sep as [-> | [-> _]]; [reflexivity|]. apply solid_unsp; auto. }
    assert (Lq : lexable (unsp q)) by (rewrite Uq; auto).
    assert (Vq : isComma v = false -> valueEnd q).
    { intros C. destruct Sep as [-> | [-> [-> | (v' & vs' & -> & X)]]].
      - left. exists " "%byte, T1. split; [reflexivity|]. vm_compute. tauto.
      - apply finish_valueEnd; auto.
      - destruct X as [X|X]; [|congruence]. destruct v'; try discriminate. left.
        unfold q, T1. destruct (dtext_cons (VComma sp) vs') as (sep' & -> & _).
        exists ","%byte. eexists. split; [reflexivity|vm_compute; tauto]. }
    assert (X : lexable (vtext v ++ q) /\ forall l e d, is (vtext v ++ q) l -> l_rws l = false ->
      exists v' l' e', stripValue v' = stripValue v /\ is T1 l' /\ l_rws l' = false /\ e' <> None /\
        forall vs' x imp' l2, ev (fun n => declLoop n e' d false l') (vs', x, imp', l2) -> ev (fun n => declLoop n e d false l) (v' :: vs', x, imp', l2)).
    { rewrite <- Uq. destruct v; cbn [okDeclValue isComma] in Ov, Vq.
      all: try (
        match goal with |- context [vtext ?v] =>
          assert (A : after v q) by (split; [right; apply valueEnd_num; auto | auto]);
          destruct (value_read v Outside Ov q A) as [Sv Rv]; specialize (Rv ltac:(discriminate)); cbn [readAt] in Rv;
          split; [apply starts_lexable; auto|]; intros l e d I W;
          destruct (Rv l I W) as (v' & l1 & (n0 & E1) & S' & I1 & W1);
          destruct (span_some v' (nil_strip _ _ S' (ok_not_nil _ _ Ov))) as (s & Es);
          exists v', l1, (Some (sp_end s)); split; [exact S'|]; split; [exact I1|]; split; [exact W1|]; split; [discriminate|];
          intros vs' x imp' l2 (n1 & E2); exists (Datatypes.S (n0 + n1)%nat); intros [|n] Ln; [lia|];
          destruct Sv as (t & os & on & T' & K & P); rewrite (outside_paren _ Ov) in P; cbn [declLoop]; rewrite (cur _ _ _ _ _ _ K I);
          destruct t; try discriminate; rewrite E1 by lia; cbn [bind]; rewrite Es, E2 by lia; reflexivity
        end).
      - (* comma *)
        cbn [vtext app B]. assert (K : Tok (","%byte :: q) Comma None None q) by (apply tok_single; simpl; tauto).
        split; [eapply tok_lexable; eauto|]. intros l e d I W.
        destruct (advance _ _ _ _ _ _ K I W Lq) as (l1 & E & I1 & W1).
        exists (VComma (tokenSpan l)), l1, (Some (sp_end (tokenSpan l))). split; [reflexivity|]. split; auto. split; auto. split; [discriminate|].
        intros vs' x imp' l2 (n1 & E2). exists (Datatypes.S n1). intros [|n] Ln; [lia|]. cbn [declLoop].
        rewrite (cur _ _ _ _ _ _ K I), E. cbn [bind]. rewrite E2 by lia. reflexivity.
      - (* delimiter *)
        destruct (lone_delims _ Ov) as (c & -> & Ic & Nb). cbn [vtext].
        assert (K : Tok ([c] ++ q) Delim (Some [c]) None q) by (apply tok_delim; auto; apply delim_lone; auto).
        split; [eapply tok_lexable; eauto|]. intros l e d I W.
        destruct (advance _ _ _ _ _ _ K I W Lq) as (l1 & E & I1 & W1).
        exists (VRaw (tokenSpan l) [c]), l1, (Some (sp_end (tokenSpan l))). split; [reflexivity|]. split; auto. split; auto. split; [discriminate|].
        intros vs' x imp' l2 (n1 & E2). exists (Datatypes.S n1). intros [|n] Ln; [lia|]. cbn [declLoop].
        rewrite (cur _ _ _ _ _ _ K I), (str _ _ _ _ _ _ K I).
        assert (Nb' : beq [c] (B "!") = false) by (destruct (beq [c] (B "!")) eqn:Q; auto; apply beq_eq in Q; congruence).
        rewrite Nb'. cbn [negb]. rewrite E. cbn [bind]. rewrite E2 by lia. reflexivity. }
    destruct X as [X1 X2]. split; auto. split; [apply declValue_solid; auto|]. intros l e d I W _.
    destruct (X2 l e d I W) as (v' & l1 & e1 & S' & I1 & W1 & N1 & E1).
    destruct (R1 l1 e1 d I1 W1 (fun _ => N1)) as (vs' & e2 & l2 & E2 & S2 & I2 & W2).
    exists (v' :: vs'), e2, l2. split; [apply E1; auto|]. cbn [map]. rewrite S', S2. auto.
Qed.

(** * Declarations *)
Lemma property_first prop T : okProperty prop = true -> solid (prop ++ T).
Proof.
  unfold okProperty. intros H. apply orb_true_iff in H as [H|H].
  - destruct (identifier_first _ H) as (c & r & -> & [F|F]); simpl; [apply startByte_facts in F|]; lia.
  - apply andb_true_iff in H as [H _]. destruct prop as [|c prop]; [discriminate|]. simpl in *. apply Z.eqb_eq in H. lia.
Qed.
Lemma decl_read d : okDecl d = true -> forall r, declEnd r ->
  let T := decltext d ++ r in
  lexable T /\ solid T /\ (exists t os on T', Tok T t os on T' /\ t <> RCurly) /\ forall l, is T l -> l_rws l = false ->
  exists d' l', ev (fun n => parseDeclarationOrFallback n l) (d', l') /\ stripDecl d' = stripDecl d /\ is r l' /\ l_rws l' = false.
Proof.
  destruct d as [sp prop vs imp|]; cbn [okDecl]; [|discriminate]. rewrite !andb_true_iff. intros ((Op & Nv) & Ov) r D. cbv zeta.
  cbn [decltext]. rewrite <- !app_assoc. fold (finish imp r).
  destruct (values_read vs Ov imp r D) as (L1 & S1 & R1). set (T1 := dtext vs ++ finish imp r) in *.
  assert (K1 : Tok (":"%byte :: T1) Colon None None T1) by (apply tok_single; simpl; tauto).
  assert (K2 : forall s, identifier s = true -> Tok (s ++ ":"%byte :: T1) Ident (Some s) None (":"%byte :: T1)).
  { intros s Is. apply tok_ident; auto. split; [reflexivity|vm_compute; congruence]. }
  (* from the property name on *)
  assert (R : forall s l, identifier s = true -> is (s ++ B ":" ++ T1) l -> l_rws l = false ->
    exists vs' e l', ev (fun n => l1 <- expect Ident l ;; l2 <- expect Colon l1 ;; declLoop n None (sp_end (tokenSpan l)) false l2) (vs', e, imp, l') /\
      map stripValue vs' = map stripValue vs /\ is r l' /\ l_rws l' = false /\ l_str l = s).
  { intros s l Is I W. pose proof (K2 _ Is) as K.
    destruct (advance _ _ _ _ _ _ K I W (tok_lexable _ _ _ _ _ K1)) as (l1 & E1 & I1 & W1).
    destruct (advance _ _ _ _ _ _ K1 I1 W1) as (l2 & E2 & I2 & W2); [rewrite solid_unsp; auto|]. rewrite solid_unsp in I2 by auto.
    destruct (R1 l2 None (sp_end (tokenSpan l)) I2 W2) as (vs' & e & l3 & (n0 & E3) & S3 & I3 & W3); [destruct vs; [discriminate|discriminate]|].
    exists vs', e, l3. split; [|split; [auto|split; [auto|split; [auto|apply (str _ _ _ _ _ _ K I)]]]].
    exists n0. intros n Ln. unfold expect. rewrite (cur _ _ _ _ _ _ K I). tq. rewrite E1. cbn [bind].
    rewrite (cur _ _ _ _ _ _ K1 I1). tq. rewrite E2. cbn [bind]. apply E3. auto. }
  unfold okProperty in Op. destruct (identifier prop) eqn:Id.
  - pose proof (K2 _ Id) as K. split; [eapply tok_lexable; eauto|]. split; [apply property_first; unfold okProperty; rewrite Id; auto|].
    split; [do 4 eexists; split; [exact K|discriminate]|]. intros l I W.
    destruct (R prop l Id I W) as (vs' & e & l' & (n0 & E) & S' & I' & W' & Es).
    exists (DDecl (mkSpan (sp_start (tokenSpan l)) e) prop vs' imp), l'. split; [|cbn [stripDecl]; rewrite S'; auto].
    exists n0. intros n Ln. unfold parseDeclarationOrFallback, parseDeclaration.
    rewrite (cur _ _ _ _ _ _ K I). tq. cbn [bind app]. specialize (E n Ln).
    destruct (expect Ident l) as [l1| |]; cbn [bind] in *; try discriminate.
    destruct (expect Colon l1) as [l2| |]; cbn [bind] in *; try discriminate. rewrite E, Es. reflexivity.
  - cbn [orb] in Op. apply andb_true_iff in Op as [Fb Id2]. destruct prop as [|c prop]; [discriminate|].
    cbn [firstByte skipn] in *. apply Z.eqb_eq in Fb. assert (Ec : c = "*"%byte) by (apply bz_inj; exact Fb). subst c.
    set (T2 := prop ++ B ":" ++ T1) in *. pose proof (K2 _ Id2) as K2'.
    assert (K : Tok ("*"%byte :: T2) Delim (Some (B "*")) None T2).
    { apply tok_delim; [vm_compute; tauto|]. unfold delimOk. change (bz "*") with 42. repeat (split; [intros; discriminate|]). intros; discriminate. }
    split; [eapply tok_lexable; exact K|]. split; [vm_compute; reflexivity|].
    split; [do 4 eexists; split; [exact K|discriminate]|]. intros l I W.
    assert (S2 : solid T2) by (apply property_first; unfold okProperty; rewrite Id2; auto).
    destruct (advance _ _ _ _ _ _ K I W) as (l0 & E0 & I0 & W0); [rewrite solid_unsp by auto; eapply tok_lexable; exact K2'|].
    rewrite solid_unsp in I0 by auto.
    destruct (R prop l0 Id2 I0 W0) as (vs' & e & l' & (n0 & E) & S' & I' & W' & Es).
    exists (DDecl (mkSpan (sp_start (tokenSpan l0)) e) ("*"%byte :: prop) vs' imp), l'. split; [|cbn [stripDecl]; rewrite S'; auto].
    exists n0. intros n Ln. unfold parseDeclarationOrFallback, parseDeclaration.
    rewrite (cur _ _ _ _ _ _ K I), (str _ _ _ _ _ _ K I). change (beq (B "*") (B "*")) with true. tq. cbn [bind]. rewrite E0. cbn [bind].
    specialize (E n Ln).
    destruct (expect Ident l0) as [l1| |]; cbn [bind] in *; try discriminate.
    destruct (expect Colon l1) as [l2| |]; cbn [bind] in *; try discriminate. rewrite E, Es. reflexivity.
Qed.

Lemma decls_read ds : forallb okDecl ds = true -> forall r, lexable (unsp r) ->
  let T := declstext ds ++ B "}" ++ r in
  lexable T /\ solid T /\ forall l, is T l -> l_rws l = false ->
  exists ds' e l', ev (fun n => declBlockLoop n l) (ds', e, l') /\ map stripDecl ds' = map stripDecl ds /\
    is (unsp r) l' /\ l_rws l' = false.
Proof.
  induction ds as [|d ds IH]; intros O r L; cbv zeta.
  - unfold declstext. cbn [map join app B]. assert (K : Tok ("}"%byte :: r) RCurly None None r) by (apply tok_single; simpl; tauto).
    split; [eapply tok_lexable; eauto|]. split; [vm_compute; reflexivity|]. intros l I W.
    destruct (advance _ _ _ _ _ _ K I W L) as (l1 & E & I1 & W1).
    exists [], (tokenEnd l), l1. split; [|auto]. exists 1%nat. intros [|n] Ln; [lia|].
    cbn [declBlockLoop]. rewrite (cur _ _ _ _ _ _ K I). tq. rewrite E. reflexivity.
  - cbn [forallb] in O. apply andb_true_iff in O as [Od O]. specialize (IH O r L). cbv zeta in IH.
    destruct IH as (L1 & S1 & R1). set (T1 := declstext ds ++ B "}" ++ r) in *.
    assert (X : exists q, declstext (d :: ds) ++ B "}" ++ r = decltext d ++ q /\ declEnd q /\
      forall l, is q l -> l_rws l = false -> exists l', (if teq (l_cur l) Semicolon then next l else Ok l) = Ok l' /\ is T1 l' /\ l_rws l' = false).
    { destruct ds as [|d2 ds].
      - exists T1. split; [reflexivity|]. split; [exists "}"%byte, r; split; [reflexivity|auto]|]. intros l I W.
        assert (K : Tok T1 RCurly None None r) by (apply tok_single; simpl; tauto).
        rewrite (cur _ _ _ _ _ _ K I). tq. exists l. auto.
      - exists (";"%byte :: T1). split; [unfold declstext; cbn [map join]; rewrite <- !app_assoc; reflexivity|].
        split; [exists ";"%byte, T1; auto|]. intros l I W.
        assert (K : Tok (";"%byte :: T1) Semicolon None None T1) by (apply tok_single; simpl; tauto).
        rewrite (cur _ _ _ _ _ _ K I). cbn [teq].
        destruct (advance _ _ _ _ _ _ K I W) as (l1 & E & I1 & W1); [rewrite solid_unsp; auto|]. rewrite solid_unsp in I1 by auto.
        exists l1. auto. }
    destruct X as (q & -> & Dq & Rq). destruct (decl_read d Od q Dq) as (Ld & Sd & (t & os & on & T' & K & Nt) & Rd).
    split; auto. split; auto. intros l I W.
    destruct (Rd l I W) as (d' & l1 & (n0 & E1) & S' & I1 & W1).
    destruct (Rq l1 I1 W1) as (l2 & E2 & I2 & W2).
    destruct (R1 l2 I2 W2) as (ds' & e & l3 & (n1 & E3) & S3 & I3 & W3).
    exists (d' :: ds'), e, l3. split; [|cbn [map]; rewrite S', S3; auto].
    exists (S (n0 + n1)). intros [|n] Ln; [lia|]. cbn [declBlockLoop]. rewrite (cur _ _ _ _ _ _ K I).
    assert (Q : teq t RCurly = false) by (destruct t; try reflexivity; congruence).
    rewrite Q, E1 by lia. cbn [bind]. rewrite E2. cbn [bind]. rewrite E3 by lia. reflexivity.
Qed.

(** A block, from its brace. *)
Lemma block_read ds : forallb okDecl ds = true -> forall r, lexable (unsp r) ->
  let T := B "{" ++ declstext ds ++ B "}" ++ r in
  Tok T LCurly None None (declstext ds ++ B "}" ++ r) /\ forall l, is T l -> l_rws l = false ->
  exists sp ds' l', ev (fun n => parseDeclarationBlock n l) (sp, ds', l') /\ map stripDecl ds' = map stripDecl ds /\
    is (unsp r) l' /\ l_rws l' = false.
Proof.
  intros O r L. cbv zeta. destruct (decls_read ds O r L) as (L1 & S1 & R1). set (T1 := declstext ds ++ B "}" ++ r) in *.
  assert (K : Tok (B "{" ++ T1) LCurly None None T1) by (apply tok_single; simpl; tauto).
  split; auto. intros l I W.
  destruct (advance _ _ _ _ _ _ K I W) as (l1 & E & I1 & W1); [rewrite solid_unsp; auto|]. rewrite solid_unsp in I1 by auto.
  destruct (R1 l1 I1 W1) as (ds' & e & l3 & (n1 & E3) & S3 & I3 & W3).
  exists (mkSpan (sp_start (tokenSpan l)) e), ds', l3. split; [|auto]. exists n1. intros n Ln. unfold parseDeclarationBlock.
  rewrite E. cbn [bind]. rewrite E3 by lia. reflexivity.
Qed.
End WithUnicode.
