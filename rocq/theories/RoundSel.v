(** Printed selectors are read back. *)
From Verif Require Import Bytes Utf8 Source Ast AstInd Lexer Parser Printer Strip.
From Verif Require Import BytesFacts LexSpec LexFacts PrinterProofs RoundSpec RoundLex RoundValue RoundDecl.

(** * Text *)
Definition anbtext (a op b : bytes) : bytes :=
  if beq a (B "0") then b
  else (if isEmpty a then [] else if beq a (B "-1") then B "-" else a) ++ B "n" ++ op ++ b.
Fixpoint ptext (p : selpart) : bytes :=
  let sel := fix go (l : list selpart) : bytes :=
    match l with
    | [] => []
    | p :: r => match r with [] => if isSpace p then [] else ptext p | _ => ptext p ++ go r end
    end in
  let args (a : pargs selpart) : bytes :=
    match a with
    | PANone => []
    | PAIdent _ v => B "(" ++ v ++ B ")"
    | PAAnb _ a op b => B "(" ++ anbtext a op b ++ B ")"
    | PASel _ sels => B "(" ++ join (B ",") (map (fun s => sel (snd s)) sels) ++ B ")"
    end in
  match p with
  | SWhitespace _ => B " "
  | SType _ n => n
  | SClass _ n => B "." ++ n
  | SId _ n => B "#" ++ n
  | SComb _ o => o
  | SPseudo _ n a => B ":" ++ n ++ args a
  | SPseudoEl _ _ n a => B ":" ++ B ":" ++ n ++ args a
  | SAttr _ prop _ v _ => B "[" ++ prop ++ (if isNil v then [] else B "=" ++ vtext v) ++ B "]"
  end.
Definition partstext (ps : list selpart) : bytes := concat (map ptext (trimParts ps)).
Definition argstext (a : pargs selpart) : bytes :=
  match a with
  | PANone => []
  | PAIdent _ v => B "(" ++ v ++ B ")"
  | PAAnb _ a op b => B "(" ++ anbtext a op b ++ B ")"
  | PASel _ sels => B "(" ++ join (B ",") (map (fun s => partstext (snd s)) sels) ++ B ")"
  end.

Lemma trim_last ps p : trimParts (ps ++ [p]) = if isSpace p then ps else ps ++ [p].
Proof.
  unfold trimParts. rewrite rev_app_distr. cbn [rev app]. destruct p; cbn [isSpace]; try reflexivity.
  apply rev_involutive.
Qed.
Lemma trim_cons p q ps : trimParts (p :: q :: ps) = p :: trimParts (q :: ps).
Proof.
  destruct (exists_last (l := q :: ps) ltac:(discriminate)) as (qs & x & ->).
  change (p :: qs ++ [x]) with ((p :: qs) ++ [x]). rewrite !trim_last. destruct (isSpace x); reflexivity.
Qed.
Lemma partstext_cons p q ps : partstext (p :: q :: ps) = ptext p ++ partstext (q :: ps).
Proof. unfold partstext. rewrite trim_cons. reflexivity. Qed.
Lemma partstext_one p : partstext [p] = if isSpace p then [] else ptext p.
Proof. unfold partstext. change [p] with ([] ++ [p]). rewrite trim_last. destruct (isSpace p); cbn; auto. apply app_nil_r. Qed.

Lemma ptext_eq p : ptext p =
  match p with
  | SPseudo _ n a => B ":" ++ n ++ argstext a
  | SPseudoEl _ _ n a => B ":" ++ B ":" ++ n ++ argstext a
  | p => ptext p
  end.
Proof.
  assert (E : forall ps, (fix go (l : list selpart) : bytes :=
    match l with
    | [] => []
    | p :: r => match r with [] => if isSpace p then [] else ptext p | _ => ptext p ++ go r end
    end) ps = partstext ps).
  { induction ps as [|x [|y ps] IH]; [reflexivity|symmetry; apply partstext_one|].
    rewrite partstext_cons, <- IH. reflexivity. }
  destruct p; try reflexivity; destruct args; try reflexivity; cbn [ptext argstext];
    do 3 f_equal; try (f_equal; f_equal); rewrite (map_ext _ (fun s => partstext (snd s))); try reflexivity; intros [? ?]; apply E.
Qed.

Lemma txt_parts ps : Forall (fun p => txt (printPart p) (ptext p)) ps -> txt (printParts ps) (partstext ps).
Proof.
  induction ps as [|p [|q ps] IH]; intros F.
  - apply txt_nop.
  - rewrite partstext_one. cbn [printParts]. inversion F; subst. destruct p; cbn [isSpace]; auto; apply txt_nop.
  - rewrite partstext_cons. cbn [printParts]. inversion F; subst. apply txt_cat; auto.
Qed.
Lemma txt_anb a op b : okAnb a op b = true -> txt (printAnb a op b) (anbtext a op b).
Proof.
  unfold okAnb, printAnb, anbtext. intros H.
  destruct (beq a (B "0")) eqn:E0.
  - rewrite !andb_true_iff in H. destruct H as ((H1 & H2) & H3).
    rewrite andb_false_r. cbn [negb orb]. rewrite H3.
    assert (X : negb (isEmpty b) = true) by (unfold digits in H2; apply andb_true_iff in H2; tauto).
    rewrite X. cbn [andb].
    repeat first [apply (txt_cat nop _ [] _) | apply txt_nop | apply txt_ws].
  - cbn [negb]. rewrite andb_true_r, orb_true_r.
    assert (T : txt (if negb (isEmpty b) && negb (beq b (B "0")) then ws op +++ ws b else nop) (op ++ b)).
    { assert (X : (isEmpty op && isEmpty b) || (bmem op [B "+"; B "-"] && digits b && negb (beq b (B "0"))) = true).
      { destruct (isEmpty a || beq a (B "-1")); rewrite !andb_true_iff in H; tauto. }
      apply orb_true_iff in X as [X|X].
      - apply andb_true_iff in X as [X1 X2]. destruct op; [|discriminate]. destruct b; [|discriminate]. apply txt_nop.
      - rewrite !andb_true_iff in X. destruct X as ((_ & X1) & X2). unfold digits in X1. apply andb_true_iff in X1 as [_ X1].
        rewrite X1, X2. cbn [andb]. apply txt_cat; apply txt_ws. }
    apply txt_cat; [|apply txt_cat; [apply txt_w|auto]].
    destruct (isEmpty a) eqn:Ea; [apply txt_nop|]. cbn [negb andb orb] in *.
    destruct (beq a (B "-1")) eqn:E1.
    + apply beq_eq in E1. subst a. change (beq (B "-1") (B "1")) with false. apply txt_w.
    + rewrite !andb_true_iff in H. destruct H as ((H1 & H2) & H3). rewrite H1.
      assert (P : hasPrefix (B "+") a = false).
      { destruct (hasPrefix (B "+") a) eqn:Ep; [|reflexivity]. apply hasPrefix_spec in Ep as (r & ->). discriminate. }
      rewrite P. apply txt_ws.
Qed.

Definition okArgs (n : bytes) (a : pargs selpart) : bool :=
  match a with
  | PANone => true
  | PAIdent _ v => nthName n && bmem v [B "even"; B "odd"]
  | PAAnb _ a op b => nthName n && okAnb a op b
  | PASel _ sels =>
    negb (nthName n) && negb (urlName n) && negb (match sels with [] => true | _ => false end) &&
    forallb (fun s => negb (match trimParts (snd s) with [] => true | _ => false end) &&
                      forallb okPart (snd s) && touching (snd s)) sels
  end.
Lemma txt_args n a : Forall (fun s => Forall (fun p => okPart p = true -> txt (printPart p) (ptext p)) (snd s)) (argParts a) ->
  okArgs n a = true -> txt (printArgs a) (argstext a).
Proof.
  destruct a as [|sp v|sp a op b|sp sels]; cbn [okArgs printArgs argstext argParts]; intros F H.
  - apply txt_nop.
  - repeat first [apply txt_w | apply txt_ws | apply txt_cat].
  - apply andb_true_iff in H as [_ H]. repeat first [apply txt_w | apply txt_ws | apply txt_cat]. apply txt_anb; auto.
  - rewrite !andb_true_iff in H. destruct H as [_ H].
    apply txt_cat; [apply txt_w|]. apply txt_cat; [|apply txt_w].
    unfold printSelList. apply (txt_sepBy _ _ _ (fun s => partstext (snd s))); [apply txt_w|].
    rewrite forallb_forall in H. rewrite Forall_forall in *. intros s I. unfold printSelector. apply txt_parts.
    specialize (H s I). rewrite !andb_true_iff in H. destruct H as ((_ & H) & _). rewrite forallb_forall in H.
    specialize (F s I). rewrite Forall_forall in *. auto.
Qed.
Lemma txt_part p : okPart p = true -> txt (printPart p) (ptext p).
Proof.
  induction p as [| | | | | sp n a IH | sp isp n a IH | sp prop o v m] using selpart_ind'; intros H;
    try rewrite printPart_eq; try rewrite ptext_eq; cbn [okPart ptext printPart] in *;
    repeat first [apply txt_w | apply txt_ws | apply txt_cat].
  - apply andb_true_iff in H as [_ H]. eapply txt_args; [|exact H]. exact IH.
  - apply andb_true_iff in H as [_ H]. eapply txt_args; [|exact H]. exact IH.
  - rewrite !andb_true_iff in H. destruct H as (_ & H). destruct (isNil v); [apply txt_nop|].
    apply txt_cat; [apply txt_w|]. exact (txt_value _ Outside H).
Qed.
Lemma txt_selector s : forallb okPart (snd s) = true -> txt (printSelector s) (partstext (snd s)).
Proof.
  intros H. unfold printSelector. apply txt_parts. rewrite forallb_forall in H. apply Forall_forall. intros. apply txt_part; auto.
Qed.

(** * Reading *)
Section WithUnicode.
Context {U : UnicodeDigits}.

(** With white space kept: the text can be read, the lexer stands before it. *)
Definition lexw (T : bytes) : Prop :=
  match T with c :: r => if Byte.eqb c sp then solid r /\ lexable r else lexable T /\ newline T = false | [] => lexable [] end.
Definition here (T : bytes) (l : lexer) : Prop :=
  match T with c :: r => if Byte.eqb c sp then isWs r l else is T l | [] => is [] l end.
Lemma solid_sp c r : solid (c :: r) -> Byte.eqb c sp = false.
Proof. intros H. destruct (Byte.eqb c sp) eqn:E; [|reflexivity]. apply byte_eqb_eq in E. subst c. vm_compute in H. discriminate. Qed.
Lemma lexw_solid T : solid T -> lexw T <-> lexable T.
Proof. destruct T as [|c r]; intros H; [destruct H|]. unfold lexw. rewrite (solid_sp _ _ H).
  assert (X : newline (c :: r) = false) by (unfold newline, firstByte; simpl in H; destruct (Z.eqb_spec (bz c) 10); [lia|reflexivity]). tauto. Qed.
Lemma here_solid T l : solid T -> here T l <-> is T l.
Proof. destruct T as [|c r]; intros H; [destruct H|]. unfold here. rewrite (solid_sp _ _ H). tauto. Qed.
Lemma here_setRws T l b : here T l -> here T (setRws l b).
Proof. destruct T as [|c r]; unfold here; [apply is_setRws|]. destruct (Byte.eqb c sp); [intros H; exact H|apply is_setRws]. Qed.
Lemma next_here l T : cwf l -> rest l = T -> l_rcom l = false -> l_rws l = true -> lexw T ->
  exists l', next l = Ok l' /\ here T l' /\ l_rws l' = true.
Proof.
  intros H E C W L. destruct T as [|c r]; unfold lexw, here in *.
  - rewrite <- W. apply next_is; auto. discriminate.
  - destruct (Byte.eqb c sp) eqn:Ec; [|destruct L as [L N]; rewrite <- W; apply next_is; auto; congruence].
    apply byte_eqb_eq in Ec. subst c. destruct L as [L1 L2]. apply next_ws; auto.
Qed.
Lemma advw T t os on T' l : Tok T t os on T' -> is T l -> l_rws l = true -> lexw T' ->
  exists l', next l = Ok l' /\ here T' l' /\ l_rws l' = true.
Proof. intros K I W L. destruct (I _ _ _ _ K) as (H & E & _ & C & _). apply next_here; auto. Qed.
(** ... and when the text does not begin with white space. *)
Lemma advs T t os on T' l : Tok T t os on T' -> is T l -> l_rws l = true -> lexable T' -> solid T' ->
  exists l', next l = Ok l' /\ is T' l' /\ l_rws l' = true.
Proof.
  intros K I W L S. destruct (advw _ _ _ _ _ _ K I W) as (l' & E & H & W'); [apply lexw_solid; auto|].
  exists l'. split; auto. split; auto. apply here_solid; auto.
Qed.

(** ** What follows a part *)
Definition notNumber (q : bytes) : Prop := startsNumber 43 (chr q) (chr (skipn 1 q)) = false.
Definition partOk (p : selpart) (q : bytes) : Prop :=
  (isWord p = true -> endWord q) /\
  match p with SComb _ _ => notNumber q | SAttr _ _ _ _ _ => unsp q = q | _ => True end.
Definition partToken (t : token) : bool :=
  match t with Ident | Hash | Delim | Colon | LBracket => true | _ => false end.
Definition readPart (p : selpart) : Prop := okPart p = true -> isSpace p = false ->
  forall q, lexw q -> partOk p q ->
  (exists t os on T', Tok (ptext p ++ q) t os on T' /\ partToken t = true) /\
  forall l e, is (ptext p ++ q) l -> l_rws l = true ->
  exists p' l', stripPart p' = stripPart (tidyPart p) /\ here q l' /\ l_rws l' = true /\
    forall ps x l2, ev (fun n => partsLoop n (Some (sp_end (partSpan p'))) l') (ps, x, l2) ->
      ev (fun n => partsLoop n e l) (p' :: ps, x, l2).

Lemma chr_first c s : ascii c -> chr (c :: s) = bz c.
Proof. intros [A _]. apply chr_ascii; auto. Qed.
Lemma identifier_ascii s : identifier s = true -> exists c r, s = c :: r /\ ascii c /\ bz c > 32 /\ ~ (48 <= bz c <= 57) /\ bz c <> 46 /\ bz c <> 43.
Proof.
  intros H. apply identifier_first in H as (c & r & -> & [H|H]); exists c, r; (split; [reflexivity|]).
  - apply startByte_facts in H. unfold ascii. lia.
  - unfold ascii. lia.
Qed.
Lemma identifier_notNumber s q : identifier s = true -> notNumber (s ++ q) /\ isDigit (chr (s ++ q)) = false.
Proof.
  intros H. apply identifier_ascii in H as (c & r & -> & A & H1 & H2 & H3 & H4). cbn [app]. unfold notNumber.
  rewrite (chr_first _ _ A). assert (D : isDigit (bz c) = false) by (apply digit_no; destruct A; lia). split; auto.
  unfold startsNumber. rewrite D. change ((43 =? 43) || (43 =? 45)) with true. cbv iota.
  apply Z.eqb_neq in H3. rewrite H3. reflexivity.
Qed.
Lemma ascii_notNumber c s : ascii c -> ~ (48 <= bz c <= 57) -> bz c <> 46 -> notNumber (c :: s).
Proof.
  intros A H2 H3. unfold notNumber. rewrite (chr_first _ _ A).
  assert (D : isDigit (bz c) = false) by (apply digit_no; destruct A; lia).
  unfold startsNumber. rewrite D. change ((43 =? 43) || (43 =? 45)) with true. cbv iota.
  apply Z.eqb_neq in H3. rewrite H3. reflexivity.
Qed.
Lemma comb_in o : bmem o [B "+"; B ">"; B "~"; B "|"] = true -> exists c, o = [c] /\ In c (B "+>~|").
Proof.
  intros H. apply bmem_In in H. repeat (destruct H as [<-|H]; [eexists; split; [reflexivity|simpl; tauto]|]). destruct H.
Qed.
Lemma star_or n : beq n (B "*") || identifier n = true -> n = B "*" \/ (beq n (B "*") = false /\ identifier n = true).
Proof.
  destruct (beq n (B "*")) eqn:E; [left; apply beq_eq; auto|]. right. auto.
Qed.

(** How a part begins. *)
Lemma part_start p q : okPart p = true -> isSpace p = false ->
  solid (ptext p ++ q) /\ notNumber (ptext p ++ q) /\
  (match p with SType _ n => beq n (B "*") = true | _ => True end -> endWord (ptext p ++ q)).
Proof.
  intros O S. destruct p as [| sp n | sp n | sp n | sp o | sp n a | sp isp n a | sp prop o v m]; try discriminate;
    try rewrite ptext_eq; cbn [okPart ptext] in *.
  - apply star_or in O as [->|[E O]].
    + split; [vm_compute; reflexivity|]. split; [apply ascii_notNumber; [split; vm_compute; congruence|vm_compute; intuition congruence..]|].
      intros _. vm_compute. split; congruence.
    + split; [|split; [apply identifier_notNumber; auto|congruence]].
      apply identifier_ascii in O as (c & r & -> & _ & H & _). exact H.
  - split; [vm_compute; reflexivity|]. split; [|intros _; vm_compute; split; congruence].
    unfold notNumber. change ((B "." ++ n) ++ q) with ("."%byte :: (n ++ q)).
    change (chr ("."%byte :: (n ++ q))) with 46. change (skipn 1 ("."%byte :: (n ++ q))) with (n ++ q).
    unfold startsNumber. change ((43 =? 43) || (43 =? 45)) with true. cbv iota.
    rewrite (proj2 (identifier_notNumber n q O)). rewrite (digit_no 46) by lia. reflexivity.
  - split; [vm_compute; reflexivity|]. split; [apply ascii_notNumber; [split; vm_compute; congruence|vm_compute; intuition congruence..]|].
    intros _. vm_compute. split; congruence.
  - apply comb_in in O as (c & -> & I). cbn [app].
    repeat (destruct I as [<-|I]; [split; [vm_compute; reflexivity|];
      split; [apply ascii_notNumber; [split; vm_compute; congruence|vm_compute; intuition congruence..]|]; intros _; vm_compute; split; congruence|]). destruct I.
  - split; [vm_compute; reflexivity|]. split; [apply ascii_notNumber; [split; vm_compute; congruence|vm_compute; intuition congruence..]|].
    intros _. vm_compute. split; congruence.
  - split; [vm_compute; reflexivity|]. split; [apply ascii_notNumber; [split; vm_compute; congruence|vm_compute; intuition congruence..]|].
    intros _. vm_compute. split; congruence.
  - split; [vm_compute; reflexivity|]. split; [apply ascii_notNumber; [split; vm_compute; congruence|vm_compute; intuition congruence..]|].
    intros _. vm_compute. split; congruence.
Qed.

(** ** The end of a selector *)
Definition selEnd (r : bytes) : Prop := exists c r', r = c :: r' /\ In (c, true) [(","%byte, true); ("{"%byte, true); (")"%byte, true)].
Lemma selEnd_facts r : selEnd r -> solid r /\ notNumber r /\ endWord r /\
  exists t T', Tok r t None None T' /\ (t = Comma \/ t = LCurly \/ t = RParen).
Proof.
  intros (c & r' & -> & I).
  repeat (destruct I as [I|I]; [injection I as <-;
    split; [vm_compute; reflexivity|]; split; [apply ascii_notNumber; [split; vm_compute; congruence|vm_compute; intuition congruence..]|];
    split; [vm_compute; split; congruence|]; eexists _, _; split; [apply tok_single; simpl; tauto | tauto]|]). destruct I.
Qed.

Fixpoint lastWord (ps : list selpart) : Prop :=
  match ps with [] => True | [p] => isSpace p = false | _ :: r => lastWord r end.
Lemma parts_read ps : Forall readPart ps -> forallb okPart ps = true -> touching ps = true -> lastWord ps ->
  forall r, selEnd r ->
  let T := concat (map ptext ps) ++ r in
  lexw T /\ (match ps with p :: _ => isSpace p = false | [] => True end -> solid T) /\
  (ps <> [] -> forall l, here T l -> (l_cur l = Whitespace /\ ~ solid T) \/ partToken (l_cur l) = true) /\
  forall l e, here T l -> l_rws l = true -> (ps = [] -> e <> None) ->
  exists ps' x l', ev (fun n => partsLoop n e l) (ps', x, l') /\ map stripPart ps' = map (fun p => stripPart (tidyPart p)) ps /\
    is r l' /\ l_rws l' = true.
Proof.
  induction ps as [|p ps IH]; intros F O C Lw r R; cbv zeta.
  - destruct (selEnd_facts r R) as (S & _ & _ & t & T' & K & D). cbn [map concat app].
    split; [apply lexw_solid; auto; eapply tok_lexable; eauto|]. split; [auto|]. split; [congruence|].
    intros l e I W N. destruct e as [e|]; [|destruct (N eq_refl eq_refl)].
    apply here_solid in I; auto. exists [], e, l. split; [|auto]. exists 1%nat. intros [|n] Ln; [lia|].
    cbn [partsLoop]. rewrite (cur _ _ _ _ _ _ K I). destruct D as [->|[->| ->]]; reflexivity.
  - inversion F as [|? ? Fp F']; subst. cbn [forallb] in O. apply andb_true_iff in O as [Op O].
    assert (C' : touching ps = true) by (destruct ps; [reflexivity|]; cbn [touching] in C; apply andb_true_iff in C; tauto).
    assert (Lw' : lastWord ps) by (destruct ps; [exact Logic.I|exact Lw]).
    specialize (IH F' O C' Lw' r R). cbv zeta in IH. destruct IH as (L1 & S1 & N1 & R1).
    cbn [map concat]. rewrite <- app_assoc. set (T1 := concat (map ptext ps) ++ r) in *.
    destruct (isSpace p) eqn:Ep.
    + destruct p as [sq| | | | | | |]; try discriminate. destruct ps as [|p2 ps]; [discriminate|].
      cbn [touching touches] in C. apply andb_true_iff in C as [C _].
      assert (Es : isSpace p2 = false) by (destruct p2; try discriminate; reflexivity).
      specialize (S1 Es).
      cbn [ptext]. change (B " " ++ T1) with (sp :: T1).
      unfold lexw, here. change (Byte.eqb sp sp) with true. cbv iota.
      split; [split; auto; apply lexw_solid; auto|]. split; [discriminate|].
      split; [intros _ l (_ & _ & H & _); left; split; auto; intros X; vm_compute in X; discriminate|].
      intros l e (H1 & H2 & H3 & H4) W _.
      destruct (next_here l T1 H1 H2 H4 W L1) as (l1 & E1 & I1 & W1).
      destruct (R1 l1 (Some (sp_end (tokenSpan l))) I1 W1) as (ps' & x & l2 & (n0 & E2) & D2 & I2 & W2); [discriminate|].
      exists (SWhitespace (tokenSpan l) :: ps'), x, l2. split; [|cbn [map]; rewrite D2; auto].
      exists (S n0). intros [|n] Ln; [lia|]. cbn [partsLoop]. rewrite H3, E1. cbn [bind partSpan]. rewrite E2 by lia. reflexivity.
    + destruct (part_start p T1 Op Ep) as (Sp & _ & _).
      assert (Q : partOk p T1).
      { unfold T1. destruct ps as [|p2 ps].
        - destruct (selEnd_facts r R) as (S & N & E & _). cbn [map concat app]. split; [auto|].
          destruct p; auto. apply solid_unsp; auto.
        - cbn [map concat]. rewrite <- app_assoc. set (T2 := concat (map ptext ps) ++ r).
          cbn [touching] in C. apply andb_true_iff in C as [C _].
          cbn [forallb] in O. apply andb_true_iff in O as [O2 _].
          destruct (isSpace p2) eqn:E2.
          + destruct p2; try discriminate. cbn [ptext]. split; [intros _; vm_compute; split; congruence|].
            destruct p; auto; discriminate.
          + destruct (part_start p2 T2 O2 E2) as (S2 & N2 & W2). split.
            * intros W. apply W2. destruct p2; auto. destruct p; try discriminate; cbn [touches] in C; rewrite W in C; exact C.
            * destruct p; auto. apply solid_unsp; auto. }
      destruct (Fp Op Ep T1 L1 Q) as ((t & os & on & T' & K & Kt) & Rp).
      split; [apply lexw_solid; auto; eapply tok_lexable; eauto|]. split; [auto|].
      split; [intros _ l I; right; apply here_solid in I; auto; rewrite (cur _ _ _ _ _ _ K I); auto|].
      intros l e I W _. apply here_solid in I; auto.
      destruct (Rp l e I W) as (p' & l1 & D1 & I1 & W1 & G).
      destruct (R1 l1 (Some (sp_end (partSpan p'))) I1 W1) as (ps' & x & l2 & E2 & D2 & I2 & W2); [discriminate|].
      exists (p' :: ps'), x, l2. split; [apply G; exact E2|]. cbn [map]. rewrite D1, D2. auto.
Qed.

(** ** Trailing white space *)
Lemma trim_spec ps : forallb okPart ps = true -> touching ps = true ->
  forallb okPart (trimParts ps) = true /\ touching (trimParts ps) = true /\ lastWord (trimParts ps) /\
  (forall Q, Forall Q ps -> Forall Q (trimParts ps)).
Proof.
  induction ps as [|p [|q ps] IH]; intros O C.
  - repeat split; auto.
  - change [p] with ([] ++ [p]). rewrite trim_last. destruct (isSpace p) eqn:E; cbn [app lastWord forallb touching]; auto.
  - rewrite trim_cons. cbn [forallb] in O. apply andb_true_iff in O as [Op O].
    cbn [touching] in C. apply andb_true_iff in C as [Ct C]. destruct (IH O C) as (H1 & H2 & H3 & H4). clear IH.
    cbn [forallb]. rewrite Op, H1. split; [reflexivity|].
    assert (X : trimParts (q :: ps) = [] -> isSpace q = true).
    { intros X. destruct ps as [|y ps].
      - change [q] with ([] ++ [q]) in X. rewrite trim_last in X. destruct (isSpace q); auto. discriminate.
      - rewrite trim_cons in X. discriminate. }
    assert (Y : forall z zs, trimParts (q :: ps) = z :: zs -> z = q).
    { intros z zs Y. destruct ps as [|y ps].
      - change [q] with ([] ++ [q]) in Y. rewrite trim_last in Y. destruct (isSpace q); [discriminate|]. injection Y. auto.
      - rewrite trim_cons in Y. injection Y. auto. }
    destruct (trimParts (q :: ps)) as [|z zs] eqn:Et.
    + split; [reflexivity|]. split.
      * cbn [lastWord]. specialize (X eq_refl). destruct q; try discriminate. destruct p; try discriminate; reflexivity.
      * intros Q F. inversion F; subst. auto.
    + assert (Ez : z = q) by (eapply Y; eauto). subst z. split; [|split].
      * cbn [touching] in *. rewrite Ct. exact H2.
      * exact H3.
      * intros Q F. inversion F; subst. auto.
Qed.
Lemma tidy_space p : isSpace (tidyPart p) = isSpace p. Proof. destruct p; reflexivity. Qed.
Lemma trim_map ps : trimParts (map tidyPart ps) = map tidyPart (trimParts ps).
Proof.
  induction ps as [|p ps _] using rev_ind; [reflexivity|]. rewrite map_app. cbn [map]. rewrite !trim_last, tidy_space.
  destruct (isSpace p); [reflexivity|]. rewrite map_app. reflexivity.
Qed.

(** ** Selector lists *)
(** [b]: whether white space is kept around the list. *)
Definition selOk (b : bool) (s : selector) : Prop :=
  trimParts (snd s) <> [] /\ forallb okPart (snd s) = true /\ touching (snd s) = true /\ Forall readPart (snd s) /\
  (b = false -> match trimParts (snd s) with p :: _ => isSpace p = false | [] => True end).
Definition selsText (sels : list selector) : bytes := join (B ",") (map (fun s => partstext (snd s)) sels).
Definition listEnd (r : bytes) : Prop := exists r', r = "{"%byte :: r' \/ r = ")"%byte :: r'.
Lemma listEnd_sel r : listEnd r -> selEnd r.
Proof. intros (r' & [->| ->]); eexists _, r'; (split; [reflexivity|simpl; tauto]). Qed.

Lemma selector_read b s : selOk b s -> forall r, selEnd r ->
  let T := partstext (snd s) ++ r in
  lexw T /\ (b = false -> solid T) /\ (forall l, here T l -> (l_cur l = Whitespace /\ ~ solid T) \/ partToken (l_cur l) = true) /\
  forall l, here T l -> l_rws l = b ->
  exists s' l', ev (fun n => parseSelector n l) (s', l') /\ stripSel s' = stripSel (tidySelector s) /\
    is r l' /\ l_rws l' = b.
Proof.
  intros (N & O & C & F & S) r R. cbv zeta. destruct (trim_spec (snd s) O C) as (O' & C' & W' & F').
  destruct (parts_read (trimParts (snd s)) (F' _ F) O' C' W' r R) as (L1 & S1 & N1 & R1).
  fold (partstext (snd s)) in *. split; [exact L1|]. split; [intros Hb; apply S1; exact (S Hb)|]. split; [intros l; apply N1; auto|].
  intros l I W. destruct (R1 (setRws l true) None (here_setRws _ _ _ I) eq_refl) as (ps' & x & l1 & (n0 & E1) & D1 & I1 & W1); [intros X; contradiction|].
  exists (mkSpan (sp_start (tokenSpan l)) x, ps'), (setRws l1 (l_rws l)). split; [|split; [|split; [apply is_setRws; auto|exact W]]].
  - exists (Datatypes.S n0). intros [|n] Ln; [lia|]. cbn [parseSelector]. rewrite E1 by lia. reflexivity.
  - unfold stripSel, tidySelector. cbn [snd]. rewrite D1, trim_map, map_map. reflexivity.
Qed.
Lemma selListLoop_S n l : selListLoop (S n) l =
    if teq (l_cur l) EOF then errorf l (B "unexpected EOF") else
    '(s, l1) <- parseSelector n l ;;
    if teq (l_cur l1) Comma then
      l2 <- next l1 ;;
      '(ss, l3) <- selListLoop n l2 ;; Ok (s :: ss, l3)
    else Ok ([s], l1).
Proof. reflexivity. Qed.
Lemma sels_read b sels : sels <> [] -> Forall (selOk b) sels -> forall r, listEnd r ->
  let T := selsText sels ++ r in
  lexw T /\ (b = false -> solid T) /\ (forall l, here T l -> (l_cur l = Whitespace /\ ~ solid T) \/ partToken (l_cur l) = true) /\
  forall l, here T l -> l_rws l = b ->
  exists sels' l', ev (fun n => selListLoop n l) (sels', l') /\ map stripSel sels' = map (fun s => stripSel (tidySelector s)) sels /\
    is r l' /\ l_rws l' = b.
Proof.
  induction sels as [|s sels IH]; intros NN F r R; [congruence|]. clear NN. cbv zeta.
  inversion F as [|? ? Fs F']; subst.
  assert (X : forall l Q, (l_cur l = Whitespace /\ Q) \/ partToken (l_cur l) = true -> teq (l_cur l) EOF = false).
  { intros l Q [[-> _]|H]; [reflexivity|]. destruct (l_cur l); try discriminate; reflexivity. }
  destruct sels as [|s2 sels].
  - unfold selsText. cbn [map join]. destruct (selector_read b s Fs r (listEnd_sel r R)) as (L & S & N & G).
    split; auto. split; auto. split; auto. intros l I W. destruct (G l I W) as (s' & l1 & (n0 & E) & D & I1 & W1).
    exists [s'], l1. split; [|cbn [map]; rewrite D; auto].
    exists (Datatypes.S n0). intros [|n] Ln; [lia|]. rewrite selListLoop_S, (X l _ (N l I)), E by lia. cbn [bind].
    assert (Y : teq (l_cur l1) Comma = false).
    { destruct R as (r' & [->| ->]); [assert (K : Tok ("{"%byte :: r') LCurly None None r') by (apply tok_single; simpl; tauto)
        |assert (K : Tok (")"%byte :: r') RParen None None r') by (apply tok_single; simpl; tauto)];
        rewrite (cur _ _ _ _ _ _ K I1); reflexivity. }
    rewrite Y. reflexivity.
  - specialize (IH ltac:(discriminate) F' r R). cbv zeta in IH. destruct IH as (L1 & S1 & N1 & R1).
    change (selsText (s :: s2 :: sels)) with (partstext (snd s) ++ B "," ++ selsText (s2 :: sels)).
    rewrite <- !app_assoc. set (T1 := selsText (s2 :: sels) ++ r) in *.
    assert (K : Tok (B "," ++ T1) Comma None None T1) by (apply tok_single; simpl; tauto).
    destruct (selector_read b s Fs (B "," ++ T1)) as (L & S & N & G).
    { exists ","%byte, T1. split; [reflexivity|simpl; tauto]. }
    split; auto. split; auto. split; auto. intros l I W. destruct (G l I W) as (s' & l1 & (n0 & E) & D & I1 & W1).
    assert (Y : exists l2, next l1 = Ok l2 /\ here T1 l2 /\ l_rws l2 = b).
    { destruct b.
      - apply (advw _ _ _ _ _ _ K I1 W1 L1).
      - specialize (S1 eq_refl). destruct (advance _ _ _ _ _ _ K I1 W1) as (l2 & E2 & I2 & W2).
        + rewrite solid_unsp by auto. apply lexw_solid; auto.
        + rewrite solid_unsp in I2 by auto. exists l2. split; auto. split; auto. apply here_solid; auto. }
    destruct Y as (l2 & E2 & I2 & W2). destruct (R1 l2 I2 W2) as (ss & l3 & (n1 & E3) & D3 & I3 & W3).
    exists (s' :: ss), l3. split; [|cbn [map] in *; rewrite D, D3; auto].
    exists (Datatypes.S (n0 + n1)). intros [|n] Ln; [lia|]. rewrite selListLoop_S, (X l _ (N l I)), E by lia. cbn [bind].
    rewrite (cur _ _ _ _ _ _ K I1). tq. rewrite E2. cbn [bind]. rewrite E3 by lia. reflexivity.
Qed.

Ltac en := apply endNum_stop; [reflexivity | vm_compute; congruence..].
(** ** an+b *)
Lemma digits_decimal s : digits s = true -> decimal s = true.
Proof.
  unfold digits. intros H. apply andb_true_iff in H as [H N]. revert H N. induction s as [|c s IH]; [discriminate|]. intros H _.
  cbn [forallb] in H. apply andb_true_iff in H as [Hc H]. cbn [decimal]. pose proof (isNumeric_facts _ Hc).
  destruct (Z.eqb_spec (bz c) 46); [lia|]. rewrite Hc. destruct s as [|d s]; [reflexivity|]. rewrite IH by auto. reflexivity.
Qed.
Lemma digits_first s : digits s = true -> exists c r, s = c :: r /\ isNumeric c = true.
Proof. unfold digits. destruct s as [|c r]; [discriminate|]. cbn. rewrite !andb_true_iff. intros ((H & _) & _). eauto. Qed.
Lemma digits_numeral s : digits s = true -> numeral s = true.
Proof.
  intros H. pose proof (digits_decimal s H) as D. apply digits_first in H as (c & r & -> & H). apply isNumeric_facts in H.
  unfold numeral. destruct (Z.eqb_spec (bz c) 43); [lia|]. destruct (Z.eqb_spec (bz c) 45); [lia|]. exact D.
Qed.
Lemma prefix_first x s c r : s = c :: r -> bz c <> bz x -> hasPrefix [x] s = false.
Proof.
  intros -> H. destruct (hasPrefix [x] (c :: r)) eqn:E; [|reflexivity]. apply hasPrefix_spec in E as (t & E). injection E as -> _. congruence.
Qed.
Lemma digits_noSign s : digits s = true -> hasPrefix (B "-") s = false /\ hasPrefix (B "+") s = false.
Proof.
  intros H. apply digits_first in H as (c & r & E & H). apply isNumeric_facts in H.
  split; (eapply prefix_first; [exact E|]); match goal with |- _ <> ?x => let z := eval vm_compute in x in change x with z end; lia.
Qed.
Definition secondStage (op b : bytes) (e : nat) (l1 : lexer) : res (bytes * bytes * nat * lexer) :=
    (if teq (l_cur l1) Number then
       op2 <- (if hasPrefix (B "-") (l_num l1) then Ok (B "-")
               else if hasPrefix (B "+") (l_num l1) then Ok (B "+")
               else errorf l1 (B "expected +/- as part of An+B")) ;;
       l2 <- expect Number l1 ;; Ok (op2, skipn 1 (l_num l1), tokenEnd l1, l2)
     else if curDelim l1 [B "+"; B "-"] then
       l2 <- next l1 ;;
       l3 <- expect Number l2 ;; Ok (l_str l1, l_num l2, tokenEnd l2, l3)
     else Ok (op, b, e, l1)).
Definition tailForm (op b : bytes) : Prop := (op = [] /\ b = []) \/ (op = B "+" /\ digits b = true).
Lemma stage_end op b e q l : is (")"%byte :: q) l -> secondStage op b e l = Ok (op, b, e, l).
Proof.
  intros I. assert (K : Tok (")"%byte :: q) RParen None None q) by (apply tok_single; simpl; tauto).
  unfold secondStage. rewrite (cur _ _ _ _ _ _ K I). tq. unfold curDelim. rewrite (cur _ _ _ _ _ _ K I). reflexivity.
Qed.
Lemma paren_lexable q : lexable (")"%byte :: q).
Proof. assert (K : Tok (")"%byte :: q) RParen None None q) by (apply tok_single; simpl; tauto). eapply tok_lexable; eauto. Qed.
Lemma paren_solid q : solid (")"%byte :: q). Proof. vm_compute. reflexivity. Qed.
Lemma tail_read op b q : tailForm op b -> let T := op ++ b ++ ")"%byte :: q in
  lexable T /\ solid T /\ endWord T /\ forall l e, is T l -> l_rws l = false ->
  exists e2 l2, secondStage [] [] e l = Ok (op, b, e2, l2) /\ is (")"%byte :: q) l2 /\ l_rws l2 = false.
Proof.
  intros [[-> ->]|[-> D]]; cbv zeta.
  - cbn [app]. split; [apply paren_lexable|]. split; [apply paren_solid|]. split; [vm_compute; split; congruence|].
    intros l e I W. exists e, l. split; auto. apply stage_end with (q := q); auto.
  - assert (K : Tok ((B "+" ++ b) ++ ")"%byte :: q) Number None (Some (B "+" ++ b)) (")"%byte :: q)).
    { apply tok_number; [apply digits_decimal; auto|en]. }
    rewrite <- app_assoc in K. split; [eapply tok_lexable; eauto|]. split; [vm_compute; reflexivity|].
    split; [vm_compute; split; congruence|].
    intros l e I W. destruct (advance _ _ _ _ _ _ K I W) as (l2 & E & I2 & W2); [rewrite solid_unsp; [apply paren_lexable|apply paren_solid]|].
    rewrite solid_unsp in I2 by apply paren_solid.
    exists (tokenEnd l), l2. split; auto. unfold secondStage, expect. rewrite (cur _ _ _ _ _ _ K I), (num _ _ _ _ _ _ K I). tq.
    change (hasPrefix (B "-") (B "+" ++ b)) with false. change (hasPrefix (B "+") (B "+" ++ b)) with true. cbv iota. cbn [bind].
    rewrite E. reflexivity.
Qed.

Lemma anb_read a op b q : okAnb a op b = true -> let T := anbtext a op b ++ ")"%byte :: q in
  solid T /\ (exists t os on T', Tok T t os on T' /\
    (t = Number \/ t = Dimension \/ (t = Ident /\ (os = Some (B "n") \/ os = Some (B "-n"))))) /\
  forall l, is T l -> exists sp l', parseANPlusB l = Ok (PAAnb sp a op b, l') /\ is (")"%byte :: q) l' /\ l_rws l' = l_rws l.
Proof.
  unfold okAnb, anbtext. intros H. cbv zeta. set (R := ")"%byte :: q).
  assert (LR : lexable (unsp R)) by (unfold R; rewrite solid_unsp; [apply paren_lexable|apply paren_solid]).
  assert (UR : unsp R = R) by (apply solid_unsp; apply paren_solid).
  assert (NR : endNum R) by (unfold R; en).
  assert (EQ : forall l0, parseANPlusB l0 =
    let l := setRws l0 false in
    '(a, op, b, e, l1) <-
    (if teq (l_cur l) Dimension && beq (l_str l) (B "n") then
       l1 <- next l ;; Ok (l_num l, [], [], tokenEnd l, l1)
     else if teq (l_cur l) Dimension && hasPrefix (B "n") (l_str l) then
       let numeral := skipn 1 (l_str l) in
       op <- (if hasPrefix (B "-") numeral then Ok (B "-")
              else if hasPrefix (B "+") numeral then Ok (B "+")
              else errorf l (B "expected +/- as part of An+B")) ;;
       let b := skipn 1 numeral in
       if isEmpty b then errorf l (B "expected number after operator")
       else l1 <- next l ;; Ok (l_num l, op, b, tokenEnd l, l1)
     else if teq (l_cur l) Ident && beq (l_str l) (B "n") then
       l1 <- expect Ident l ;; Ok ([], [], [], tokenEnd l, l1)
     else if teq (l_cur l) Ident && beq (l_str l) (B "-n") then
       l1 <- expect Ident l ;; Ok (B "-1", [], [], tokenEnd l, l1)
     else if teq (l_cur l) Number then
       let '(op, b) :=
         if hasPrefix (B "-") (l_num l) then (B "-", skipn 1 (l_num l))
         else if hasPrefix (B "+") (l_num l) then (B "+", skipn 1 (l_num l))
         else ([], l_num l) in
       l1 <- expect Number l ;; Ok (B "0", op, b, tokenEnd l, l1)
     else Ok ([], [], [], sp_end (tokenSpan l), l)) ;;
    '(op2, b2, e2, l2) <- secondStage op b e l1 ;;
    Ok (PAAnb (mkSpan (sp_start (tokenSpan l)) e2) a op2 b2, setRws l2 (l_rws l0))) by reflexivity.
  destruct (beq a (B "0")) eqn:E0.
  - apply beq_eq in E0. subst a. rewrite !andb_true_iff in H. destruct H as ((H1 & H2) & H3). destruct op; [|discriminate].
    assert (K : Tok (b ++ R) Number None (Some b) R) by (apply tok_number; auto; apply digits_numeral; auto).
    split.
    { apply digits_first in H2 as (c & r & -> & H2). apply isNumeric_facts in H2. simpl. lia. }
    split; [exists Number, None, (Some b), R; auto|].
    intros l I. pose proof (is_setRws _ _ false I) as I'. set (l0 := setRws l false) in *.
    destruct (advance _ _ _ _ _ _ K I' eq_refl LR) as (l1 & E1 & I1 & W1). rewrite UR in I1.
    eexists _, (setRws l1 (l_rws l)). split; [|split; [apply is_setRws; auto|reflexivity]].
    rewrite EQ. cbv zeta. fold l0. rewrite (cur _ _ _ _ _ _ K I'), (num _ _ _ _ _ _ K I'). tq.
    destruct (digits_noSign _ H2) as [-> ->]. unfold expect. rewrite (cur _ _ _ _ _ _ K I'). tq. rewrite E1. cbn [bind].
    rewrite (stage_end _ _ _ q _ I1). reflexivity.
  - destruct (isEmpty a || beq a (B "-1")) eqn:Ew.
    + apply andb_true_iff in H as [H Hm]. apply negb_true_iff in Hm.
      assert (TF : tailForm op b).
      { apply orb_true_iff in H as [H|H]; [left|right].
        - apply andb_true_iff in H as [Ha Hb]. destruct op; [|discriminate]. destruct b; [|discriminate]. auto.
        - rewrite !andb_true_iff in H. destruct H as ((Hm' & Hd) & _). split; auto. apply bmem_In in Hm'.
          destruct Hm' as [<-|[<-|[]]]; [reflexivity|discriminate]. }
      destruct (tail_read op b q TF) as (L1 & S1 & N1 & R1). fold R in L1, S1, N1, R1. set (T1 := op ++ b ++ R) in *.
      assert (U1 : unsp T1 = T1) by (apply solid_unsp; auto).
      assert (X : exists s, (if isEmpty a then [] else if beq a (B "-1") then B "-" else a) ++ B "n" = s /\ identifier s = true /\
         ((a = [] /\ s = B "n") \/ (a = B "-1" /\ s = B "-n"))).
      { destruct a as [|c a]; [exists (B "n"); auto|]. cbn [isEmpty orb] in *. rewrite Ew. apply beq_eq in Ew. rewrite Ew.
        exists (B "-n"). auto. }
      destruct X as (s & Es & Is & Cs).
      assert (ET : ((if isEmpty a then [] else if beq a (B "-1") then B "-" else a) ++ B "n" ++ op ++ b) ++ R = s ++ T1).
      { rewrite <- Es. unfold T1. rewrite <- !app_assoc. reflexivity. }
      rewrite ET. clear ET.
      assert (K : Tok (s ++ T1) Ident (Some s) None T1) by (apply tok_ident; auto).
      split; [destruct Cs as [[_ ->]|[_ ->]]; vm_compute; reflexivity|].
      split; [exists Ident, (Some s), None, T1; split; auto; right; right; split; auto; destruct Cs as [[_ ->]|[_ ->]]; auto|].
      intros l I. pose proof (is_setRws _ _ false I) as I'. set (l0 := setRws l false) in *.
      destruct (advance _ _ _ _ _ _ K I' eq_refl) as (l1 & E1 & I1 & W1); [rewrite U1; auto|]. rewrite U1 in I1.
      destruct (R1 l1 (tokenEnd l0) I1 W1) as (e2 & l2 & E2 & I2 & W2).
      eexists _, (setRws l2 (l_rws l)). split; [|split; [apply is_setRws; auto|reflexivity]].
      rewrite EQ. cbv zeta. fold l0. rewrite (cur _ _ _ _ _ _ K I'), (str _ _ _ _ _ _ K I'). tq.
      unfold expect. rewrite (cur _ _ _ _ _ _ K I'). tq. rewrite E1. cbn [bind].
      destruct Cs as [[-> ->]|[-> ->]]; [change (beq (B "n") (B "n")) with true | change (beq (B "-n") (B "n")) with false; change (beq (B "-n") (B "-n")) with true];
        cbv iota; cbn [bind]; rewrite E2; reflexivity.
    + apply orb_false_iff in Ew as [Ea E1]. rewrite Ea, E1. rewrite !andb_true_iff in H. destruct H as ((H1 & H2) & H3).
      assert (Na : numeral a = true /\ solid a).
      { apply orb_true_iff in H3 as [H3|H3].
        - split; [apply digits_numeral; auto|]. apply digits_first in H3 as (c & r & -> & H3). apply isNumeric_facts in H3. simpl. lia.
        - apply andb_true_iff in H3 as [H3 H4]. destruct a as [|c r]; [discriminate|]. cbn [firstByte skipn] in *. apply Z.eqb_eq in H3.
          split; [|simpl; lia]. unfold numeral. rewrite H3. cbn [Z.eqb Pos.eqb orb]. apply digits_decimal; auto. }
      destruct Na as [Na Sa].
      assert (M : bmem op [B "-"] = true /\ digits b = true \/ tailForm op b).
      { apply orb_true_iff in H2 as [H2|H2].
        - right. left. apply andb_true_iff in H2 as [Ha Hb]. destruct op; [|discriminate]. destruct b; [|discriminate]. auto.
        - rewrite !andb_true_iff in H2. destruct H2 as ((Hm' & Hd) & _). apply bmem_In in Hm'.
          destruct Hm' as [<-|[<-|[]]]; [right; right; auto|left; auto]. }
      destruct M as [[M D]|TF].
      * apply bmem_In in M as [<-|[]].
        assert (ET : (a ++ B "n" ++ B "-" ++ b) ++ R = a ++ (B "n-" ++ b) ++ R) by (rewrite <- !app_assoc; reflexivity).
        rewrite ET. clear ET.
        assert (K : Tok (a ++ (B "n-" ++ b) ++ R) Dimension (Some (B "n-" ++ b)) (Some a) R).
        { apply tok_dimension; auto; [|apply endWord_name, endNum_word; auto].
          unfold unitName. cbn [B app]. change (B "n-" ++ b) with ("n"%byte :: "-"%byte :: b).
          unfold digits in D. apply andb_true_iff in D as [D _].
          assert (X : forallb nameByte b = true).
          { rewrite forallb_forall in *. intros c Ic. specialize (D c Ic). unfold nameByte. rewrite D. rewrite orb_true_r. reflexivity. }
          cbn [forallb]. rewrite X. reflexivity. }
        split; [apply solid_app; auto|]. split; [exists Dimension, (Some (B "n-" ++ b)), (Some a), R; auto|].
        intros l I. pose proof (is_setRws _ _ false I) as I'. set (l0 := setRws l false) in *.
        destruct (advance _ _ _ _ _ _ K I' eq_refl LR) as (l1 & E2 & I1 & W1). rewrite UR in I1.
        eexists _, (setRws l1 (l_rws l)). split; [|split; [apply is_setRws; auto|reflexivity]].
        rewrite EQ. cbv zeta. fold l0. rewrite (cur _ _ _ _ _ _ K I'), (num _ _ _ _ _ _ K I'), (str _ _ _ _ _ _ K I'). tq.
        assert (X : isEmpty b = false) by (unfold digits in D; apply andb_true_iff in D as [_ D]; apply negb_true_iff in D; exact D).
        change (beq (B "n-" ++ b) (B "n")) with false. change (hasPrefix (B "n") (B "n-" ++ b)) with true.
        change (skipn 1 (B "n-" ++ b)) with (B "-" ++ b). change (hasPrefix (B "-") (B "-" ++ b)) with true.
        change (skipn 1 (B "-" ++ b)) with b. cbv iota. cbn [bind]. rewrite X. rewrite E2. cbn [bind].
        rewrite (stage_end _ _ _ q _ I1). reflexivity.
      * destruct (tail_read op b q TF) as (L1 & S1 & N1 & R1). fold R in L1, S1, N1, R1. set (T1 := op ++ b ++ R) in *.
        assert (U1 : unsp T1 = T1) by (apply solid_unsp; auto).
        assert (ET : (a ++ B "n" ++ op ++ b) ++ R = a ++ B "n" ++ T1).
        { unfold T1. rewrite <- !app_assoc. reflexivity. }
        rewrite ET. clear ET.
        assert (K : Tok (a ++ B "n" ++ T1) Dimension (Some (B "n")) (Some a) T1) by (apply tok_dimension; auto; apply endWord_name; auto).
        split; [apply solid_app; auto|]. split; [exists Dimension, (Some (B "n")), (Some a), T1; auto|].
        intros l I. pose proof (is_setRws _ _ false I) as I'. set (l0 := setRws l false) in *.
        destruct (advance _ _ _ _ _ _ K I' eq_refl) as (l1 & E3 & I1 & W1); [rewrite U1; auto|]. rewrite U1 in I1.
        destruct (R1 l1 (tokenEnd l0) I1 W1) as (e2 & l2 & E2 & I2 & W2).
        eexists _, (setRws l2 (l_rws l)). split; [|split; [apply is_setRws; auto|reflexivity]].
        rewrite EQ. cbv zeta. fold l0. rewrite (cur _ _ _ _ _ _ K I'), (num _ _ _ _ _ _ K I'), (str _ _ _ _ _ _ K I'). tq.
        change (beq (B "n") (B "n")) with true. cbv iota. rewrite E3. cbn [bind]. rewrite E2. reflexivity.
Qed.

(** ** Arguments of pseudo-classes *)
Definition stripArgs (a : pargs selpart) : pargs selpart :=
  match a with
  | PANone => PANone
  | PAIdent _ v => PAIdent sp0 v
  | PAAnb _ a o b => PAAnb sp0 a o b
  | PASel _ sels => PASel sp0 (map stripSel sels)
  end.
Definition tidyArgs (a : pargs selpart) : pargs selpart :=
  match a with PASel sp sels => PASel sp (map tidySelector sels) | a => a end.
Definition readArgs (n : nat) (l2 : lexer) : res (pargs selpart * nat * lexer) :=
        match l_cur l2 with
        | Ident => l3 <- next l2 ;; Ok (PANone, tokenEnd l2, l3)
        | FunctionStart =>
          l3 <- next l2 ;;
          '(args, l4) <-
            (if isNthName (l_str l2) then
               match l_cur l3 with
               | Number | Dimension => parseANPlusB l3
               | Ident =>
                 if beq (l_str l3) (B "n") || beq (l_str l3) (B "-n") then parseANPlusB l3
                 else if negb (beq (l_str l3) (B "even")) && negb (beq (l_str l3) (B "odd")) then
                   errorf l3 (B "expected even, odd, or an+b syntax")
                 else l4 <- next l3 ;; Ok (PAIdent (tokenSpan l3) (l_str l3), l4)
               | _ => Ok (PANone, l3)
               end
             else
               '((slsp, sels), l4) <- parseSelectorList n l3 ;; Ok (PASel slsp sels, l4)) ;;
          let e := tokenEnd l4 in
          l5 <- expect RParen l4 ;; Ok (args, e, l5)
        | _ => errorf l2 (B "unexpected token: " ++ tokenString (l_cur l2))
        end.
Lemma partsLoop_S n lastEnd l : partsLoop (S n) lastEnd l =
    let sp := tokenSpan l in
    let continue p l1 :=
      '(ps, e, l2) <- partsLoop n (Some (sp_end (partSpan p))) l1 ;; Ok (p :: ps, e, l2) in
    match l_cur l with
    | EOF => errorf l (B "unexpected EOF")
    | Whitespace => l1 <- next l ;; continue (SWhitespace sp) l1
    | Ident => l1 <- next l ;; continue (SType sp (l_str l)) l1
    | Hash => l1 <- next l ;; continue (SId sp (l_str l)) l1
    | Delim =>
      if beq (l_str l) (B ".") then
        l1 <- next l ;;
        let p := SClass (mkSpan (sp_start sp) (tokenEnd l1)) (l_str l1) in
        l2 <- expect Ident l1 ;; continue p l2
      else if bmem (l_str l) [B "+"; B ">"; B "~"; B "|"] then
        l1 <- next l ;; continue (SComb sp (l_str l)) l1
      else if beq (l_str l) (B "*") then
        l1 <- next l ;; continue (SType sp (l_str l)) l1
      else errorf l (B "unexpected delimeter: " ++ l_str l)
    | Colon =>
      l1 <- next l ;;
      let wrapper := teq (l_cur l1) Colon in
      let pstart := if wrapper then sp_start (tokenSpan l1) else sp_start sp in
      l2 <- (if wrapper then next l1 else Ok l1) ;;
      let name := l_str l2 in
      '(args, e, l3) <- readArgs n l2 ;;
      let isp := mkSpan pstart e in
      continue (if wrapper then SPseudoEl (mkSpan (sp_start sp) e) isp name args
                else SPseudo isp name args) l3
    | LBracket =>
      '(p, l1) <- parseAttributeSelector n l ;; continue p l1
    | _ =>
      match lastEnd with
      | None => errorf l (B "expected selector")
      | Some e => Ok ([], e, l)
      end
    end.
Proof. reflexivity. Qed.
Lemma parseSelectorList_S n l : parseSelectorList (S n) l =
    '(sels, l1) <- selListLoop n l ;;
    Ok ((mkSpan (sp_start (tokenSpan l)) (lastEndOf (sp_start (tokenSpan l)) (map fst sels)), sels), l1).
Proof. reflexivity. Qed.

Lemma nth_url n : nthName n = true -> urlName n = false.
Proof. unfold nthName. intros H. apply bmem_In in H. repeat (destruct H as [<-|H]; [reflexivity|]). destruct H. Qed.
Lemma identifier_solid n q : identifier n = true -> solid (n ++ q).
Proof. intros H. apply identifier_ascii in H as (c & r & -> & _ & H & _). exact H. Qed.

Lemma pargs_read n a : identifier n = true -> okArgs n a = true ->
  Forall (fun s => Forall readPart (snd s)) (argParts a) ->
  forall q, lexw q -> (a = PANone -> endWord q) ->
  let T := n ++ argstext a ++ q in
  (exists t T', Tok T t (Some n) None T' /\ (t = Ident \/ t = FunctionStart)) /\
  forall l, is T l -> l_rws l = true ->
  exists a' e l', ev (fun k => readArgs k l) (a', e, l') /\ stripArgs a' = stripArgs (tidyArgs a) /\ here q l' /\ l_rws l' = true.
Proof.
  intros In O F q Lq Wq. cbv zeta.
  destruct a as [|asp v|asp a op b|asp sels]; cbn [okArgs argstext argParts] in *.
  - cbn [app]. assert (K : Tok (n ++ q) Ident (Some n) None q) by (apply tok_ident; auto).
    split; [exists Ident, q; auto|]. intros l I W.
    destruct (advw _ _ _ _ _ _ K I W Lq) as (l1 & E & I1 & W1).
    exists PANone, (tokenEnd l), l1. split; [|auto]. exists 0%nat. intros k _. unfold readArgs. rewrite (cur _ _ _ _ _ _ K I), E. reflexivity.
  - apply andb_true_iff in O as [On Ov].
    set (R := ")"%byte :: q).
    assert (KR : Tok R RParen None None q) by (apply tok_single; simpl; tauto).
    assert (ET : n ++ (B "(" ++ v ++ B ")") ++ q = n ++ "("%byte :: v ++ R).
    { rewrite <- !app_assoc. reflexivity. }
    rewrite ET. clear ET.
    assert (K : Tok (n ++ "("%byte :: v ++ R) FunctionStart (Some n) None (v ++ R)) by (apply tok_func; auto; apply nth_url; auto).
    assert (Iv : identifier v = true).
    { apply bmem_In in Ov. destruct Ov as [<-|[<-|[]]]; reflexivity. }
    assert (Kv : Tok (v ++ R) Ident (Some v) None R) by (apply tok_ident; auto; apply endNum_word; unfold R; en).
    split; [exists FunctionStart, (v ++ R); auto|]. intros l I W.
    destruct (advs _ _ _ _ _ _ K I W) as (l1 & E1 & I1 & W1); [eapply tok_lexable; eauto|apply identifier_solid; auto|].
    destruct (advs _ _ _ _ _ _ Kv I1 W1) as (l2 & E2 & I2 & W2); [apply paren_lexable|apply paren_solid|].
    destruct (advw _ _ _ _ _ _ KR I2 W2 Lq) as (l3 & E3 & I3 & W3).
    exists (PAIdent (tokenSpan l1) v), (tokenEnd l2), l3. split; [|auto].
    exists 0%nat. intros k _. unfold readArgs. rewrite (cur _ _ _ _ _ _ K I), (str _ _ _ _ _ _ K I), E1. cbn [bind].
    change (isNthName n) with (nthName n). rewrite On, (cur _ _ _ _ _ _ Kv I1), (str _ _ _ _ _ _ Kv I1).
    assert (X : beq v (B "n") || beq v (B "-n") = false /\ negb (beq v (B "even")) && negb (beq v (B "odd")) = false).
    { apply bmem_In in Ov. destruct Ov as [<-|[<-|[]]]; split; reflexivity. }
    destruct X as [-> ->]. rewrite E2. cbn [bind]. unfold expect. rewrite (cur _ _ _ _ _ _ KR I2). tq. rewrite E3. reflexivity.
  - apply andb_true_iff in O as [On Ov].
    set (R := ")"%byte :: q).
    assert (KR : Tok R RParen None None q) by (apply tok_single; simpl; tauto).
    assert (ET : n ++ (B "(" ++ anbtext a op b ++ B ")") ++ q = n ++ "("%byte :: anbtext a op b ++ R).
    { rewrite <- !app_assoc. reflexivity. }
    rewrite ET. clear ET.
    destruct (anb_read a op b q Ov) as (S1 & (t & os & on & T' & Kv & Dt) & R1). fold R in S1, Kv, R1.
    assert (K : Tok (n ++ "("%byte :: anbtext a op b ++ R) FunctionStart (Some n) None (anbtext a op b ++ R)) by (apply tok_func; auto; apply nth_url; auto).
    split; [exists FunctionStart, (anbtext a op b ++ R); auto|]. intros l I W.
    destruct (advs _ _ _ _ _ _ K I W) as (l1 & E1 & I1 & W1); [eapply tok_lexable; eauto|auto|].
    destruct (R1 l1 I1) as (sq & l2 & E2 & I2 & W2). rewrite W1 in W2.
    destruct (advw _ _ _ _ _ _ KR I2 W2 Lq) as (l3 & E3 & I3 & W3).
    exists (PAAnb sq a op b), (tokenEnd l2), l3. split; [|auto].
    exists 0%nat. intros k _. unfold readArgs. rewrite (cur _ _ _ _ _ _ K I), (str _ _ _ _ _ _ K I), E1. cbn [bind].
    change (isNthName n) with (nthName n). rewrite On, (cur _ _ _ _ _ _ Kv I1).
    assert (X : (if beq (l_str l1) (B "n") || beq (l_str l1) (B "-n") then parseANPlusB l1 else
                 if negb (beq (l_str l1) (B "even")) && negb (beq (l_str l1) (B "odd")) then
                   errorf l1 (B "expected even, odd, or an+b syntax")
                 else l4 <- next l1 ;; Ok (PAIdent (tokenSpan l1) (l_str l1), l4)) = parseANPlusB l1 \/ t <> Ident).
    { destruct Dt as [->|[->|[-> Dt]]]; [right; discriminate..|]. left.
      destruct Dt as [->| ->]; rewrite (str _ _ _ _ _ _ Kv I1); reflexivity. }
    assert (Y : match t with Number | Dimension => parseANPlusB l1 | Ident =>
                 if beq (l_str l1) (B "n") || beq (l_str l1) (B "-n") then parseANPlusB l1 else
                 if negb (beq (l_str l1) (B "even")) && negb (beq (l_str l1) (B "odd")) then
                   errorf l1 (B "expected even, odd, or an+b syntax")
                 else l4 <- next l1 ;; Ok (PAIdent (tokenSpan l1) (l_str l1), l4) | _ => Ok (PANone, l1) end = parseANPlusB l1).
    { destruct Dt as [->|[->|[-> Dt]]]; auto. destruct X as [X|X]; [exact X|congruence]. }
    rewrite Y, E2. cbn [bind]. unfold expect. rewrite (cur _ _ _ _ _ _ KR I2). tq. rewrite E3. reflexivity.
  - rewrite !andb_true_iff in O. destruct O as (((On & Ou) & Os) & O). apply negb_true_iff in On. apply negb_true_iff in Ou.
    set (R := ")"%byte :: q).
    assert (KR : Tok R RParen None None q) by (apply tok_single; simpl; tauto).
    assert (ET : n ++ (B "(" ++ selsText sels ++ B ")") ++ q = n ++ "("%byte :: selsText sels ++ R).
    { rewrite <- !app_assoc. reflexivity. }
    fold (selsText sels). rewrite ET. clear ET.
    assert (K : Tok (n ++ "("%byte :: selsText sels ++ R) FunctionStart (Some n) None (selsText sels ++ R)) by (apply tok_func; auto).
    split; [exists FunctionStart, (selsText sels ++ R); auto|]. intros l I W.
    assert (Fs : Forall (selOk true) sels).
    { rewrite forallb_forall in O. rewrite Forall_forall in *. intros s Is. specialize (O s Is). rewrite !andb_true_iff in O.
      destruct O as ((O1 & O2) & O3). split; [destruct (trimParts (snd s)); discriminate|]. split; auto. split; auto. split; [apply F; auto|discriminate]. }
    destruct (sels_read true sels ltac:(destruct sels; discriminate) Fs R) as (L1 & _ & _ & R1); [exists q; auto|].
    destruct (advw _ _ _ _ _ _ K I W L1) as (l1 & E1 & I1 & W1).
    destruct (R1 l1 I1 W1) as (sels' & l2 & (n0 & E2) & D2 & I2 & W2).
    destruct (advw _ _ _ _ _ _ KR I2 W2 Lq) as (l3 & E3 & I3 & W3).
    eexists (PASel _ sels'), (tokenEnd l2), l3. split; [|split; [|auto]].
    + exists (S n0). intros [|k] Lk; [lia|]. unfold readArgs. rewrite (cur _ _ _ _ _ _ K I), (str _ _ _ _ _ _ K I), E1. cbn [bind].
      change (isNthName n) with (nthName n). rewrite On, parseSelectorList_S, E2 by lia. cbn [bind].
      unfold expect. rewrite (cur _ _ _ _ _ _ KR I2). tq. rewrite E3. reflexivity.
    + cbn [tidyArgs stripArgs]. rewrite D2, map_map. reflexivity.
Qed.

Lemma strip_pseudo sq n a : stripPart (SPseudo sq n a) = SPseudo sp0 n (stripArgs a).
Proof. destruct a; reflexivity. Qed.
Lemma strip_pseudoEl sq isp n a : stripPart (SPseudoEl sq isp n a) = SPseudoEl sp0 sp0 n (stripArgs a).
Proof. destruct a; reflexivity. Qed.

(** ** Parts *)
Ltac nodelim := unfold delimOk; repeat match goal with |- (_ -> _) /\ _ => split; [intros X; vm_compute in X; discriminate X|] end; intros X; vm_compute in X; discriminate X.
Lemma delim_plain c q : In c (B "*>~|=") -> delimOk c q.
Proof. intros I. repeat (destruct I as [<-|I]; [nodelim|]). destruct I. Qed.
Lemma delim_plus q : notNumber q -> delimOk "+"%byte q.
Proof. intros N. split; [intros _; exact N|]. nodelim. Qed.
Lemma delim_dot n q : identifier n = true -> delimOk "."%byte (n ++ q).
Proof.
  intros H. unfold delimOk. do 5 (split; [intros X; vm_compute in X; discriminate X|]). split; [|intros X; vm_compute in X; discriminate X]. intros _.
  destruct n as [|c r]; [discriminate|]. cbn [identifier] in H. apply andb_true_iff in H as [_ H]. cbn [app skipn].
  apply orb_true_iff in H as [H|H].
  - apply startByte_facts in H. rewrite (chr_ascii c) by lia. unfold startsNumber.
    rewrite (digit_no (bz c)) by lia. destruct (Z.eqb_spec (bz c) 43); [lia|]. destruct (Z.eqb_spec (bz c) 45); [lia|].
    destruct (Z.eqb_spec (bz c) 46); [lia|]. reflexivity.
  - apply andb_true_iff in H as [H J]. apply Z.eqb_eq in H. rewrite (chr_ascii c) by lia. rewrite H.
    destruct r as [|d r]; [discriminate|]. cbn [app].
    assert (D : 65 <= bz d <= 90 \/ 97 <= bz d <= 122 \/ bz d = 95 \/ bz d = 45).
    { apply orb_true_iff in J as [J|J]; [apply startByte_facts in J; lia|]. apply andb_true_iff in J as [J _]. apply Z.eqb_eq in J. lia. }
    rewrite (chr_ascii d) by lia. unfold startsNumber. change ((45 =? 43) || (45 =? 45)) with true. cbv iota.
    rewrite (digit_no (bz d)) by lia. destruct (Z.eqb_spec (bz d) 46); [lia|]. reflexivity.
Qed.

Lemma word_endName q : endWord q -> endName q. Proof. apply endWord_name. Qed.
Lemma attr_read prop v : identifier prop = true -> isNil v || okValue v = true ->
  forall q, lexw q -> unsp q = q ->
  let T := B "[" ++ (prop ++ (if isNil v then [] else B "=" ++ vtext v) ++ B "]") ++ q in
  (exists T', Tok T LBracket None None T') /\
  forall l, is T l -> l_rws l = true ->
  exists p' l', ev (fun n => parseAttributeSelector n l) (p', l') /\ stripPart p' = stripPart (SAttr sp0 prop [] v []) /\
    here q l' /\ l_rws l' = true.
Proof.
  intros Ip Ov q Lq Uq. cbv zeta.
  assert (Hq : lexable (unsp q)).
  { rewrite Uq. destruct q as [|c q]; [exact Lq|]. unfold lexw in Lq. unfold unsp in Uq. destruct (Byte.eqb c sp); [|exact (proj1 Lq)].
    exfalso. assert (length q = length (c :: q)) by (rewrite Uq at 1; reflexivity). cbn in *. lia. }
  assert (Hh : forall l, is (unsp q) l -> here q l).
  { rewrite Uq. intros l. destruct q as [|c q0]; [exact (fun x => x)|]. unfold here. unfold unsp in Uq.
    destruct (Byte.eqb c sp); [|exact (fun x => x)].
    exfalso. assert (length q0 = length (c :: q0)) by (rewrite Uq at 1; reflexivity). cbn in *. lia. }
  set (R := "]"%byte :: q).
  assert (KR : Tok R RBracket None None q) by (apply tok_single; simpl; tauto).
  assert (LR : lexable R) by (eapply tok_lexable; eauto). assert (SR : solid R) by (vm_compute; reflexivity).
  set (M := (if isNil v then [] else B "=" ++ vtext v) ++ R).
  assert (ET : B "[" ++ (prop ++ (if isNil v then [] else B "=" ++ vtext v) ++ B "]") ++ q = "["%byte :: prop ++ M).
  { unfold M. rewrite <- !app_assoc. reflexivity. }
  rewrite ET. clear ET.
  assert (K : Tok ("["%byte :: prop ++ M) LBracket None None (prop ++ M)) by (apply tok_single; simpl; tauto).
  split; [eauto|]. intros l I W. pose proof (is_setRws _ _ false I) as I0.
  assert (WM : endWord M) by (unfold M; destruct (isNil v); vm_compute; split; congruence).
  assert (KP : Tok (prop ++ M) Ident (Some prop) None M) by (apply tok_ident; auto).
  destruct (advance _ _ _ _ _ _ K I0 eq_refl) as (l1 & E1 & I1 & W1); [rewrite solid_unsp; [eapply tok_lexable; eauto|apply identifier_solid; auto]|].
  rewrite solid_unsp in I1 by (apply identifier_solid; auto).
  destruct (isNil v) eqn:Ev.
  - unfold M in *. cbn [app] in *. destruct v; try discriminate.
    destruct (advance _ _ _ _ _ _ KP I1 W1) as (l2 & E2 & I2 & W2); [rewrite solid_unsp; auto|]. rewrite solid_unsp in I2 by auto.
    destruct (advance _ _ _ _ _ _ KR I2 W2 Hq) as (l3 & E3 & I3 & W3).
    eexists _, (setRws l3 (l_rws l)). split; [|split; [|split; [apply here_setRws; auto|exact W]]].
    + exists 0%nat. intros n _. unfold parseAttributeSelector. rewrite E1. cbn [bind]. unfold expect at 1.
      rewrite (cur _ _ _ _ _ _ KP I1). tq. rewrite E2. cbn [bind]. rewrite (cur _ _ _ _ _ _ KR I2). tq. rewrite E3. cbn [bind].
      rewrite (str _ _ _ _ _ _ KP I1). reflexivity.
    + reflexivity.
  - cbn [orb] in Ov. unfold okValue in Ov. unfold M in *. rewrite <- app_assoc in *.
    assert (Av : after v R).
    { split; [right; unfold R; en|]. rewrite solid_unsp; auto. }
    destruct (value_read v Outside Ov R Av) as (Sv & Rv). specialize (Rv ltac:(discriminate)). cbn [readAt] in Rv.
    pose proof (value_solid _ _ R Ov) as SV.
    assert (KE : Tok (B "=" ++ vtext v ++ R) Delim (Some (B "=")) None (vtext v ++ R)).
    { apply tok_delim; [vm_compute; tauto|]. apply delim_plain. vm_compute; tauto. }
    destruct (advance _ _ _ _ _ _ KP I1 W1) as (l2 & E2 & I2 & W2); [rewrite solid_unsp; [eapply tok_lexable; eauto|vm_compute; reflexivity]|].
    rewrite solid_unsp in I2 by (vm_compute; reflexivity).
    destruct (advance _ _ _ _ _ _ KE I2 W2) as (l3 & E3 & I3 & W3); [rewrite solid_unsp by auto; apply starts_lexable; auto|].
    rewrite solid_unsp in I3 by auto.
    destruct (Rv l3 I3 W3) as (v' & l4 & (n0 & E4) & D4 & I4 & W4). rewrite solid_unsp in I4 by auto.
    destruct (advance _ _ _ _ _ _ KR I4 W4 Hq) as (l5 & E5 & I5 & W5).
    eexists _, (setRws l5 (l_rws l)). split; [|split; [|split; [apply here_setRws; auto|exact W]]].
    + exists n0. intros n Ln. unfold parseAttributeSelector. rewrite E1. cbn [bind]. unfold expect at 1.
      rewrite (cur _ _ _ _ _ _ KP I1). tq. rewrite E2. cbn [bind]. rewrite (cur _ _ _ _ _ _ KE I2), (str _ _ _ _ _ _ KE I2). tq.
      change (bmem (B "=") [B "^"; B "~"; B "$"; B "*"; B "|"]) with false. cbv iota.
      unfold expect at 1. rewrite (cur _ _ _ _ _ _ KE I2). tq. rewrite E3. cbn [bind]. rewrite E4 by lia. cbn [bind].
      rewrite (nil_strip v v' D4 Ev). rewrite (cur _ _ _ _ _ _ KR I4). tq. unfold expect. rewrite (cur _ _ _ _ _ _ KR I4). tq.
      rewrite E5. cbn [bind]. rewrite (str _ _ _ _ _ _ KP I1). reflexivity.
    + cbn [stripPart]. rewrite D4. reflexivity.
Qed.

Theorem part_read p : readPart p.
Proof.
  induction p as [sq | sq n | sq n | sq n | sq o | sq n a IH | sq isp n a IH | sq prop o v m] using selpart_ind';
    intros O S q Lq (Wq & Xq); try discriminate; cbn [okPart isWord] in *; try rewrite ptext_eq; cbn [ptext].
  - apply star_or in O as [->|[E O]].
    + assert (K : Tok (B "*" ++ q) Delim (Some (B "*")) None q) by (apply tok_delim; [vm_compute; tauto|apply delim_plain; vm_compute; tauto]).
      split; [exists Delim, (Some (B "*")), None, q; auto|]. intros l e I W.
      destruct (advw _ _ _ _ _ _ K I W Lq) as (l1 & E1 & I1 & W1).
      exists (SType (tokenSpan l) (B "*")), l1. split; [reflexivity|]. split; auto. split; auto. intros ps x l2 (n0 & E2).
      exists (Datatypes.S n0). intros [|n] Ln; [lia|]. rewrite partsLoop_S, (cur _ _ _ _ _ _ K I), (str _ _ _ _ _ _ K I).
      change (beq (B "*") (B ".")) with false. change (bmem (B "*") [B "+"; B ">"; B "~"; B "|"]) with false.
      change (beq (B "*") (B "*")) with true. cbv iota zeta. rewrite E1. cbn [bind]. rewrite E2 by lia. reflexivity.
    + rewrite E in Wq. cbn [negb] in Wq. assert (K : Tok (n ++ q) Ident (Some n) None q) by (apply tok_ident; auto).
      split; [exists Ident, (Some n), None, q; auto|]. intros l e I W.
      destruct (advw _ _ _ _ _ _ K I W Lq) as (l1 & E1 & I1 & W1).
      exists (SType (tokenSpan l) n), l1. split; [reflexivity|]. split; auto. split; auto. intros ps x l2 (n0 & E2).
      exists (Datatypes.S n0). intros [|k] Ln; [lia|]. rewrite partsLoop_S, (cur _ _ _ _ _ _ K I), (str _ _ _ _ _ _ K I).
      cbv zeta. rewrite E1. cbn [bind]. rewrite E2 by lia. reflexivity.
  - change ((B "." ++ n) ++ q) with ("."%byte :: (n ++ q)). specialize (Wq eq_refl).
    assert (K : Tok ("."%byte :: (n ++ q)) Delim (Some (B ".")) None (n ++ q)) by (apply tok_delim; [vm_compute; tauto|apply delim_dot; auto]).
    assert (K2 : Tok (n ++ q) Ident (Some n) None q) by (apply tok_ident; auto).
    split; [exists Delim, (Some (B ".")), None, (n ++ q); auto|]. intros l e I W.
    destruct (advs _ _ _ _ _ _ K I W) as (l1 & E1 & I1 & W1); [eapply tok_lexable; eauto|apply identifier_solid; auto|].
    destruct (advw _ _ _ _ _ _ K2 I1 W1 Lq) as (l2 & E2 & I2 & W2).
    exists (SClass (mkSpan (sp_start (tokenSpan l)) (tokenEnd l1)) n), l2. split; [reflexivity|]. split; auto. split; auto. intros ps x l3 (n0 & E3).
    exists (Datatypes.S n0). intros [|k] Ln; [lia|]. rewrite partsLoop_S, (cur _ _ _ _ _ _ K I), (str _ _ _ _ _ _ K I).
    change (beq (B ".") (B ".")) with true. cbv iota zeta. rewrite E1. cbn [bind]. unfold expect.
    rewrite (cur _ _ _ _ _ _ K2 I1), (str _ _ _ _ _ _ K2 I1). tq. rewrite E2. cbn [bind]. rewrite E3 by lia. reflexivity.
  - change ((B "#" ++ n) ++ q) with ("#"%byte :: (n ++ q)). specialize (Wq eq_refl).
    assert (K : Tok ("#"%byte :: (n ++ q)) Hash (Some n) None q) by (apply tok_hash; auto; apply endWord_name; auto).
    split; [exists Hash, (Some n), None, q; auto|]. intros l e I W.
    destruct (advw _ _ _ _ _ _ K I W Lq) as (l1 & E1 & I1 & W1).
    exists (SId (tokenSpan l) n), l1. split; [reflexivity|]. split; auto. split; auto. intros ps x l2 (n0 & E2).
    exists (Datatypes.S n0). intros [|k] Ln; [lia|]. rewrite partsLoop_S, (cur _ _ _ _ _ _ K I), (str _ _ _ _ _ _ K I).
    cbv zeta. rewrite E1. cbn [bind]. rewrite E2 by lia. reflexivity.
  - assert (K : Tok (o ++ q) Delim (Some o) None q).
    { pose proof O as O2. apply comb_in in O2 as (c & -> & Ic). cbn [app]. apply tok_delim.
      - repeat (destruct Ic as [<-|Ic]; [vm_compute; tauto|]). destruct Ic.
      - destruct Ic as [<-|Ic]; [apply delim_plus; auto|]. apply delim_plain.
        repeat (destruct Ic as [<-|Ic]; [vm_compute; tauto|]). destruct Ic. }
    split; [exists Delim, (Some o), None, q; auto|]. intros l e I W.
    destruct (advw _ _ _ _ _ _ K I W Lq) as (l1 & E1 & I1 & W1).
    exists (SComb (tokenSpan l) o), l1. split; [reflexivity|]. split; auto. split; auto. intros ps x l2 (n0 & E2).
    exists (Datatypes.S n0). intros [|k] Ln; [lia|]. rewrite partsLoop_S, (cur _ _ _ _ _ _ K I), (str _ _ _ _ _ _ K I), O.
    assert (X : beq o (B ".") = false).
    { apply comb_in in O as (c & -> & Ic). repeat (destruct Ic as [<-|Ic]; [reflexivity|]). destruct Ic. }
    rewrite X. cbv zeta. rewrite E1. cbn [bind]. rewrite E2 by lia. reflexivity.
  - apply andb_true_iff in O as [Oi Oa].
    assert (F : Forall (fun s => Forall readPart (snd s)) (argParts a)) by exact IH.
    destruct (pargs_read n a Oi Oa F q Lq) as ((t & T' & K2 & Dt) & R2); [intros ->; auto|].
    rewrite <- !app_assoc. set (T2 := n ++ argstext a ++ q) in *.
    assert (S2 : solid T2) by (apply identifier_solid; auto).
    assert (K : Tok (B ":" ++ T2) Colon None None T2) by (apply tok_single; simpl; tauto).
    split; [exists Colon, None, None, T2; auto|]. intros l e I W.
    destruct (advs _ _ _ _ _ _ K I W) as (l1 & E1 & I1 & W1); [eapply tok_lexable; eauto|auto|].
    destruct (R2 l1 I1 W1) as (a' & ea & l2 & (n0 & E2) & D2 & I2 & W2).
    exists (SPseudo (mkSpan (sp_start (tokenSpan l)) ea) n a'), l2. split; [|split; auto; split; auto; intros ps x l3 (n1 & E3)].
    + rewrite strip_pseudo, D2. destruct a; reflexivity.
    + exists (Datatypes.S (n0 + n1)). intros [|k] Ln; [lia|]. rewrite partsLoop_S, (cur _ _ _ _ _ _ K I). cbv zeta.
      rewrite E1. cbn [bind]. rewrite (cur _ _ _ _ _ _ K2 I1).
      assert (X : teq t Colon = false) by (destruct Dt as [->| ->]; reflexivity). rewrite X. cbn [bind].
      rewrite E2 by lia. cbn [bind]. rewrite (str _ _ _ _ _ _ K2 I1).
      cbn [partSpan sp_end] in *. rewrite E3 by lia. reflexivity.
  - apply andb_true_iff in O as [Oi Oa].
    assert (F : Forall (fun s => Forall readPart (snd s)) (argParts a)) by exact IH.
    destruct (pargs_read n a Oi Oa F q Lq) as ((t & T' & K2 & Dt) & R2); [intros ->; auto|].
    rewrite <- !app_assoc. set (T2 := n ++ argstext a ++ q) in *.
    assert (S2 : solid T2) by (apply identifier_solid; auto).
    assert (K1 : Tok (B ":" ++ T2) Colon None None T2) by (apply tok_single; simpl; tauto).
    assert (K : Tok (B ":" ++ B ":" ++ T2) Colon None None (B ":" ++ T2)) by (apply tok_single; simpl; tauto).
    split; [exists Colon, None, None, (B ":" ++ T2); auto|]. intros l e I W.
    destruct (advs _ _ _ _ _ _ K I W) as (l0 & E0 & I0 & W0); [eapply tok_lexable; eauto|vm_compute; reflexivity|].
    destruct (advs _ _ _ _ _ _ K1 I0 W0) as (l1 & E1 & I1 & W1); [eapply tok_lexable; eauto|auto|].
    destruct (R2 l1 I1 W1) as (a' & ea & l2 & (n0 & E2) & D2 & I2 & W2).
    exists (SPseudoEl (mkSpan (sp_start (tokenSpan l)) ea) (mkSpan (sp_start (tokenSpan l0)) ea) n a'), l2. split; [|split; auto; split; auto; intros ps x l3 (n1 & E3)].
    + rewrite strip_pseudoEl, D2. destruct a; reflexivity.
    + exists (Datatypes.S (n0 + n1)). intros [|k] Ln; [lia|]. rewrite partsLoop_S, (cur _ _ _ _ _ _ K I). cbv zeta.
      rewrite E0. cbn [bind]. rewrite (cur _ _ _ _ _ _ K1 I0). tq. rewrite E1. cbn [bind].
      rewrite E2 by lia. cbn [bind]. rewrite (str _ _ _ _ _ _ K2 I1).
      cbn [partSpan sp_end] in *. rewrite E3 by lia. reflexivity.
  - rewrite !andb_true_iff in O. destruct O as (((Op & Oo) & Om) & Ov). destruct o; [|discriminate]. destruct m; [|discriminate].
    destruct (attr_read prop v Op Ov q Lq Xq) as ((T' & K) & R1).
    match goal with K : Tok ?x _ _ _ _ |- _ => assert (ET : (B "[" ++ prop ++ (if isNil v then [] else B "=" ++ vtext v) ++ B "]") ++ q = x)
      by (rewrite <- !app_assoc; reflexivity) end.
    rewrite ET. clear ET.
    split; [exists LBracket, None, None, T'; auto|]. intros l e I W.
    destruct (R1 l I W) as (p' & l1 & (n0 & E1) & D1 & I1 & W1).
    exists p', l1. split; [rewrite D1; reflexivity|]. split; auto. split; auto. intros ps x l3 (n1 & E3).
    exists (Datatypes.S (n0 + n1)). intros [|k] Ln; [lia|]. rewrite partsLoop_S, (cur _ _ _ _ _ _ K I). cbv zeta.
    rewrite E1 by lia. cbn [bind]. rewrite E3 by lia. reflexivity.
Qed.

(** A selector list of a rule. *)
Lemma okSelector_sel s : okSelector s = true -> selOk false s.
Proof.
  unfold okSelector. rewrite !andb_true_iff. intros ((H1 & H2) & H3).
  destruct (snd s) as [|p ps] eqn:E; [discriminate|]. apply negb_true_iff in H1.
  assert (X : exists r, trimParts (p :: ps) = p :: r).
  { destruct ps as [|x ps]; [change [p] with ([] ++ [p]); rewrite trim_last, H1; eexists; reflexivity|].
    rewrite trim_cons. eexists; reflexivity. }
  destruct X as (r & X). unfold selOk. rewrite E, X. split; [discriminate|]. split; auto. split; auto. split.
  - apply Forall_forall. intros y _. apply part_read.
  - auto.
Qed.
Lemma selectors_read sels : sels <> [] -> forallb okSelector sels = true -> forall r,
  let T := selsText sels ++ "{"%byte :: r in
  lexable T /\ solid T /\ (forall l, is T l -> partToken (l_cur l) = true) /\
  forall l, is T l -> l_rws l = false ->
  exists sq sels' l', ev (fun n => parseSelectorList n l) ((sq, sels'), l') /\
    map stripSel sels' = map (fun s => stripSel (tidySelector s)) sels /\ is ("{"%byte :: r) l' /\ l_rws l' = false.
Proof.
  intros N O r. cbv zeta.
  assert (F : Forall (selOk false) sels).
  { rewrite forallb_forall in O. apply Forall_forall. intros s I. apply okSelector_sel; auto. }
  destruct (sels_read false sels N F ("{"%byte :: r)) as (L & S & C & R); [exists r; auto|]. specialize (S eq_refl).
  set (T := selsText sels ++ "{"%byte :: r) in *.
  split; [apply lexw_solid; auto|]. split; auto. split.
  - intros l I. destruct (C l) as [X|X]; [apply here_solid; auto| |exact X].
    destruct X as [_ X]. contradiction.
  - intros l I W. destruct (R l) as (sels' & l1 & (n0 & E) & D & I1 & W1); [apply here_solid; auto|auto|].
    eexists _, sels', l1. split; [|auto]. exists (Datatypes.S n0). intros [|n] Ln; [lia|]. rewrite parseSelectorList_S, E by lia. reflexivity.
Qed.
End WithUnicode.
