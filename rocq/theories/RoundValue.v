(** Printed values are read back. *)
From Verif Require Import Bytes Utf8 Source Ast AstInd Lexer Parser Printer Strip.
From Verif Require Import BytesFacts LexSpec LexFacts PrinterProofs RoundSpec RoundLex.

(** * The printed text *)
Definition txt (o : ops) (t : bytes) : Prop := exists l, o = Some l /\ textOf l = t.
Lemma txt_cat a b s t : txt a s -> txt b t -> txt (a +++ b) (s ++ t).
Proof. intros (x & -> & <-) (y & -> & <-). exists (x ++ y). split; [reflexivity|apply textOf_app]. Qed.
Lemma txt_w s : txt (w s) (B s). Proof. exists [W (B s)]. split; [reflexivity|]. simpl. apply app_nil_r. Qed.
Lemma txt_ws s : txt (ws s) s. Proof. exists [W s]. split; [reflexivity|]. simpl. apply app_nil_r. Qed.
Lemma txt_nop : txt nop []. Proof. exists []. auto. Qed.

Fixpoint join (sep : bytes) (l : list bytes) : bytes :=
  match l with
  | [] => []
  | x :: r => match r with [] => x | _ => x ++ sep ++ join sep r end
  end.
Lemma txt_all {A} (f : A -> ops) (g : A -> bytes) l : Forall (fun x => txt (f x) (g x)) l -> txt (all f l) (concat (map g l)).
Proof. induction 1; simpl; [apply txt_nop | apply txt_cat; auto]. Qed.
Lemma txt_sepBy {A} o s (f : A -> ops) (g : A -> bytes) l : txt o s -> Forall (fun x => txt (f x) (g x)) l ->
  txt (sepBy o f l) (join s (map g l)).
Proof.
  intros S. induction 1 as [|x l H F IH]; simpl; [apply txt_nop|]. destruct l; auto.
  apply txt_cat; auto. apply txt_cat; auto.
Qed.

Fixpoint vtext (v : value) : bytes :=
  match v with
  | VNil => []
  | VComma _ => B ","
  | VDim _ n u => n ++ u
  | VString _ s => B """" ++ s ++ B """"
  | VIdent _ s => s
  | VFunc _ n args => n ++ B "(" ++ concat (map vtext args) ++ B ")"
  | VBrackets _ vs => B "[" ++ join (B " ") (map vtext vs) ++ B "]"
  | VMathParen _ v => B "(" ++ vtext v ++ B ")"
  | VMath _ o l r => vtext l ++ o ++ vtext r
  | VHex _ s => B "#" ++ s
  | VRaw _ s => s
  end.

Lemma txt_value v : forall p, okAt p v = true -> txt (printValue v) (vtext v).
Proof.
  induction v as [| | | | | ? ? IH | ? ? ? IH | ? ? ? ? IHl IHr | ? ? IH | |] using value_ind'; intros p H;
    cbn [printValue vtext okAt] in *; try discriminate;
    repeat first [apply txt_w | apply txt_ws | apply txt_cat].
  - apply txt_sepBy; [apply txt_w|]. rewrite forallb_forall in H. rewrite Forall_forall in *. intros x I. eapply IH; eauto.
  - apply txt_all. rewrite Forall_forall in *. intros x I. destruct (urlName n).
    + destruct vs as [|[] [|? ?]]; try discriminate; destruct I as [<-|[]]; cbn [printValue vtext];
      repeat first [apply txt_w | apply txt_ws | apply txt_cat].
    + rewrite !andb_true_iff, forallb_forall in H. destruct H as [_ H]. specialize (H x I).
      apply orb_true_iff in H as [H|H]; [|eapply IH; eauto]. destruct x; try discriminate. apply txt_w.
  - destruct (beq o (B "+")); [|destruct (beq o (B "-")); [|destruct (beq o (B "*") || beq o (B "/")); [|discriminate]]];
      rewrite !andb_true_iff in H; [apply (IHl Sum)|apply (IHl Sum)|apply (IHl Product)]; tauto.
  - destruct (beq o (B "+")); [|destruct (beq o (B "-")); [|destruct (beq o (B "*") || beq o (B "/")); [|discriminate]]];
      rewrite !andb_true_iff in H; [apply (IHr Product)|apply (IHr Product)|apply (IHr Operand)]; tauto.
  - apply andb_true_iff in H as [_ H]. eauto.
Qed.

(** * Running *)
(** With enough fuel, [f] returns [a]. *)
Definition ev {A} (f : nat -> res A) (a : A) : Prop := exists n0, forall n, (n0 <= n)%nat -> f n = Ok a.

Section WithUnicode.
Context {U : UnicodeDigits}.

Lemma advance T t os on T' l : Tok T t os on T' -> is T l -> l_rws l = false -> lexable (unsp T') ->
  exists l', next l = Ok l' /\ is (unsp T') l' /\ l_rws l' = false.
Proof.
  intros K I W L. destruct (I _ _ _ _ K) as (H & E & _ & C & _). apply next_unsp; auto.
Qed.
(** The current token. *)
Lemma cur T t os on T' l : Tok T t os on T' -> is T l -> l_cur l = t.
Proof. intros K I. destruct (I _ _ _ _ K) as (_ & _ & H & _). auto. Qed.
Lemma str T t s on T' l : Tok T t (Some s) on T' -> is T l -> l_str l = s.
Proof. intros K I. destruct (I _ _ _ _ K) as (_ & _ & _ & _ & H & _). auto. Qed.
Lemma num T t os s T' l : Tok T t os (Some s) T' -> is T l -> l_num l = s.
Proof. intros K I. destruct (I _ _ _ _ K) as (_ & _ & _ & _ & _ & H). auto. Qed.

Definition solid (T : bytes) : Prop := match T with c :: _ => bz c > 32 | [] => False end.
Lemma solid_unsp T : solid T -> unsp T = T.
Proof.
  destruct T as [|c T]; [contradiction|]. simpl. intros H. destruct (Byte.eqb c sp) eqn:E; auto.
  apply byte_eqb_eq in E. subst. vm_compute in H. discriminate.
Qed.
Lemma solid_app s r : solid s -> solid (s ++ r).
Proof. destruct s; simpl; auto. contradiction. Qed.

(** * How a value begins *)
Definition firstOk (v : value) (c : byte) : Prop :=
  ascii c /\ bz c > 32 /\ bz c <> 42 /\ bz c <> 33 /\ bz c <> 61 /\
  (beginsNumber v = false -> ~ (48 <= bz c <= 57) /\ bz c <> 46) /\
  (beginsParen v = true -> bz c = 40).
Lemma identifier_first s : identifier s = true -> exists c r, s = c :: r /\ (startByte c = true \/ bz c = 45).
Proof.
  destruct s as [|c s]; [discriminate|]. simpl. rewrite andb_true_iff. intros [_ H]. exists c, s. split; auto.
  apply orb_true_iff in H as [H|H]; auto. apply andb_true_iff in H as [H _]. apply Z.eqb_eq in H. auto.
Qed.
Lemma numeral_first s : numeral s = true -> exists c r, s = c :: r /\
  (bz c = 43 \/ bz c = 45 \/ ((48 <= bz c <= 57 \/ bz c = 46) /\ (isNumeric c || (bz c =? 46)) = true)).
Proof.
  destruct s as [|c s]; [discriminate|]. cbn [numeral]. intros H. exists c, s. split; auto.
  destruct ((bz c =? 43) || (bz c =? 45)) eqn:E.
  - apply orb_true_iff in E as [E|E]; apply Z.eqb_eq in E; auto.
  - right. right. cbn [decimal] in H. destruct (Z.eqb_spec (bz c) 46); [rewrite orb_true_r; auto|].
    apply andb_true_iff in H as [H _]. rewrite H. apply isNumeric_facts in H. auto.
Qed.
Lemma urlName_first n : urlName n = true -> identifier n = true.
Proof.
  destruct n as [|a [|b [|c [|? ?]]]]; try discriminate. intros N. cbn [urlName] in N.
  unfold identifier, startByte, isLetter, isUpper, isLower. cbn [forallb]. unfold nameByte, isLetter, isUpper, isLower.
  rewrite !andb_true_iff in *. destruct N as ((Na & Nb) & Nc).
  apply orb_true_iff in Na as [Na|Na]; apply orb_true_iff in Nb as [Nb|Nb]; apply orb_true_iff in Nc as [Nc|Nc];
  apply Z.eqb_eq in Na; apply Z.eqb_eq in Nb; apply Z.eqb_eq in Nc; rewrite Na, Nb, Nc; vm_compute; auto.
Qed.
Ltac fo := unfold firstOk, ascii; repeat match goal with |- context [bz ?k] => let z := eval vm_compute in (bz k) in change (bz k) with z end;
  repeat split; intros; try lia; try discriminate.
Lemma first_of v : forall p, okAt p v = true -> exists c s, vtext v = c :: s /\ firstOk v c.
Proof.
  assert (ID : forall v c, startByte c = true \/ bz c = 45 -> beginsParen v = false -> firstOk v c).
  { intros v0 c [H|H] P; unfold firstOk; rewrite P; [apply startByte_facts in H|]; (split; [split; lia|]);
    repeat split; try lia; try discriminate. }
  induction v as [| | | | | ? ? IH | ? ? ? IH | ? ? ? ? IHl IHr | ? ? IH | |] using value_ind'; intros p H;
    cbn [vtext okAt] in *; try discriminate.
  - eexists; eexists; split; [reflexivity|]. fo.
  - apply andb_true_iff in H as [H _]. destruct (numeral_first _ H) as (c & r & -> & F).
    exists c, (r ++ u). split; [reflexivity|]. unfold firstOk.
    cbn [beginsNumber beginsParen firstByte]. destruct F as [F|[F|[F G]]]; (split; [split; lia|]).
    1-2: repeat split; try lia; try discriminate.
    rewrite G. repeat split; try lia; try discriminate.
  - destruct (identifier_first _ H) as (c & r & -> & F). exists c, r. split; auto.
  - eexists; eexists; split; [reflexivity|]. fo.
  - eexists; eexists; split; [reflexivity|]. fo.
  - assert (I : identifier n = true).
    { destruct (urlName n) eqn:E; [apply urlName_first; auto|]. rewrite !andb_true_iff in H. tauto. }
    destruct (identifier_first _ I) as (c & r & -> & F). exists c. eexists. split; [reflexivity|]. auto.
  - assert (exists q, okAt q v1 = true) as (q & Hq).
    { destruct (beq o (B "+")); [|destruct (beq o (B "-")); [|destruct (beq o (B "*") || beq o (B "/")); [|discriminate]]];
      rewrite !andb_true_iff in H; eexists; apply H. }
    destruct (IHl _ Hq) as (c & s & -> & F). exists c. eexists. split; [reflexivity|]. exact F.
  - eexists; eexists; split; [reflexivity|]. fo.
Qed.
Lemma value_solid p v r : okAt p v = true -> solid (vtext v ++ r).
Proof. intros H. destruct (first_of _ _ H) as (c & s & -> & F). simpl. unfold firstOk in F. tauto. Qed.

(** * Reading values *)
Definition valueToken (t : token) : bool :=
  match t with
  | Dimension | LBracket | Percentage | Number | Ident | Hash | TString | URL | FunctionStart => true
  | _ => false
  end.
Definition after (v : value) (r : bytes) : Prop := (endsClosed v = true \/ endNum r) /\ lexable (unsp r).
(** What follows does not continue a product. *)
Definition quiet (r : bytes) : Prop :=
  exists t os on T', Tok (unsp r) t os on T' /\ (t <> Delim \/ os = Some (B "+") \/ os = Some (B "-")).
Definition starts (v : value) (r : bytes) : Prop :=
  exists t os on T', Tok (vtext v ++ r) t os on T' /\ (if beginsParen v then t = LParen else valueToken t = true).
Definition reads (run : nat -> lexer -> res (value * lexer)) (v : value) (r : bytes) : Prop :=
  forall l, is (vtext v ++ r) l -> l_rws l = false ->
  exists v' l', ev (fun n => run n l) (v', l') /\ stripValue v' = stripValue v /\ is (unsp r) l' /\ l_rws l' = false.
(** The same up to the loop that takes further operands. *)
Definition readsTo (run : nat -> lexer -> res (value * lexer)) (loop : nat -> value -> lexer -> res (value * lexer))
    (v : value) (r : bytes) : Prop :=
  forall l, is (vtext v ++ r) l -> l_rws l = false ->
  exists v' l', stripValue v' = stripValue v /\ is (unsp r) l' /\ l_rws l' = false /\
    forall a, ev (fun n => loop n v' l') a -> ev (fun n => run n l) a.
Definition readAt (p : place) (v : value) (r : bytes) : Prop :=
  match p with
  | Outside => reads parseValue v r
  | Operand => reads mathParen v r
  | Product => readsTo mathProduct mathProductLoop v r
  | Sum => readsTo mathSum mathSumLoop v r
  end.
Definition okRead (v : value) : Prop := forall p, okAt p v = true -> forall r, after v r ->
  starts v r /\ ((p = Sum -> quiet r) -> readAt p v r).

Lemma starts_lexable v r : starts v r -> lexable (vtext v ++ r).
Proof. intros (t & os & on & T' & K & _). eapply tok_lexable; eauto. Qed.

Lemma operand_product v r : reads mathParen v r -> readsTo mathProduct mathProductLoop v r.
Proof.
  intros R l I W. destruct (R l I W) as (v' & l' & (n0 & E) & S & I' & W'). exists v', l'. split; auto. split; auto. split; auto.
  intros a (n1 & E1). exists (Datatypes.S (n0 + n1)%nat). intros [|n] L; [lia|]. cbn [mathProduct]. rewrite E by lia. cbn [bind]. apply E1. lia.
Qed.
Lemma quiet_stop r l : quiet r -> is (unsp r) l -> curDelim l [B "*"; B "/"] = false.
Proof.
  intros (t & os & on & T' & K & Q) I. destruct (I _ _ _ _ K) as (_ & _ & E & _ & F & _). unfold curDelim. rewrite E.
  destruct Q as [Q|[->| ->]].
  - destruct t; try reflexivity. contradiction.
  - cbn [has] in F. rewrite F. destruct t; reflexivity.
  - cbn [has] in F. rewrite F. destruct t; reflexivity.
Qed.
Lemma product_sum v r : quiet r -> readsTo mathProduct mathProductLoop v r -> readsTo mathSum mathSumLoop v r.
Proof.
  intros Q R l I W. destruct (R l I W) as (v' & l' & S & I' & W' & E). exists v', l'. split; auto. split; auto. split; auto.
  assert (X : ev (fun n => mathProduct n l) (v', l')).
  { apply E. exists 1%nat. intros [|n] L; [lia|]. cbn [mathProductLoop]. rewrite (quiet_stop _ _ Q I'). reflexivity. }
  destruct X as (n0 & X). intros a (n1 & E1). exists (Datatypes.S (n0 + n1)%nat). intros [|n] L; [lia|]. cbn [mathSum].
  rewrite X by lia. cbn [bind]. apply E1. lia.
Qed.
Lemma value_operand v r : beginsParen v = false -> starts v r -> reads parseValue v r -> reads mathParen v r.
Proof.
  intros B (t & os & on & T' & K & P) R l I W. destruct (R l I W) as (v' & l' & (n0 & E) & S). exists v', l'. split; auto.
  exists (Datatypes.S n0). intros [|n] L; [lia|]. cbn [mathParen]. rewrite B in P.
  rewrite (cur _ _ _ _ _ _ K I). assert (X : teq t LParen = false) by (destruct t; try reflexivity; discriminate).
  rewrite X. cbn [negb]. apply E. lia.
Qed.
(** A value that parseValue reads may stand anywhere. *)
Lemma anywhere v r : beginsParen v = false -> starts v r -> reads parseValue v r ->
  forall p, (p = Sum -> quiet r) -> readAt p v r.
Proof.
  intros B S R p Q. pose proof (value_operand _ _ B S R) as R1. pose proof (operand_product _ _ R1) as R2.
  destruct p; cbn [readAt]; auto. apply product_sum; auto.
Qed.

(** A value that is one token. *)
Lemma leaf v r t os on : Tok (vtext v ++ r) t os on r -> valueToken t = true -> beginsParen v = false -> lexable (unsp r) ->
  (forall l, is (vtext v ++ r) l -> exists v', stripValue v' = stripValue v /\
     forall n l1, next l = Ok l1 -> parseValue (S n) l = Ok (v', l1)) ->
  starts v r /\ forall p, (p = Sum -> quiet r) -> readAt p v r.
Proof.
  intros K V P L F. assert (S : starts v r).
  { exists t, os, on, r. split; auto. rewrite P. auto. }
  split; auto. apply anywhere; auto. intros l I W.
  destruct (advance _ _ _ _ _ _ K I W L) as (l1 & E & I1 & W1).
  destruct (F l I) as (v' & S' & E').
  exists v', l1. split; [|auto]. exists 1%nat. intros [|n] Ln; [lia|]. auto.
Qed.

Lemma nil_strip v v' : stripValue v' = stripValue v -> isNil v = false -> isNil v' = false.
Proof. destruct v, v'; simpl; congruence. Qed.
Lemma ok_not_nil p v : okAt p v = true -> isNil v = false.
Proof. destruct v; simpl; congruence. Qed.
Lemma span_some v : isNil v = false -> exists s, valueSpan v = Some s.
Proof. destruct v; simpl; try discriminate; eauto. Qed.

(** ** Brackets *)
Lemma endNum_stop c r : stopName c = true -> bz c <> 40 -> bz c <> 46 -> bz c <> 37 -> endNum (c :: r).
Proof. simpl. auto. Qed.
Ltac en := apply endNum_stop; [reflexivity | vm_compute; congruence..].

Lemma brackets_read vs : Forall okRead vs -> forallb (okAt Outside) vs = true -> forall r, lexable (unsp r) ->
  let T := join (B " ") (map vtext vs) ++ B "]" ++ r in
  lexable T /\ solid T /\ forall l, is T l -> l_rws l = false ->
  exists vs' e l', ev (fun n => bracketLoop n l) (vs', e, l') /\ map stripValue vs' = map stripValue vs /\
    is (unsp r) l' /\ l_rws l' = false.
Proof.
  induction 1 as [|v vs Hv F IH]; intros O r L; cbv zeta.
  - cbn [map join app B]. assert (K : Tok ("]"%byte :: r) RBracket None None r) by (apply tok_single; simpl; tauto).
    split; [eapply tok_lexable; eauto|]. split; [vm_compute; reflexivity|]. intros l I W.
    destruct (advance _ _ _ _ _ _ K I W L) as (l1 & E & I1 & W1).
    exists [], (tokenEnd l), l1. split; [|auto]. exists 1%nat. intros [|n] Ln; [lia|].
    cbn [bracketLoop]. rewrite (cur _ _ _ _ _ _ K I). cbn [teq]. rewrite E. reflexivity.
  - cbn [forallb] in O. apply andb_true_iff in O as [Ov O]. specialize (IH O r L). cbv zeta in IH.
    destruct IH as (L1 & S1 & R1).
    assert (X : exists q, join (B " ") (map vtext (v :: vs)) ++ B "]" ++ r = vtext v ++ q /\ after v q /\
      unsp q = join (B " ") (map vtext vs) ++ B "]" ++ r).
    { destruct vs as [|w vs].
      - exists (B "]" ++ r). split; [reflexivity|]. cbn [map join app] in *. rewrite (solid_unsp _ S1).
        split; auto. split; [right; en|]. rewrite (solid_unsp _ S1). auto.
      - exists (B " " ++ join (B " ") (map vtext (w :: vs)) ++ B "]" ++ r). split.
        + cbn [map join]. rewrite <- !app_assoc. reflexivity.
        + split; [|reflexivity]. split; [right; en|]. exact L1. }
    destruct X as (q & -> & A & Eq). destruct (Hv Outside Ov q A) as [Sv Rv]. specialize (Rv ltac:(discriminate)).
    split; [apply starts_lexable; auto|]. split; [eapply value_solid; eauto|]. intros l I W.
    destruct (Rv l I W) as (v' & l1 & (n0 & E1) & S' & I1 & W1). rewrite Eq in I1.
    destruct (R1 l1 I1 W1) as (vs' & e & l2 & (n1 & E2) & S2 & I2 & W2).
    exists (v' :: vs'), e, l2. split; [|cbn [map]; rewrite S', S2; auto].
    exists (Datatypes.S (n0 + n1)%nat). intros [|n] Ln; [lia|]. cbn [bracketLoop].
    destruct Sv as (t & os & on & T' & K & P). rewrite (cur _ _ _ _ _ _ K I).
    assert (Q : teq t RBracket = false) by (destruct (beginsParen v); [subst; reflexivity | destruct t; try reflexivity; discriminate]).
    rewrite Q, E1 by lia. cbn [bind]. rewrite (nil_strip _ _ S' (ok_not_nil _ _ Ov)), E2 by lia. reflexivity.
Qed.

(** ** Arguments *)
Definition okArg (name : bytes) (a : value) : bool := isCommaV a || okAt (if isMathName name then Sum else Outside) a.
Lemma sum_stops v r T l t : readsTo mathSum mathSumLoop v r -> is (vtext v ++ r) l -> l_rws l = false ->
  Tok (unsp r) t None None T -> t <> Delim ->
  exists v' l', ev (fun n => mathSum n l) (v', l') /\ stripValue v' = stripValue v /\ is (unsp r) l' /\ l_rws l' = false.
Proof.
  intros R I W K D. destruct (R l I W) as (v' & l' & S & I' & W' & E). exists v', l'. split; [|auto].
  apply E. exists 1%nat. intros [|n] Ln; [lia|]. cbn [mathSumLoop]. unfold curDelim. rewrite (cur _ _ _ _ _ _ K I').
  destruct t; try reflexivity. contradiction.
Qed.

Lemma args_read name vs : Forall okRead vs -> separated vs = true -> forallb (okArg name) vs = true -> forall r, lexable (unsp r) ->
  let T := concat (map vtext vs) ++ B ")" ++ r in
  lexable T /\ solid T /\ forall l, is T l -> l_rws l = false ->
  exists vs' e l', ev (fun n => argsLoop n name l) (vs', Some e, l') /\ map stripValue vs' = map stripValue vs /\
    is (unsp r) l' /\ l_rws l' = false.
Proof.
  induction 1 as [|v vs Hv F IH]; intros Sp O r L; cbv zeta.
  - cbn [map concat app B]. assert (K : Tok (")"%byte :: r) RParen None None r) by (apply tok_single; simpl; tauto).
    split; [eapply tok_lexable; eauto|]. split; [vm_compute; reflexivity|]. intros l I W.
    destruct (advance _ _ _ _ _ _ K I W L) as (l1 & E & I1 & W1).
    exists [], (tokenEnd l), l1. split; [|auto]. exists 1%nat. intros [|n] Ln; [lia|].
    cbn [argsLoop]. rewrite (cur _ _ _ _ _ _ K I). cbn [teq]. rewrite E. reflexivity.
  - cbn [forallb] in O. apply andb_true_iff in O as [Ov O].
    assert (Sp' : separated vs = true) by (destruct vs; [reflexivity|]; cbn [separated] in Sp; apply andb_true_iff in Sp; tauto).
    specialize (IH Sp' O r L). cbv zeta in IH.
    cbn [map concat]. rewrite <- app_assoc. set (T1 := concat (map vtext vs) ++ B ")" ++ r) in *.
    destruct IH as (L1 & S1 & R1). pose proof (solid_unsp _ S1) as U1.
    unfold okArg in Ov. destruct (isCommaV v) eqn:Cv.
    + destruct v; try discriminate. cbn [vtext app B].
      assert (K : Tok (","%byte :: T1) Comma None None T1) by (apply tok_single; simpl; tauto).
      split; [eapply tok_lexable; eauto|]. split; [vm_compute; reflexivity|]. intros l I W.
      destruct (advance _ _ _ _ _ _ K I W ltac:(rewrite U1; auto)) as (l1 & E & I1 & W1). rewrite U1 in I1.
      destruct (R1 l1 I1 W1) as (vs' & e & l2 & (n1 & E2) & S2 & I2 & W2).
      exists (VComma (tokenSpan l) :: vs'), e, l2. split; [|cbn [map stripValue]; rewrite S2; auto].
      exists (Datatypes.S n1). intros [|n] Ln; [lia|]. cbn [argsLoop]. rewrite (cur _ _ _ _ _ _ K I). cbn [teq]. rewrite E. cbn [bind].
      rewrite E2 by lia. reflexivity.
    + cbn [orb] in Ov.
      assert (X : endNum T1 /\ exists t T', Tok T1 t None None T' /\ t <> Delim).
      { subst T1. destruct vs as [|w vs].
        - cbn [map concat app B]. split; [en|]. exists RParen, r. split; [|discriminate]. apply tok_single; simpl; tauto.
        - cbn [separated] in Sp. rewrite Cv in Sp. apply andb_true_iff in Sp as [Sp _]. cbn [orb] in Sp.
          destruct w; try discriminate. cbn [map concat vtext app B]. split; [en|].
          exists Comma. eexists. split; [|discriminate]. apply tok_single; simpl; tauto. }
      destruct X as (EN & t1 & T1' & K1 & D1).
      assert (A : after v T1) by (split; [auto|rewrite U1; auto]).
      destruct (Hv _ Ov T1 A) as [Sv Rv].
      split; [apply starts_lexable; auto|]. split; [eapply value_solid; eauto|]. intros l I W.
      destruct Sv as (t & os & on & T' & K & P).
      assert (Q : teq t RParen = false /\ teq t Comma = false) by (destruct (beginsParen v); [subst; auto | destruct t; try discriminate; auto]).
      destruct Q as [Q1 Q2].
      destruct (isMathName name) eqn:Mn.
      * assert (Rs : readsTo mathSum mathSumLoop v T1).
        { apply Rv. intros _. exists t1, None, None, T1'. rewrite U1. auto. }
        rewrite <- U1 in K1.
        destruct (sum_stops _ _ _ _ _ Rs I W K1 D1) as (v' & l1 & (n0 & E1) & S' & I1 & W1). rewrite U1 in I1.
        destruct (R1 l1 I1 W1) as (vs' & e & l2 & (n1 & E2) & S2 & I2 & W2).
        exists (v' :: vs'), e, l2. split; [|cbn [map]; rewrite S', S2; auto].
        exists (Datatypes.S (n0 + n1)%nat). intros [|n] Ln; [lia|]. cbn [argsLoop]. rewrite (cur _ _ _ _ _ _ K I), Q1, Q2, Mn, E1 by lia.
        cbn [bind]. rewrite E2 by lia. reflexivity.
      * specialize (Rv ltac:(discriminate)). cbn [readAt] in Rv.
        destruct (Rv l I W) as (v' & l1 & (n0 & E1) & S' & I1 & W1). rewrite U1 in I1.
        destruct (R1 l1 I1 W1) as (vs' & e & l2 & (n1 & E2) & S2 & I2 & W2).
        exists (v' :: vs'), e, l2. split; [|cbn [map]; rewrite S', S2; auto].
        exists (Datatypes.S (n0 + n1)%nat). intros [|n] Ln; [lia|]. cbn [argsLoop]. rewrite (cur _ _ _ _ _ _ K I), Q1, Q2, Mn, E1 by lia.
        cbn [bind]. rewrite (nil_strip _ _ S' (ok_not_nil _ _ Ov)), E2 by lia. reflexivity.
Qed.

(** ** Operators *)
Lemma startsNumber_first v p r g : okAt p v = true -> beginsNumber v = false -> g = 43 \/ g = 45 ->
  startsNumber g (chr (vtext v ++ r)) (chr (skipn 1 (vtext v ++ r))) = false.
Proof.
  intros O N G. destruct (first_of _ _ O) as (c & s & -> & F). unfold firstOk in F.
  destruct F as ((A1 & A2) & _ & _ & _ & _ & F & _). destruct (F N) as [F1 F2].
  cbn [app]. rewrite chr_ascii by auto. unfold startsNumber.
  assert (X : ((g =? 43) || (g =? 45)) = true) by (destruct G; subst; reflexivity). rewrite X.
  rewrite digit_no by lia. destruct (Z.eqb_spec (bz c) 46); [lia|]. reflexivity.
Qed.
Definition opOk (o : bytes) (p : place) (v : value) : Prop :=
  okAt p v = true /\
  (o = B "+" /\ beginsNumber v = false \/ o = B "-" /\ beginsParen v = true \/ o = B "*" \/ o = B "/").
Lemma paren_not_number v : beginsParen v = true -> beginsNumber v = false.
Proof. induction v; cbn; auto; discriminate. Qed.
Lemma tok_op o p v r : opOk o p v -> Tok (o ++ vtext v ++ r) Delim (Some o) None (vtext v ++ r).
Proof.
  intros [O H].
  assert (D : forall c, In c delims -> delimOk c (vtext v ++ r) -> Tok ([c] ++ vtext v ++ r) Delim (Some [c]) None (vtext v ++ r)).
  { intros c I X. apply tok_delim; auto. }
  destruct H as [[-> N]|[[-> P]|[-> | ->]]]; (apply D; [vm_compute; tauto|]);
    unfold delimOk; match goal with |- context [bz ?k] => let z := eval vm_compute in (bz k) in change (bz k) with z end;
    (split; [|split; [|split; [|split; [|split; [|split]]]]]); intros Hc; try discriminate; clear Hc.
  - eapply startsNumber_first; eauto.
  - split; [eapply startsNumber_first; eauto; apply paren_not_number; auto|].
    destruct (first_of _ _ O) as (c & s & -> & F). unfold firstOk in F. destruct F as ((A1 & A2) & _ & _ & _ & _ & _ & F).
    specialize (F P). cbn [app]. rewrite chr_ascii by auto. rewrite F. split; [reflexivity|]. reflexivity.
  - destruct (first_of _ _ O) as (c & s & -> & F). unfold firstOk in F. destruct F as ((A1 & A2) & _ & F & _).
    cbn [app]. rewrite chr_ascii by auto. auto.
Qed.
Lemma op_endNum o p v r : opOk o p v -> o <> B "-" -> endNum (o ++ vtext v ++ r).
Proof. intros [_ [[-> _]|[[-> _]|[-> | ->]]]] N; try congruence; cbn [app B]; en. Qed.
Lemma op_solid o p v r : opOk o p v -> solid (o ++ vtext v ++ r).
Proof. intros [_ [[-> _]|[[-> _]|[-> | ->]]]]; vm_compute; reflexivity. Qed.

Lemma join_ok l a b : isNil a = false -> isNil b = false -> exists s, joinSpan l a b = Ok s.
Proof.
  intros A C. unfold joinSpan. destruct (span_some _ A) as (x & ->). destruct (span_some _ C) as (y & ->). eauto.
Qed.

Lemma mathSumLoop_S n lhs l : mathSumLoop (S n) lhs l =
  if curDelim l [B "+"; B "-"] then
    let op := l_str l in
    l1 <- expect Delim l ;;
    '(rhs, l2) <- mathProduct n l1 ;;
    sp <- joinSpan l2 lhs rhs ;;
    mathSumLoop n (VMath sp op lhs rhs) l2
  else Ok (lhs, l).
Proof. reflexivity. Qed.
Lemma mathProductLoop_S n lhs l : mathProductLoop (S n) lhs l =
  if curDelim l [B "*"; B "/"] then
    let op := l_str l in
    l1 <- expect Delim l ;;
    '(rhs, l2) <- mathParen n l1 ;;
    sp <- joinSpan l2 lhs rhs ;;
    mathProductLoop n (VMath sp op lhs rhs) l2
  else Ok (lhs, l).
Proof. reflexivity. Qed.
Lemma mathParen_S n l : mathParen (S n) l =
  if negb (teq (l_cur l) LParen) then parseValue n l
  else
    let loc := tokenSpan l in
    l1 <- expect LParen l ;;
    '(v, l2) <- mathSum n l1 ;;
    let e := tokenEnd l2 in
    l3 <- expect RParen l2 ;;
    Ok (VMathParen (mkSpan (sp_start loc) e) v, l3).
Proof. reflexivity. Qed.

Theorem value_read v : okRead v.
Proof.
  induction v as [| sp s | sp n u | sp s | sp s | sp vs IH | sp n vs IH | sp o a c IHa IHc | sp v IH | sp | sp s] using value_ind';
    intros p O r A; cbn [okAt] in O; try discriminate.
  - (* string *)
    destruct A as [_ L]. edestruct (leaf (VString sp s) r TString (Some s) None) as [S R]; auto.
    + cbn [vtext]. rewrite <- !app_assoc. apply tok_string; auto.
    + intros l I. exists (VString (tokenSpan l) s). split; [reflexivity|]. intros n l1 E. cbn [parseValue].
      assert (K : Tok (vtext (VString sp s) ++ r) TString (Some s) None r).
      { cbn [vtext]. rewrite <- !app_assoc. apply tok_string; auto. }
      rewrite (cur _ _ _ _ _ _ K I), (str _ _ _ _ _ _ K I), E. reflexivity.
  - (* dimension *)
    destruct A as [A L]. apply andb_true_iff in O as [N Uo]. cbn [endsClosed] in A. destruct (beq u (B "%")) eqn:Eu.
    + apply beq_eq in Eu. subst u.
      assert (K : Tok (vtext (VDim sp n (B "%")) ++ r) Percentage None (Some n) r).
      { cbn [vtext]. rewrite <- !app_assoc. apply tok_percent; auto. }
      edestruct (leaf (VDim sp n (B "%")) r) as [S R]; eauto.
      intros l I. exists (VDim (tokenSpan l) n (B "%")). split; [reflexivity|]. intros k l1 E. cbn [parseValue].
      rewrite (cur _ _ _ _ _ _ K I), (num _ _ _ _ _ _ K I), E. reflexivity.
    + destruct A as [A|A]; [discriminate|]. destruct u as [|u0 u].
      * assert (K : Tok (vtext (VDim sp n []) ++ r) Number None (Some n) r).
        { cbn [vtext]. rewrite app_nil_r. apply tok_number; auto. }
        edestruct (leaf (VDim sp n []) r) as [S R]; eauto.
        intros l I. exists (VDim (tokenSpan l) n []). split; [reflexivity|]. intros k l1 E. cbn [parseValue].
        rewrite (cur _ _ _ _ _ _ K I), (num _ _ _ _ _ _ K I), E. reflexivity.
      * cbn [isEmpty orb] in Uo.
        assert (K : Tok (vtext (VDim sp n (u0 :: u)) ++ r) Dimension (Some (u0 :: u)) (Some n) r).
        { cbn [vtext]. rewrite <- app_assoc. apply tok_dimension; auto. apply endWord_name, endNum_word; auto. }
        edestruct (leaf (VDim sp n (u0 :: u)) r) as [S R]; eauto.
        intros l I. exists (VDim (tokenSpan l) n (u0 :: u)). split; [reflexivity|]. intros k l1 E. cbn [parseValue].
        rewrite (cur _ _ _ _ _ _ K I), (num _ _ _ _ _ _ K I), (str _ _ _ _ _ _ K I), E. reflexivity.
  - (* identifier *)
    destruct A as [[A|A] L]; [discriminate|].
    assert (K : Tok (vtext (VIdent sp s) ++ r) Ident (Some s) None r) by (apply tok_ident; auto; apply endNum_word; auto).
    edestruct (leaf (VIdent sp s) r) as [S R]; eauto.
    intros l I. exists (VIdent (tokenSpan l) s). split; [reflexivity|]. intros k l1 E. cbn [parseValue].
    rewrite (cur _ _ _ _ _ _ K I), (str _ _ _ _ _ _ K I), E. reflexivity.
  - (* hex color *)
    destruct A as [[A|A] L]; [discriminate|].
    assert (K : Tok (vtext (VHex sp s) ++ r) Hash (Some s) None r).
    { cbn [vtext]. apply tok_hash; auto. apply endWord_name, endNum_word; auto. }
    edestruct (leaf (VHex sp s) r) as [S R]; eauto.
    intros l I. exists (VHex (tokenSpan l) s). split; [reflexivity|]. intros k l1 E. cbn [parseValue].
    rewrite (cur _ _ _ _ _ _ K I), (str _ _ _ _ _ _ K I), E. reflexivity.
  - (* brackets *)
    destruct A as [_ L]. destruct (brackets_read vs IH O r L) as (L1 & S1 & R1).
    set (T1 := join (B " ") (map vtext vs) ++ B "]" ++ r) in *.
    assert (ET : vtext (VBrackets sp vs) ++ r = "["%byte :: T1) by (cbn [vtext]; subst T1; rewrite <- !app_assoc; reflexivity).
    assert (K : Tok (vtext (VBrackets sp vs) ++ r) LBracket None None T1) by (rewrite ET; apply tok_single; simpl; tauto).
    assert (S : starts (VBrackets sp vs) r) by (exists LBracket, None, None, T1; split; [exact K|reflexivity]).
    split; auto. apply anywhere; auto. intros l I W.
    destruct (advance _ _ _ _ _ _ K I W) as (l1 & E & I1 & W1); [rewrite solid_unsp; auto|]. rewrite solid_unsp in I1 by auto.
    destruct (R1 l1 I1 W1) as (vs' & e & l2 & (n1 & E2) & S2 & I2 & W2).
    exists (VBrackets (mkSpan (sp_start (tokenSpan l)) e) vs'), l2. split; [|cbn [stripValue]; rewrite S2; auto].
    exists (Datatypes.S n1). intros [|n] Ln; [lia|]. cbn [parseValue]. rewrite (cur _ _ _ _ _ _ K I), E. cbn [bind].
    rewrite E2 by lia. reflexivity.
  - (* function *)
    destruct A as [_ L]. destruct (urlName n) eqn:Un.
    + destruct vs as [|[| sp1 s | | sp1 s | | | | | | |] [|? ?]]; try discriminate.
      * (* url("...") *)
        set (T1 := dq :: s ++ dq :: ")"%byte :: r).
        assert (ET : vtext (VFunc sp n [VString sp1 s]) ++ r = n ++ "("%byte :: T1).
        { cbn [vtext map concat app B]. rewrite app_nil_r. subst T1. rewrite <- !app_assoc. cbn [app]. repeat rewrite <- app_assoc. reflexivity. }
        assert (K : Tok (vtext (VFunc sp n [VString sp1 s]) ++ r) FunctionStart (Some n) None T1) by (rewrite ET; apply tok_urlfunc; auto).
        assert (S : starts (VFunc sp n [VString sp1 s]) r) by (exists FunctionStart, (Some n), None, T1; split; [exact K|reflexivity]).
        assert (K1 : Tok T1 TString (Some s) None (")"%byte :: r)) by (apply tok_string; auto).
        assert (K2 : Tok (")"%byte :: r) RParen None None r) by (apply tok_single; simpl; tauto).
        split; auto. apply anywhere; auto. intros l I W.
        destruct (advance _ _ _ _ _ _ K I W (tok_lexable _ _ _ _ _ K1)) as (l1 & E1 & I1 & W1).
        destruct (advance _ _ _ _ _ _ K1 I1 W1 (tok_lexable _ _ _ _ _ K2)) as (l2 & E2 & I2 & W2).
        destruct (advance _ _ _ _ _ _ K2 I2 W2 L) as (l3 & E3 & I3 & W3).
        exists (VFunc (mkSpan (sp_start (tokenSpan l)) (tokenEnd l2)) n [VString (tokenSpan l1) s]), l3. split; [|auto].
        assert (Mn : isMathName n = false).
        { destruct n as [|a [|b [|c [|? ?]]]]; try discriminate. unfold urlName in Un.
          unfold isMathName. destruct (bmem [a; b; c] [B "calc"; B "min"; B "max"; B "clamp"]) eqn:Bm; auto.
          apply bmem_In in Bm. destruct Bm as [X|[X|[X|[X|[]]]]]; try discriminate; injection X as <- <- <-; discriminate. }
        exists 4%nat. intros [|[|[|[|k]]]] Ln; try lia. cbn [parseValue]. rewrite (cur _ _ _ _ _ _ K I), E1, (str _ _ _ _ _ _ K I). cbn [bind].
        change (argsLoop (Datatypes.S (Datatypes.S (Datatypes.S k))) n l1) with
          (if teq (l_cur l1) RParen then let e := tokenEnd l1 in l1 <- next l1 ;; Ok ([], Some e, l1)
           else if teq (l_cur l1) Comma then let v := VComma (tokenSpan l1) in
             l2 <- next l1 ;; '(vs, e, l2) <- argsLoop (Datatypes.S (Datatypes.S k)) n l2 ;; Ok (v :: vs, e, l2)
           else if isMathName n then '(v, l1) <- mathSum (Datatypes.S (Datatypes.S k)) l1 ;; '(vs, e, l2) <- argsLoop (Datatypes.S (Datatypes.S k)) n l1 ;; Ok (v :: vs, e, l2)
           else '(v, l1) <- parseValue (Datatypes.S (Datatypes.S k)) l1 ;;
             if isNil v then Ok ([], None, l1)
             else '(vs, e, l2) <- argsLoop (Datatypes.S (Datatypes.S k)) n l1 ;; Ok (v :: vs, e, l2)).
        rewrite Mn, (cur _ _ _ _ _ _ K1 I1). cbn [teq parseValue]. rewrite ?(cur _ _ _ _ _ _ K1 I1), E2, (str _ _ _ _ _ _ K1 I1). cbn [bind isNil argsLoop].
        rewrite (cur _ _ _ _ _ _ K2 I2). cbn [teq]. rewrite E3. reflexivity.
      * (* url(...) *)
        apply andb_true_iff in O as [En O]. apply beq_eq in En. subst n.
        assert (K : Tok (vtext (VFunc sp (B "url") [VIdent sp1 s]) ++ r) URL (Some s) None r).
        { cbn [vtext map concat]. rewrite app_nil_r. pose proof (tok_url s r O) as K. rewrite <- !app_assoc. exact K. }
        edestruct (leaf (VFunc sp (B "url") [VIdent sp1 s]) r) as [S R]; eauto.
        intros l I. exists (VFunc (tokenSpan l) (B "url") [VIdent (mkSpan 0 0) s]). split; [reflexivity|]. intros k l1 E. cbn [parseValue].
        rewrite (cur _ _ _ _ _ _ K I), (str _ _ _ _ _ _ K I), E. reflexivity.
    + rewrite !andb_true_iff in O. destruct O as ((Id & Sp) & O).
      destruct (args_read n vs IH Sp O r L) as (L1 & S1 & R1).
      set (T1 := concat (map vtext vs) ++ B ")" ++ r) in *.
      assert (ET : vtext (VFunc sp n vs) ++ r = n ++ "("%byte :: T1) by (cbn [vtext]; subst T1; rewrite <- !app_assoc; reflexivity).
      assert (K : Tok (vtext (VFunc sp n vs) ++ r) FunctionStart (Some n) None T1) by (rewrite ET; apply tok_func; auto).
      assert (S : starts (VFunc sp n vs) r) by (exists FunctionStart, (Some n), None, T1; split; [exact K|reflexivity]).
      split; auto. apply anywhere; auto. intros l I W.
      destruct (advance _ _ _ _ _ _ K I W) as (l1 & E & I1 & W1); [rewrite solid_unsp; auto|]. rewrite solid_unsp in I1 by auto.
      destruct (R1 l1 I1 W1) as (vs' & e & l2 & (n1 & E2) & S2 & I2 & W2).
      exists (VFunc (mkSpan (sp_start (tokenSpan l)) e) n vs'), l2. split; [|cbn [stripValue]; rewrite S2; auto].
      exists (Datatypes.S n1). intros [|k] Ln; [lia|]. cbn [parseValue]. rewrite (cur _ _ _ _ _ _ K I), E, (str _ _ _ _ _ _ K I). cbn [bind].
      rewrite E2 by lia. reflexivity.
  - (* operators *)
    assert (X : exists pa pc, okAt pa a = true /\ okAt pc c = true /\ opOk o pc c /\ (o = B "-" -> endsClosed a = true) /\
      ((p = Sum /\ pa = Sum /\ pc = Product /\ (o = B "+" \/ o = B "-")) \/
       ((p = Sum \/ p = Product) /\ pa = Product /\ pc = Operand /\ (o = B "*" \/ o = B "/")))).
    { destruct (beq o (B "+")) eqn:E1; [|destruct (beq o (B "-")) eqn:E2; [|destruct (beq o (B "*") || beq o (B "/")) eqn:E3; [|discriminate]]];
        rewrite !andb_true_iff in O.
      - apply beq_eq in E1. subst o. destruct O as (((P1 & P2) & P3) & P4). apply negb_true_iff in P4.
        exists Sum, Product. unfold opOk. destruct p; try discriminate. split; [auto|]. split; [auto|]. split; [auto|]. split; [discriminate|]. left. auto.
      - apply beq_eq in E2. subst o. destruct O as ((((P1 & P2) & P3) & P4) & P5).
        exists Sum, Product. unfold opOk. destruct p; try discriminate. split; [auto|]. split; [auto|]. split; [auto 6|]. split; [auto|]. left. auto.
      - destruct O as ((P1 & P2) & P3).
        assert (o = B "*" \/ o = B "/") as Q by (apply orb_true_iff in E3 as [E3|E3]; apply beq_eq in E3; auto).
        exists Product, Operand. unfold opOk. split; [auto|]. split; [auto|]. split; [auto|]. split.
        + destruct Q; subst; discriminate.
        + right. split; [destruct p; try discriminate; auto|auto]. }
    destruct X as (pa & pc & Oa & Oc & Op & Cl & Pl).
    set (T1 := vtext c ++ r).
    assert (ET : vtext (VMath sp o a c) ++ r = vtext a ++ (o ++ T1)) by (cbn [vtext]; subst T1; rewrite <- !app_assoc; reflexivity).
    assert (Ac : after c r) by exact A.
    destruct (IHc pc Oc r Ac) as [Sc Rc].
    pose proof (tok_op o pc c r Op) as Ko. fold T1 in Ko.
    assert (So : solid (o ++ T1)) by (eapply op_solid; eauto).
    assert (Aa : after a (o ++ T1)).
    { split; [|rewrite solid_unsp by auto; eapply tok_lexable; eauto].
      destruct (beq o (B "-")) eqn:E; [apply beq_eq in E; auto|]. right. eapply op_endNum; eauto.
      intros ->. discriminate. }
    destruct (IHa pa Oa (o ++ T1) Aa) as [Sa Ra].
    assert (S : starts (VMath sp o a c) r) by (destruct Sa as (t & os & on & T' & K & Q); exists t, os, on, T'; rewrite ET; auto).
    split; auto. intros Q.
    assert (Nc : isNil c = false) by (eapply ok_not_nil; eauto).
    assert (Na : isNil a = false) by (eapply ok_not_nil; eauto).
    assert (Lc : lexable (unsp T1)).
    { unfold T1. rewrite solid_unsp by (eapply value_solid; eauto). apply starts_lexable; auto. }
    assert (Us : unsp T1 = T1) by (unfold T1; apply solid_unsp; eapply value_solid; eauto).
    destruct Pl as [(-> & -> & -> & Ho)|(Hp & -> & -> & Ho)].
    + cbn [readAt] in *. specialize (Q eq_refl).
      assert (Qa : quiet (o ++ T1)).
      { exists Delim, (Some o), None, T1. rewrite solid_unsp by auto. split; auto. right. destruct Ho; subst; auto. }
      specialize (Ra (fun _ => Qa)). specialize (Rc ltac:(discriminate)).
      intros l I W. rewrite ET in I. destruct (Ra l I W) as (a' & l1 & Sa' & I1 & W1 & E1).
      rewrite solid_unsp in I1 by auto.
      destruct (advance _ _ _ _ _ _ Ko I1 W1 Lc) as (l2 & E2 & I2 & W2). rewrite Us in I2.
      destruct (Rc l2 I2 W2) as (c' & l3 & Sc' & I3 & W3 & E3).
      assert (X : ev (fun n => mathProduct n l2) (c', l3)).
      { apply E3. exists 1%nat. intros [|n] Ln; [lia|]. cbn [mathProductLoop]. rewrite (quiet_stop _ _ Q I3). reflexivity. }
      destruct X as (n0 & X).
      destruct (join_ok l3 a' c' (nil_strip _ _ Sa' Na) (nil_strip _ _ Sc' Nc)) as (s & Js).
      exists (VMath s o a' c'), l3. split; [cbn [stripValue]; rewrite Sa', Sc'; reflexivity|]. split; auto. split; auto.
      intros x (n1 & E4). apply E1. exists (Datatypes.S (n0 + n1)%nat). intros [|n] Ln; [lia|]. rewrite mathSumLoop_S. cbv zeta.
      unfold curDelim, expect. rewrite (cur _ _ _ _ _ _ Ko I1), (str _ _ _ _ _ _ Ko I1).
      assert (Bm : bmem o [B "+"; B "-"] = true) by (destruct Ho; subst; reflexivity).
      rewrite Bm. change (teq Delim Delim && true) with true. change (negb (teq Delim Delim)) with false. cbv iota. rewrite E2. cbn [bind]. rewrite X by lia. cbn [bind]. rewrite Js. cbn [bind]. apply E4. lia.
    + specialize (Rc ltac:(discriminate)). specialize (Ra ltac:(discriminate)). cbn [readAt] in Ra, Rc.
      assert (R : readsTo mathProduct mathProductLoop (VMath sp o a c) r).
      { intros l I W. rewrite ET in I. destruct (Ra l I W) as (a' & l1 & Sa' & I1 & W1 & E1).
        rewrite solid_unsp in I1 by auto.
        destruct (advance _ _ _ _ _ _ Ko I1 W1 Lc) as (l2 & E2 & I2 & W2). rewrite Us in I2.
        destruct (Rc l2 I2 W2) as (c' & l3 & (n0 & X) & Sc' & I3 & W3).
        destruct (join_ok l3 a' c' (nil_strip _ _ Sa' Na) (nil_strip _ _ Sc' Nc)) as (s & Js).
        exists (VMath s o a' c'), l3. split; [cbn [stripValue]; rewrite Sa', Sc'; reflexivity|]. split; auto. split; auto.
        intros x (n1 & E4). apply E1. exists (Datatypes.S (n0 + n1)%nat). intros [|n] Ln; [lia|]. rewrite mathProductLoop_S. cbv zeta.
        unfold curDelim, expect. rewrite (cur _ _ _ _ _ _ Ko I1), (str _ _ _ _ _ _ Ko I1).
        assert (Bm : bmem o [B "*"; B "/"] = true) by (destruct Ho; subst; reflexivity).
        rewrite Bm. change (teq Delim Delim && true) with true. change (negb (teq Delim Delim)) with false. cbv iota. rewrite E2. cbn [bind]. rewrite X by lia. cbn [bind]. rewrite Js. cbn [bind]. apply E4. lia. }
      destruct Hp as [-> | ->]; cbn [readAt]; auto. apply product_sum; auto.
  - (* parentheses *)
    apply andb_true_iff in O as [NP O]. destruct A as [_ L].
    set (T2 := ")"%byte :: r). assert (K2 : Tok T2 RParen None None r) by (apply tok_single; simpl; tauto).
    assert (U2 : unsp T2 = T2) by reflexivity.
    set (T1 := vtext v ++ T2).
    assert (ET : vtext (VMathParen sp v) ++ r = "("%byte :: T1) by (cbn [vtext]; subst T1 T2; rewrite <- !app_assoc; reflexivity).
    assert (K : Tok (vtext (VMathParen sp v) ++ r) LParen None None T1) by (rewrite ET; apply tok_single; simpl; tauto).
    assert (Av : after v T2) by (split; [right; unfold T2; en | rewrite U2; eapply tok_lexable; eauto]).
    destruct (IH Sum O T2 Av) as [Sv Rv].
    assert (Qv : quiet T2) by (exists RParen, None, None, r; rewrite U2; split; auto; left; discriminate).
    specialize (Rv (fun _ => Qv)). cbn [readAt] in Rv.
    assert (S : starts (VMathParen sp v) r) by (exists LParen, None, None, T1; split; [exact K|reflexivity]).
    split; auto. intros Q.
    assert (R : reads mathParen (VMathParen sp v) r).
    { intros l I W. assert (Us : unsp T1 = T1) by (apply solid_unsp; eapply value_solid; eauto).
      destruct (advance _ _ _ _ _ _ K I W) as (l1 & E1 & I1 & W1); [rewrite Us; apply starts_lexable; auto|]. rewrite Us in I1.
      rewrite <- U2 in K2.
      destruct (sum_stops _ _ _ _ _ Rv I1 W1 K2 ltac:(discriminate)) as (v' & l2 & (n0 & E2) & S' & I2 & W2).
      destruct (advance _ _ _ _ _ _ K2 I2 W2 L) as (l3 & E3 & I3 & W3).
      exists (VMathParen (mkSpan (sp_start (tokenSpan l)) (tokenEnd l2)) v'), l3. split; [|cbn [stripValue]; rewrite S'; auto].
      exists (Datatypes.S n0). intros [|n] Ln; [lia|]. rewrite mathParen_S. cbv zeta. unfold expect.
      rewrite (cur _ _ _ _ _ _ K I). change (negb (teq LParen LParen)) with false. cbv iota. rewrite E1. cbn [bind].
      rewrite (E2 n) by lia. cbn [bind].
      rewrite (cur _ _ _ _ _ _ K2 I2). cbn [teq negb]. rewrite E3. reflexivity. }
    pose proof (operand_product _ _ R) as R2. destruct p; cbn [readAt]; auto; [|discriminate]. apply product_sum; auto.
Qed.
End WithUnicode.
