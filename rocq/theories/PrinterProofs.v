(** Proofs about the printer and its source maps. *)
From Verif Require Import Bytes BytesFacts Utf8 Source SourceProofs Ast AstInd Vlq VlqSpec VlqProofs Printer PrinterSpec.

Arguments cat : simpl never.
Arguments w : simpl never.
Arguments ws : simpl never.

(** * The operations *)
Fixpoint textOf (l : list op) : bytes :=
  match l with [] => [] | W s :: r => s ++ textOf r | M _ :: r => textOf r end.
Fixpoint marksOf (b : bytes) (l : list op) : list (bytes * span) :=
  match l with
  | [] => []
  | W s :: r => marksOf (b ++ s) r
  | M sp :: r => (b, sp) :: marksOf b r
  end.
Lemma textOf_app a b : textOf (a ++ b) = textOf a ++ textOf b.
Proof. induction a as [|[s|sp] a IH]; simpl; auto. rewrite IH, app_assoc. reflexivity. Qed.
Lemma marksOf_app a : forall b c, marksOf b (a ++ c) = marksOf b a ++ marksOf (b ++ textOf a) c.
Proof.
  induction a as [|[s|sp] a IH]; intros; simpl.
  - rewrite app_nil_r. reflexivity.
  - rewrite IH, app_assoc. reflexivity.
  - rewrite IH. reflexivity.
Qed.

(** Operations without mapping. *)
Definition plain (o : ops) : Prop := forall l, o = Some l -> forall b, marksOf b l = [].
Lemma plain_w s : plain (w s). Proof. intros l H; injection H as <-. reflexivity. Qed.
Lemma plain_ws s : plain (ws s). Proof. intros l H; injection H as <-. reflexivity. Qed.
Lemma plain_nop : plain nop. Proof. intros l H; injection H as <-. reflexivity. Qed.
Lemma plain_none : plain None. Proof. intros l H; discriminate. Qed.
Lemma cat_some a b l : a +++ b = Some l <-> exists x y, a = Some x /\ b = Some y /\ l = x ++ y.
Proof.
  unfold cat. split.
  - destruct a, b; try discriminate. intro H; injection H as <-. eauto.
  - intros (x & y & -> & -> & ->). reflexivity.
Qed.
Lemma plain_cat a b : plain a -> plain b -> plain (a +++ b).
Proof.
  intros A B l H bb. apply cat_some in H as (x & y & -> & -> & ->).
  rewrite marksOf_app, (A x), (B y); auto.
Qed.
Lemma plain_all {A} (f : A -> ops) l : Forall (fun x => plain (f x)) l -> plain (all f l).
Proof. induction 1; simpl; [apply plain_nop | apply plain_cat; auto]. Qed.
Lemma plain_sepBy {A} s (f : A -> ops) l : plain s -> Forall (fun x => plain (f x)) l -> plain (sepBy s f l).
Proof.
  intros S. induction 1 as [|x l Hx Hl IH]; simpl; [apply plain_nop|].
  destruct l; auto. apply plain_cat; auto. apply plain_cat; auto.
Qed.
Lemma Forall_all {A} (P : A -> Prop) l : (forall x, P x) -> Forall P l.
Proof. intros. induction l; auto. Qed.
#[local] Hint Resolve plain_w plain_ws plain_nop plain_none plain_cat plain_all plain_sepBy Forall_all : plain.

Lemma plain_value v : plain (printValue v).
Proof.
  induction v using value_ind'; simpl; auto 8 with plain.
Qed.
#[local] Hint Resolve plain_value : plain.
Lemma plain_values vs : plain (printValues vs).
Proof.
  induction vs as [|v vs IH]; simpl; auto with plain.
  destruct vs as [|v' vs]; auto with plain.
  apply plain_cat; auto with plain. apply plain_cat; auto with plain.
  destruct (negb _ && _); auto with plain.
Qed.
Lemma plain_anb a o b : plain (printAnb a o b).
Proof.
  unfold printAnb. apply plain_cat; [|apply plain_cat].
  - destruct (_ && _); auto with plain. destruct (beq _ _); auto with plain. destruct (hasPrefix _ _); auto with plain.
  - destruct (negb _); auto with plain.
  - destruct (negb _ && _); auto with plain. apply plain_cat; auto with plain. destruct (_ || _); auto with plain.
Qed.

(** The local functions of [printPart]. *)
Definition printArgs (a : pargs selpart) : ops :=
  match a with
  | PANone => nop
  | PAIdent _ v => w "(" +++ ws v +++ w ")"
  | PAAnb _ a o b => w "(" +++ printAnb a o b +++ w ")"
  | PASel _ sels => w "(" +++ printSelList sels +++ w ")"
  end.
Lemma printPart_eq p : printPart p =
  match p with
  | SWhitespace _ => w " "
  | SType _ n => ws n
  | SClass _ n => w "." +++ ws n
  | SId _ n => w "#" +++ ws n
  | SComb _ o => ws o
  | SPseudo _ n a => w ":" +++ ws n +++ printArgs a
  | SPseudoEl _ _ n a => w ":" +++ w ":" +++ ws n +++ printArgs a
  | SAttr _ prop _ v _ =>
    w "[" +++ ws prop +++ (if isNil v then nop else w "=" +++ printValue v) +++ w "]"
  end.
Proof.
  assert (forall l, (fix go (l : list selpart) : ops :=
       match l with
       | [] => nop
       | p :: r =>
         match r with
         | [] => if isWs p then nop else printPart p
         | _ => printPart p +++ go r
         end
       end) l = printParts l) as E.
  { induction l as [|x l IH]; auto. }
  assert (forall sels, (fix go (l : list (span * list selpart)) : ops :=
         match l with
         | [] => nop
         | (_, ps) :: r =>
           match r with
           | [] => (fix go (l : list selpart) : ops :=
       match l with
       | [] => nop
       | p :: r =>
         match r with
         | [] => if isWs p then nop else printPart p
         | _ => printPart p +++ go r
         end
       end) ps
           | _ => (fix go (l : list selpart) : ops :=
       match l with
       | [] => nop
       | p :: r =>
         match r with
         | [] => if isWs p then nop else printPart p
         | _ => printPart p +++ go r
         end
       end) ps +++ w "," +++ go r
           end
         end) sels = printSelList sels) as E2.
  { induction sels as [|[s ps] sels IHs]; [reflexivity|].
    destruct sels as [|y sels]; [apply E|]. 
    change (printSelList ((s, ps) :: y :: sels)) with (printParts ps +++ w "," +++ printSelList (y :: sels)).
    refine (eq_trans _ (f_equal (fun z => printParts ps +++ w "," +++ z) IHs)).
    rewrite <- (E ps). reflexivity. }
  destruct p; try reflexivity; destruct args; try reflexivity; cbn [printPart printArgs]; rewrite <- E2; reflexivity.
Qed.

Lemma plain_parts l : Forall (fun p => plain (printPart p)) l -> plain (printParts l).
Proof.
  induction 1 as [|p l Hp Hl IH]; simpl; auto with plain.
  destruct l; auto with plain. destruct (isWs p); auto with plain.
Qed.
Lemma plain_args a : Forall (fun s => Forall (fun p => plain (printPart p)) (snd s)) (argParts a) -> plain (printArgs a).
Proof.
  destruct a; simpl; intros H; auto using plain_anb with plain.
  apply plain_cat; auto with plain. apply plain_cat; auto with plain. apply plain_sepBy; auto with plain.
  eapply Forall_impl; [|exact H]. intros; apply plain_parts; auto.
Qed.
Lemma plain_part p : plain (printPart p).
Proof.
  induction p using selpart_ind'; rewrite printPart_eq; auto using plain_args with plain.
  apply plain_cat; auto with plain. apply plain_cat; auto with plain. apply plain_cat; auto with plain.
  destruct (isNil v); auto with plain.
Qed.
Lemma plain_selector s : plain (printSelector s).
Proof. apply plain_parts, Forall_all. apply plain_part. Qed.
Lemma plain_prelude p : plain (printPrelude p).
Proof.
  destruct p as [|[sp l]|sp ks]; simpl; auto with plain.
  - apply plain_sepBy; auto with plain. apply Forall_all, plain_selector.
  - apply plain_all, Forall_all. intros [|]; simpl; auto with plain.
Qed.
Lemma plain_decl d : plain (printDecl d).
Proof.
  destruct d; simpl; auto with plain.
  apply plain_cat; auto with plain. apply plain_cat; auto with plain. apply plain_cat; auto using plain_values with plain.
  destruct important; auto with plain.
Qed.
Lemma plain_decls ds : plain (printDecls ds).
Proof. apply plain_sepBy; auto with plain. apply Forall_all, plain_decl. Qed.
Lemma plain_mqpart p : plain (printMqPart p).
Proof.
  destruct p; simpl; auto with plain.
  - repeat apply plain_cat; auto with plain. destruct (isNil v); auto with plain.
  - repeat apply plain_cat; auto with plain.
    + destruct (isNil lhs); auto with plain.
    + destruct (isNil rhs); auto with plain.
Qed.
Lemma plain_mq q : plain (printMq q).
Proof. apply plain_sepBy; auto with plain. apply Forall_all, plain_mqpart. Qed.
Lemma plain_atprelude p : plain (printAtPrelude p).
Proof.
  destruct p; simpl; auto using plain_mq with plain.
  apply plain_sepBy; auto with plain. apply Forall_all, plain_mq.
Qed.
Lemma plain_preludes ps : plain (match ps with [] => nop | ps => w " " +++ sepBy (w " ") printAtPrelude ps end).
Proof.
  destruct ps; auto with plain. apply plain_cat; auto with plain. apply plain_sepBy; auto with plain.
  apply Forall_all, plain_atprelude.
Qed.

(** * Printing without a map *)
Lemma runOps_none l : forall p, exists p', runOps None p l = Some p' /\ p_s p' = p_s p ++ textOf l.
Proof.
  induction l as [|[s|sp] l IH]; intros p; cbn [runOps addMapping textOf].
  - exists p. rewrite app_nil_r. auto.
  - destruct (IH (mkP (p_s p ++ s) (p_map p) (p_lastWritten p) (p_gc p) (p_ol p) (p_oc p))) as (p' & -> & E).
    exists p'; split; auto. rewrite E. cbn [p_s]. rewrite app_assoc. reflexivity.
  - apply IH.
Qed.
Lemma print_none ns l : printNodes ns = Some l -> print None ns = Some (textOf l).
Proof.
  intros H. unfold print. rewrite H. destruct (runOps_none l p0) as (p' & -> & E).
  rewrite E. simpl. rewrite app_nil_r. reflexivity.
Qed.
Lemma print_none_iff ns t : print None ns = Some t <-> exists l, printNodes ns = Some l /\ t = textOf l.
Proof.
  split.
  - intros H. destruct (printNodes ns) as [l|] eqn:E.
    + rewrite (print_none ns l) in H by auto. injection H as <-. eauto.
    + unfold print in H. rewrite E in H. discriminate.
  - intros (l & H & ->). apply print_none; auto.
Qed.
Lemma text_spec n l : printNode n = Some l -> text n = textOf l.
Proof.
  intros H. unfold text. rewrite (print_none [n] (l ++ [])).
  - rewrite app_nil_r. reflexivity.
  - simpl. rewrite H. reflexivity.
Qed.

(** * Marks *)
Definition asciiEnd (t : bytes) : Prop := exists u c, t = u ++ [c] /\ bz c < 128.
Lemma asciiEnd_app a b : asciiEnd b -> asciiEnd (a ++ b).
Proof. intros (u & c & -> & H). exists (a ++ u), c. rewrite app_assoc. auto. Qed.
Lemma asciiEnd_ne t : asciiEnd t -> t <> [].
Proof. intros (u & c & -> & _). destruct u; discriminate. Qed.

Lemma rule_ops r l : printRule r = Some l ->
  (forall b, marksOf b l = [(b, r_sp r)]) /\ asciiEnd (textOf l).
Proof.
  intros H. unfold printRule in H. 
  apply cat_some in H as (x & y & E & H & ->). injection E as <-.
  apply cat_some in H as (p & y' & Hp & H & ->).
  apply cat_some in H as (o & y'' & E & H & ->). injection E as <-.
  apply cat_some in H as (d & e & Hd & E & ->). injection E as <-.
  split.
  - intro b. repeat (rewrite marksOf_app || cbn [marksOf app textOf]).
    rewrite (plain_prelude _ _ Hp), (plain_decls _ _ Hd). reflexivity.
  - cbn [textOf app]. repeat (rewrite textOf_app || cbn [textOf app]). rewrite app_nil_r. apply asciiEnd_app.
    exists (B "{" ++ textOf d), "}"%byte. split; [reflexivity | reflexivity].
Qed.

Definition goodMark (m : bytes * span) : Prop := asciiEnd (fst m).

Lemma rules_ops rs : forall l b, all printRule rs = Some l ->
  marksOf b l = ruleStarts b rs /\ (asciiEnd b -> Forall goodMark (marksOf b l)) /\ (textOf l = [] \/ asciiEnd (textOf l)).
Proof.
  induction rs as [|r rs IH]; intros l b H; simpl in H.
  - injection H as <-. simpl. auto.
  - apply cat_some in H as (x & y & Hx & Hy & ->).
    destruct (rule_ops r x Hx) as [Mx Ax]. destruct (IH y (b ++ textOf x) Hy) as (My & Gy & Ay).
    rewrite marksOf_app, Mx, textOf_app. split; [|split].
    + cbn [ruleStarts]. rewrite (text_spec (NRule r) x Hx), My. reflexivity.
    + intros A. simpl. constructor; [exact A|]. apply Gy. apply asciiEnd_app; auto.
    + destruct Ay as [->|Ay]; [rewrite app_nil_r; auto | right; apply asciiEnd_app; auto].
Qed.

Lemma w_some s l : w s = Some l -> l = [W (B s)].
Proof. intro H; injection H as <-. reflexivity. Qed.
Lemma ws_some s l : ws s = Some l -> l = [W s].
Proof. intro H; injection H as <-. reflexivity. Qed.

Lemma at_ops a l : printAt a = Some l -> forall b,
  marksOf b l = (b, ar_sp a) :: match ar_block a with
       | Some (BRules _ rs) => ruleStarts (b ++ headText a) rs
       | _ => []
       end /\
  Forall goodMark (tl (marksOf b l)) /\ asciiEnd (textOf l).
Proof.
  intros H b. unfold printAt in H.
  apply cat_some in H as (x & y & E & H & ->). injection E as <-.
  apply cat_some in H as (o1 & y1 & E & H & ->). apply w_some in E as ->.
  apply cat_some in H as (o2 & y2 & E & H & ->). apply ws_some in E as ->.
  apply cat_some in H as (ps & y3 & Hps & H & ->).
  assert (headText a = B "@" ++ ar_name a ++ textOf ps ++ B "{") as HT.
  { unfold headText. erewrite text_spec.
    2:{ cbn [printNode]. unfold printAt. cbn [ar_sp ar_name ar_preludes ar_block]. rewrite Hps. reflexivity. }
    cbn [app textOf]. rewrite textOf_app. 
    change (textOf [W (B ";")]) with (B ";").
    rewrite !app_assoc. change (B ";") with [";"%byte]. rewrite removelast_last. rewrite <- !app_assoc. reflexivity. }
  assert (forall c, marksOf c ps = []) as Mps.
  { pose proof (plain_preludes (ar_preludes a)) as PP. destruct (ar_preludes a); exact (PP _ Hps). }
  destruct (ar_block a) as [blk|].
  - apply cat_some in H as (o3 & y4 & E & H & ->). apply w_some in E as ->.
    apply cat_some in H as (bl & o4 & Hb & E & ->). apply w_some in E as ->.
    assert (asciiEnd (textOf ([M (ar_sp a)] ++ [W (B "@")] ++ [W (ar_name a)] ++ ps ++ [W (B "{")] ++ bl ++ [W (B "}")]))) as A.
    { cbn [app textOf]. rewrite !textOf_app. apply asciiEnd_app, asciiEnd_app, asciiEnd_app. cbn [textOf].
      rewrite textOf_app. apply asciiEnd_app, asciiEnd_app. exists [], "}"%byte. split; reflexivity. }
    cbn [app marksOf]. rewrite !marksOf_app, Mps. cbn [app marksOf].
    rewrite marksOf_app. cbn [marksOf]. rewrite app_nil_r.
    destruct blk as [sp ds|sp rs]; cbn [printBlock] in Hb.
    + rewrite (plain_decls _ _ Hb). split; [reflexivity|]. split; [constructor|exact A].
    + destruct (rules_ops rs bl ((((b ++ B "@") ++ ar_name a) ++ textOf ps) ++ B "{") Hb) as (Mb & Gb & _).
      rewrite HT. rewrite <- !app_assoc in Mb |- *. rewrite Mb. split; [reflexivity|]. split; [|exact A].
      cbn [tl]. rewrite <- !app_assoc in Gb. rewrite <- Mb. apply Gb. 
      rewrite !app_assoc. exists (((b ++ B "@") ++ ar_name a) ++ textOf ps), "{"%byte. split; reflexivity.
  - apply w_some in H as ->. cbn [app marksOf]. rewrite !marksOf_app, Mps. cbn [app marksOf].
    split; [reflexivity|]. split; [constructor|]. cbn [textOf]. rewrite textOf_app.
    apply asciiEnd_app, asciiEnd_app, asciiEnd_app. exists [], ";"%byte. split; reflexivity.
Qed.

Lemma node_ops n l b : printNode n = Some l ->
  Forall goodMark (tl (marksOf b l)) /\ asciiEnd (textOf l) /\
  forall rest, marksOf b l ++ starts (b ++ textOf l) rest = starts b (n :: rest).
Proof.
  intros H. destruct n as [r|a]; cbn [printNode] in H.
  - destruct (rule_ops r l H) as [Mr Ar]. rewrite Mr. split; [constructor|]. split; auto.
    intros rest. cbn [starts]. rewrite (text_spec (NRule r) l H). reflexivity.
  - destruct (at_ops a l H b) as (Ma & Ga & Aa). split; auto. split; auto.
    intros rest. rewrite Ma. cbn [starts]. rewrite (text_spec (NAt a) l H). reflexivity.
Qed.

Lemma nodes_ops ns : forall l b, printNodes ns = Some l ->
  marksOf b l = starts b ns /\ (asciiEnd b -> Forall goodMark (marksOf b l)) /\ Forall goodMark (tl (marksOf b l)).
Proof.
  induction ns as [|n ns IH]; intros l b H; cbn [printNodes all] in H.
  - injection H as <-. simpl. auto.
  - apply cat_some in H as (x & y & Hx & Hy & ->). fold (printNodes ns) in Hy.
    destruct (node_ops n x b Hx) as (Gx & Ax & Sx).
    destruct (IH y (b ++ textOf x) Hy) as (My & Gy & _).
    rewrite marksOf_app, My, Sx. split; [reflexivity|].
    assert (exists sp r, marksOf b x = (b, sp) :: r) as (sp & r & Er).
    { destruct n as [q|a]; cbn [printNode] in Hx.
      - destruct (rule_ops q x Hx) as [Mr _]. rewrite Mr. eauto.
      - destruct (at_ops a x Hx b) as (Ma & _). rewrite Ma. eauto. }
    assert (Forall goodMark (marksOf (b ++ textOf x) y)) as GY by (apply Gy, asciiEnd_app; auto).
    rewrite <- Sx, <- My, Er in *. cbn [tl app] in *. split.
    + intros A. constructor; auto. apply Forall_app; auto.
    + apply Forall_app; auto.
Qed.
