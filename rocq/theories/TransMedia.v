(** Media queries: C25, C26. *)
From Coq Require Import QArith.
From Verif Require Import Bytes Utf8 Source Lexer Ast AstInd BytesFacts Transformer TransSpec TransProofs.
Open Scope Z_scope.

(** ** Frame *)
Definition keeps {A} (m : TM A) : Prop := forall t a t', m t = TOk a t' -> t_vars t' = t_vars t /\ t_cmedia t' = t_cmedia t.
Lemma keeps_ret : forall A (a : A), keeps (tret a).
Proof. intros A a t b t' H. apply tret_ok in H as [_ <-]. auto. Qed.
Lemma keeps_bind : forall A C (m : TM A) (k : A -> TM C), keeps m -> (forall a, keeps (k a)) -> keeps (tbind m k).
Proof.
  intros A C m k Hm Hk t c t' H. apply tbind_ok in H as (a & t1 & H1 & H2).
  apply Hm in H1 as [-> ->] || (destruct (Hm _ _ _ H1) as [E1 E2]; destruct (Hk _ _ _ _ H2) as [E3 E4]; split; congruence).
Qed.
Lemma keeps_report : forall r, keeps (treport r).
Proof. intros r t a t' H. unfold treport in H. inversion H; subst. auto. Qed.
Lemma keeps_crash : forall A, keeps (@tcrash A).
Proof. intros A t a t' H. discriminate. Qed.
Lemma keeps_timeout : forall A, keeps (@ttimeout A).
Proof. intros A t a t' H. discriminate. Qed.
Lemma keeps_addError : forall w v m, keeps (addErrorAt w v m).
Proof. intros w v m. unfold addErrorAt. destruct (valueSpan v); [apply keeps_report|apply keeps_crash]. Qed.
Ltac keeps :=
  repeat first
    [ apply keeps_ret | apply keeps_report | apply keeps_crash | apply keeps_timeout | apply keeps_addError
    | apply keeps_bind; [|intros ?]
    | match goal with |- keeps (match ?x with _ => _ end) => destruct x end
    | assumption ].

Section F.
Context {FO : FloatOps}.
Variable o : topts.

Lemma keeps_addTo : forall v d, keeps (addToValue v d).
Proof. intros v d. unfold addToValue. keeps. Qed.
Lemma keeps_range : forall p psp prop l op r, keeps (transformRange o p psp prop l op r).
Proof. intros. unfold transformRange. keeps; apply keeps_addTo. Qed.
Lemma keeps_mqparts : forall ps, keeps (transformMqParts o ps).
Proof.
  intros ps. induction ps as [|p r IH]; cbn [transformMqParts]; [keeps|].
  apply keeps_bind; [|intros; keeps]. destruct p; [keeps| |apply keeps_range].
  destruct (_ || _); [keeps|]. intros t a t' H. destruct (t_cmedia t) eqn:Ec; [|inversion H; subst; auto].
  destruct (lookup prop l) as [[? ?]|]; inversion H; subst; auto.
Qed.
Lemma keeps_mqs : forall qs, keeps (transformMqs o qs).
Proof.
  intros qs. induction qs as [|[sp ps] r IH]; cbn [transformMqs]; keeps. apply keeps_mqparts.
Qed.
Lemma keeps_math : forall l r op, keeps (combine l r op).
Proof. intros. unfold combine, mathResult. keeps. Qed.
Lemma keeps_reduce : forall v, keeps (reduceSide v).
Proof. intros v. induction v using value_ind'; cbn [reduceSide]; keeps. apply keeps_math. Qed.
Lemma keeps_eval : forall l r op, keeps (evaluateMathExpression l r op).
Proof. intros. unfold evaluateMathExpression. keeps; try apply keeps_reduce. apply keeps_math. Qed.
Lemma keeps_subst : forall sp n args, keeps (substVar sp n args).
Proof.
  intros sp n args. unfold substVar. destruct (negb _); [keeps|]. intros t a t' H.
  destruct (t_vars t) eqn:Ev; [|inversion H; subst; auto].
  assert (K : forall r (x : list value) t a t', (_ <~ treport r ;; tret x) t = TOk a t' -> t_vars t' = t_vars t /\ t_cmedia t' = t_cmedia t).
  { intros r x. change (keeps (_ <~ treport r ;; tret x)). keeps. }
  destruct args as [|a0 rest]; [rewrite <- Ev; eauto|].
  destruct a0; try (rewrite <- Ev; eauto; fail).
  destruct (lookup v l); [inversion H; subst; auto|].
  destruct (_ <? _)%nat; [inversion H; subst; auto|rewrite <- Ev; eauto].
Qed.
Lemma keeps_value : forall n v, keeps (transformValue o n v).
Proof.
  intros n. induction n as [|n IH]; intros v; cbn [transformValue]; [keeps|].
  destruct v; try (keeps; fail). apply keeps_bind; [apply keeps_subst|intros new].
  keeps; first [apply IH|apply keeps_eval|apply keeps_reduce|apply keeps_math].
Qed.
Lemma keeps_values : forall n vs, keeps (transformValues o n vs).
Proof. intros n vs. induction vs; cbn [transformValues]; keeps. apply keeps_value. Qed.
Lemma keeps_decls : forall n ds, keeps (transformDecls o n ds).
Proof. intros n ds. induction ds; cbn [transformDecls]; keeps. apply keeps_values. Qed.

Definition keepsMedia {A} (m : TM A) : Prop := forall t a t', m t = TOk a t' -> t_cmedia t' = t_cmedia t.
Lemma collect_media : forall ds, keepsMedia (collectRoot ds).
Proof.
  intros ds. induction ds as [|d r IH]; intros t a t' H; cbn [collectRoot] in H; [apply tret_ok in H as [_ <-]; auto|].
  destruct d.
  - destruct (t_vars t); [destruct (hasPrefix _ _)|].
    + apply IH in H. exact H.
    + apply tbind_ok in H as (x & t1 & H1 & H). apply tret_ok in H as [_ <-]. eauto.
    + apply tbind_ok in H as (x & t1 & H1 & H). apply tret_ok in H as [_ <-]. eauto.
  - apply tbind_ok in H as (x & t1 & H1 & H). apply tret_ok in H as [_ <-]. eauto.
Qed.
Lemma scan_media : forall pr ds, keepsMedia (scanRoot pr ds).
Proof.
  intros pr ds t a t' H. unfold scanRoot in H.
  destruct pr as [|[? sels]|]; try (apply tret_ok in H as [_ <-]; reflexivity).
  destruct (existsb _ _); [|apply tret_ok in H as [_ <-]; reflexivity].
  destruct sels as [|[? [|p ps]] r]; [apply tret_ok in H as [_ <-]; reflexivity|discriminate|].
  destruct (isRootPseudo p); [eapply collect_media; eauto|apply tret_ok in H as [_ <-]; reflexivity].
Qed.
Lemma rule_media : forall n r, keepsMedia (transformRule o n r).
Proof.
  intros n r t a t' H. unfold transformRule in H. apply tbind_ok in H as (ds & t1 & H1 & H).
  rewrite <- (scan_media _ _ _ _ _ H1). destruct (r_prelude r) as [|[lsp sels]|]; [discriminate| |].
  - apply tbind_ok in H as (ds' & t2 & H2 & H). apply keeps_decls in H2 as [_ <-].
    destruct ds'; apply tret_ok in H as [_ <-]; reflexivity.
  - apply tbind_ok in H as (? & ? & _ & H). discriminate.
Qed.

(** ** Ranges *)
Definition adjusted (d : F) (v v' : value) : Prop :=
  exists sp n u f, v = VDim sp n u /\ fparse n = Some f /\ v' = VDim zsp (fformat (fadd f d)) u.

Lemma strip_min : forall p, stripPrefix (B "min-") (B "min" ++ B "-" ++ p) = Some p.
Proof. reflexivity. Qed.
Lemma strip_max1 : forall p, stripPrefix (B "min-") (B "max" ++ B "-" ++ p) = None.
Proof. reflexivity. Qed.
Lemma strip_max : forall p, stripPrefix (B "max-") (B "max" ++ B "-" ++ p) = Some p.
Proof. reflexivity. Qed.
Lemma plain_min : forall d p v, v <> VNil -> (plainHolds d (B "min" ++ B "-" ++ p) v <-> (size d v <= feat d p)%Q).
Proof. intros d p v H. unfold plainHolds. rewrite strip_min. destruct v; try reflexivity. congruence. Qed.
Lemma plain_max : forall d p v, v <> VNil -> (plainHolds d (B "max" ++ B "-" ++ p) v <-> (feat d p <= size d v)%Q).
Proof. intros d p v H. unfold plainHolds. rewrite strip_max1, strip_max. destruct v; try reflexivity. congruence. Qed.

(** The bound a lowered side expresses. *)
Definition boundOf (dir : bytes) (d : device) (f : bytes) (v : value) : Prop :=
  if beq dir (B "min") then (size d v <= feat d f)%Q else (feat d f <= size d v)%Q.
Lemma dims_not_nil : forall d v v', adjusted d v v' -> v <> VNil /\ v' <> VNil.
Proof. intros d v v' (sp & n & u & f & -> & _ & ->). split; discriminate. Qed.
Lemma isNil_iff : forall v, isNil v = true <-> v = VNil.
Proof. intros []; split; intros H; try discriminate; reflexivity. Qed.
Lemma isNil_false : forall v, v <> VNil -> isNil v = false.
Proof. intros [] H; try reflexivity. congruence. Qed.
Lemma addTo_adjusted : forall d v v' t, adjusted d v v' -> addToValue v (Some d) t = TOk v' t.
Proof. intros d v v' t (sp & n & u & f & -> & Hf & ->). unfold addToValue. rewrite Hf. reflexivity. Qed.

(** General form: each present side [x] is replaced by [x'] computed by
    [addToValue], in the direction given by the operator. *)
Lemma range_general : forall p psp prop lv op rv t lv' rv',
  o_ranges o = true ->
  (lv <> VNil -> addToValue lv (snd (leftDir op)) t = TOk lv' t) ->
  (rv <> VNil -> addToValue rv (snd (rightDir op)) t = TOk rv' t) ->
  transformRange o p psp prop lv op rv t =
  TOk ((if isNil lv then [] else [MPlain zsp zsp (fst (leftDir op) ++ B "-" ++ prop) lv']) ++
       (if isNil rv then [] else (if isNil lv then [] else [MIdent zsp (B "and")]) ++
                                 [MPlain zsp zsp (fst (rightDir op) ++ B "-" ++ prop) rv'])) t.
Proof.
  intros p psp prop lv op rv t lv' rv' Ho HL HR. unfold transformRange. rewrite Ho. cbn [negb].
  destruct (isNil lv) eqn:El.
  - rewrite (tbind_step _ _ _ _ _ [] t) by reflexivity.
    destruct (isNil rv) eqn:Er.
    + reflexivity.
    + assert (Hr : rv <> VNil) by (intros ->; discriminate). destruct (rightDir op) as [dir diff]. cbn [fst snd] in *.
      unfold tbind. rewrite (HR Hr). reflexivity.
  - assert (Hl : lv <> VNil) by (intros ->; discriminate). destruct (leftDir op) as [dl fl]. cbn [fst snd] in *.
    unfold tbind at 1 2. rewrite (HL Hl). cbn [tret].
    destruct (isNil rv) eqn:Er.
    + reflexivity.
    + assert (Hr : rv <> VNil) by (intros ->; discriminate). destruct (rightDir op) as [dir diff]. cbn [fst snd] in *.
      unfold tbind. rewrite (HR Hr). reflexivity.
Qed.

Definition sideParts (d : device) (lv rv lv' rv' : value) (dl dr : bytes) (prop : bytes) : list mqpart :=
  (if isNil lv then [] else [MPlain zsp zsp (dl ++ B "-" ++ prop) lv']) ++
  (if isNil rv then [] else (if isNil lv then [] else [MIdent zsp (B "and")]) ++ [MPlain zsp zsp (dr ++ B "-" ++ prop) rv']).

Lemma sides_hold : forall d lv rv lv' rv' (dl dr prop : bytes),
  Forall (simplePart d)
    ((if isNil lv then [] else [MPlain zsp zsp (dl ++ B "-" ++ prop) lv']) ++
     (if isNil rv then [] else (if isNil lv then [] else [MIdent zsp (B "and")]) ++ [MPlain zsp zsp (dr ++ B "-" ++ prop) rv'])) <->
  (lv = VNil \/ plainHolds d (dl ++ B "-" ++ prop) lv') /\ (rv = VNil \/ plainHolds d (dr ++ B "-" ++ prop) rv').
Proof.
  intros d lv rv lv' rv' dl dr prop. rewrite Forall_app.
  destruct (isNil lv) eqn:El; [apply isNil_iff in El; subst lv|assert (lv <> VNil) by (intros ->; discriminate)];
  (destruct (isNil rv) eqn:Er; [apply isNil_iff in Er; subst rv|assert (rv <> VNil) by (intros ->; discriminate)]);
  cbn [app]; rewrite ?Forall_cons_iff; cbn [simplePart]; (split; [intros (A & C); intuition|]);
  intros [A C]; repeat split; auto; try (constructor); try tauto.
Qed.

Lemma compares_lt : forall a b, compares (B "<") a b <-> (a < b)%Q.
Proof. intros a b. unfold compares. split; [|auto]. intros [[H K]|[[H K]|[[H K]|[H K]]]]; try discriminate H; auto. Qed.
Lemma compares_le : forall a b, compares (B "<=") a b <-> (a <= b)%Q.
Proof. intros a b. unfold compares. split; [|auto]. intros [[H K]|[[H K]|[[H K]|[H K]]]]; try discriminate H; auto. Qed.
Lemma compares_gt : forall a b, compares (B ">") a b <-> (b < a)%Q.
Proof. intros a b. unfold compares. split; [|auto]. intros [[H K]|[[H K]|[[H K]|[H K]]]]; try discriminate H; auto. Qed.
Lemma compares_ge : forall a b, compares (B ">=") a b <-> (b <= a)%Q.
Proof. intros a b. unfold compares. split; [|auto 6]. intros [[H K]|[[H K]|[[H K]|[H K]]]]; try discriminate H; auto. Qed.

Lemma or_iff_r : forall (P Q R : Prop), (~ P -> (Q <-> R)) -> (P \/ ~ P) -> ((P \/ Q) <-> (P \/ R)).
Proof. tauto. Qed.
Lemma nil_dec : forall v, v = VNil \/ v <> VNil.
Proof. intros []; auto; right; discriminate. Qed.

Lemma range_inclusive : forall d sp psp f lhs op rhs t,
  o_ranges o = true -> (op = B "<=" \/ op = B ">=") ->
  exists ps, transformRange o (MRange sp psp f lhs op rhs) psp f lhs op rhs t = TOk ps t /\
    (Forall (simplePart d) ps <-> rangeHolds d f lhs op rhs).
Proof.
  intros d sp psp f lhs op rhs t Ho Hop. eexists. split.
  - apply (range_general _ psp f lhs op rhs t lhs rhs Ho); intros _; destruct Hop as [-> | ->]; reflexivity.
  - rewrite sides_hold. unfold rangeHolds. destruct Hop as [-> | ->]; cbn [leftDir rightDir beq fst].
    + change (fst (leftDir (B "<="))) with (B "min"). change (fst (rightDir (B "<="))) with (B "max").
      rewrite !compares_le.
      rewrite (or_iff_r (lhs = VNil) _ _ (fun H => plain_min d f lhs H) (nil_dec _)).
      rewrite (or_iff_r (rhs = VNil) _ _ (fun H => plain_max d f rhs H) (nil_dec _)). reflexivity.
    + change (fst (leftDir (B ">="))) with (B "max"). change (fst (rightDir (B ">="))) with (B "min").
      rewrite !compares_ge.
      rewrite (or_iff_r (lhs = VNil) _ _ (fun H => plain_max d f lhs H) (nil_dec _)).
      rewrite (or_iff_r (rhs = VNil) _ _ (fun H => plain_min d f rhs H) (nil_dec _)). reflexivity.
Qed.

(** The strict operators. *)
Lemma range_strict : forall d sp psp f lhs op rhs t up dn lhs' rhs',
  o_ranges o = true -> (op = B "<" /\ up = fthousandth /\ dn = fneg fthousandth \/
                        op = B ">" /\ up = fneg fthousandth /\ dn = fthousandth) ->
  (lhs = VNil \/ adjusted up lhs lhs') -> (rhs = VNil \/ adjusted dn rhs rhs') ->
  exists ps, transformRange o (MRange sp psp f lhs op rhs) psp f lhs op rhs t = TOk ps t /\
    (Forall (simplePart d) ps <->
     (lhs = VNil \/ (op = B "<" /\ size d lhs' <= feat d f \/ op = B ">" /\ feat d f <= size d lhs')%Q) /\
     (rhs = VNil \/ (op = B "<" /\ feat d f <= size d rhs' \/ op = B ">" /\ size d rhs' <= feat d f)%Q)).
Proof.
  intros d sp psp f lhs op rhs t up dn lhs' rhs' Ho Hop HL HR. eexists. split.
  - apply (range_general _ psp f lhs op rhs t lhs' rhs' Ho); intros Hn.
    + destruct HL as [HL|HL]; [congruence|].
      destruct Hop as [(-> & -> & _)|(-> & -> & _)]; apply addTo_adjusted; exact HL.
    + destruct HR as [HR|HR]; [congruence|].
      destruct Hop as [(-> & _ & ->)|(-> & _ & ->)]; apply addTo_adjusted; exact HR.
  - rewrite sides_hold.
    assert (NL : lhs <> VNil -> lhs' <> VNil) by (intros H; destruct HL as [HL|HL]; [congruence|apply (dims_not_nil _ _ _ HL)]).
    assert (NR : rhs <> VNil -> rhs' <> VNil) by (intros H; destruct HR as [HR|HR]; [congruence|apply (dims_not_nil _ _ _ HR)]).
    destruct Hop as [(-> & _)|(-> & _)].
    + change (fst (leftDir (B "<"))) with (B "min"). change (fst (rightDir (B "<"))) with (B "max").
      rewrite (or_iff_r (lhs = VNil) _ _ (fun H => plain_min d f lhs' (NL H)) (nil_dec _)).
      rewrite (or_iff_r (rhs = VNil) _ _ (fun H => plain_max d f rhs' (NR H)) (nil_dec _)).
      split; (intros [A C]; split; [clear C; revert A|clear A; revert C]); 
        (intros [A|A]; [left; exact A|right; try destruct A as [[A C]|[A C]]; try discriminate A; auto]).
    + change (fst (leftDir (B ">"))) with (B "max"). change (fst (rightDir (B ">"))) with (B "min").
      rewrite (or_iff_r (lhs = VNil) _ _ (fun H => plain_max d f lhs' (NL H)) (nil_dec _)).
      rewrite (or_iff_r (rhs = VNil) _ _ (fun H => plain_min d f rhs' (NR H)) (nil_dec _)).
      split; (intros [A C]; split; [clear C; revert A|clear A; revert C]); 
        (intros [A|A]; [left; exact A|right; try destruct A as [[A C]|[A C]]; try discriminate A; auto]).
Qed.

(** ** Custom media *)
Definition envOf (cm : option (list (bytes * mquery))) : mediaEnv := fun x =>
  match cm with
  | None => None
  | Some m => if hasPrefix (B "--") x then option_map snd (lookup x m) else None
  end.

Lemma holds_noMedia : forall d p, partHolds d noMedia p <-> simplePart d p.
Proof. intros d [sp x|sp psp n v|]; cbn [partHolds]; try reflexivity. destruct v; reflexivity. Qed.
Lemma Forall_noMedia : forall d ps, Forall (partHolds d noMedia) ps <-> Forall (simplePart d) ps.
Proof. intros d ps. split; apply Forall_impl; intros; apply holds_noMedia; auto. Qed.

(** One part. *)
Definition onePart (p : mqpart) : TM (list mqpart) :=
  match p with
  | MPlain _ _ prop v =>
    if negb (isNil v) || negb (hasPrefix (B "--") prop) then tret [p] else
    fun t => match t_cmedia t with
             | None => TOk [p] t
             | Some m => match lookup prop m with
                         | None => TOk [p] t
                         | Some (_, parts) => TOk parts t
                         end
             end
  | MRange _ psp prop lv op rv => transformRange o p psp prop lv op rv
  | MIdent _ _ => tret [p]
  end.
Lemma mqparts_cons : forall p r, transformMqParts o (p :: r) =
  (here <~ onePart p ;; rest <~ transformMqParts o r ;; tret (here ++ rest)).
Proof. reflexivity. Qed.

Lemma onePart_spec : forall d p t, (o_ranges o = true -> inclusive p) ->
  (forall x q, envOf (t_cmedia t) x = Some q -> flatDef q) ->
  exists ps, onePart p t = TOk ps t /\ (Forall (simplePart d) ps <-> partHolds d (envOf (t_cmedia t)) p) /\
    (match p with
     | MIdent _ _ => ps = [p]
     | _ => ps <> [] /\ match ps with MIdent _ x :: _ => x <> B "not" | _ => True end
     end).
Proof.
  intros d p t Hi Hf. destruct p as [sp x|sp psp n v|sp psp n lv op rv]; cbn [onePart].
  - exists [MIdent sp x]. split; [reflexivity|]. split; [|reflexivity].
    rewrite Forall_cons_iff. cbn [partHolds]. intuition.
  - destruct (negb (isNil v) || negb (hasPrefix (B "--") n)) eqn:Ec.
    + exists [MPlain sp psp n v]. split; [reflexivity|]. split; [|split; [discriminate|exact I]].
      rewrite Forall_cons_iff. assert (X : partHolds d (envOf (t_cmedia t)) (MPlain sp psp n v) <-> simplePart d (MPlain sp psp n v)).
      { cbn [partHolds]. destruct v; try reflexivity. unfold envOf. cbn [isNil negb orb] in Ec.
        apply negb_true_iff in Ec. rewrite Ec. destruct (t_cmedia t); reflexivity. }
      rewrite X. intuition.
    + apply orb_false_iff in Ec as [E1 E2]. apply negb_false_iff in E1, E2. apply isNil_iff in E1. subst v.
      assert (K : forall cm, envOf cm n = match cm with None => None | Some m => option_map snd (lookup n m) end).
      { intros cm. unfold envOf. rewrite E2. reflexivity. }
      cbn [partHolds]. pose proof (K (t_cmedia t)) as K'. destruct (t_cmedia t) as [m|] eqn:Em.
      * destruct (lookup n m) as [[qsp q]|] eqn:El; cbn [option_map snd] in K'.
        { exists q. split; [reflexivity|]. rewrite K'. destruct (Hf _ _ K') as (A & _ & C). split; [|auto].
          destruct q as [|[qs x| |] q]; cbn [simpleQuery]; try reflexivity. apply beq_neq in C. rewrite C. reflexivity. }
        { exists [MPlain sp psp n VNil]. split; [reflexivity|]. rewrite K'. split; [rewrite Forall_cons_iff; intuition|].
          split; [discriminate|exact I]. }
      * exists [MPlain sp psp n VNil]. split; [reflexivity|]. rewrite K'. split; [rewrite Forall_cons_iff; intuition|].
        split; [discriminate|exact I].
  - destruct (o_ranges o) eqn:Eo.
    + destruct (Hi eq_refl) as [Hop Hs].
      assert (G := range_general (MRange sp psp n lv op rv) psp n lv op rv t lv rv Eo).
      destruct (range_inclusive d sp psp n lv op rv t Eo Hop) as (ps & H1 & H2).
      exists ps. split; [exact H1|]. split; [exact H2|].
      rewrite G in H1 by (intros _; destruct Hop as [-> | ->]; reflexivity). injection H1 as <-. clear H2 G.
      destruct (isNil lv) eqn:El; destruct (isNil rv) eqn:Er; cbn [app]; try (split; [discriminate|exact I]).
      exfalso. apply isNil_iff in El, Er. revert Hs. clear - El Er. intuition.
    + unfold transformRange. rewrite Eo. cbn [negb]. exists [MRange sp psp n lv op rv]. split; [reflexivity|].
      split; [rewrite Forall_cons_iff; cbn [partHolds]; intuition|]. split; [discriminate|exact I].
Qed.

Lemma parts_spec : forall d ps t, (o_ranges o = true -> Forall inclusive ps) ->
  (forall x q, envOf (t_cmedia t) x = Some q -> flatDef q) ->
  exists ps', transformMqParts o ps t = TOk ps' t /\
    (Forall (simplePart d) ps' <-> Forall (partHolds d (envOf (t_cmedia t))) ps).
Proof.
  intros d ps t. induction ps as [|p r IH]; intros Hi Hf.
  - exists []. split; [reflexivity|]. split; constructor.
  - destruct (onePart_spec d p t) as (hs & H1 & H2 & _); [intros Ho; specialize (Hi Ho); inversion Hi; auto|exact Hf|].
    destruct IH as (rs & H3 & H4); [intros Ho; specialize (Hi Ho); inversion Hi; auto|exact Hf|].
    exists (hs ++ rs). rewrite mqparts_cons.
    rewrite (tbind_step _ _ _ _ _ _ _ H1), (tbind_step _ _ _ _ _ _ _ H3). split; [reflexivity|].
    rewrite Forall_app, Forall_cons_iff, H2, H4. reflexivity.
Qed.

Lemma query_spec : forall d ps t, (o_ranges o = true -> Forall inclusive ps) ->
  (forall x q, envOf (t_cmedia t) x = Some q -> flatDef q) ->
  exists ps', transformMqParts o ps t = TOk ps' t /\
    (queryHolds d noMedia ps' <-> queryHolds d (envOf (t_cmedia t)) ps).
Proof.
  intros d ps t Hi Hf. destruct ps as [|p r].
  - exists []. split; [reflexivity|]. cbn [queryHolds]. split; constructor.
  - destruct (onePart_spec d p t) as (hs & H1 & H2 & H5); [intros Ho; specialize (Hi Ho); inversion Hi; auto|exact Hf|].
    destruct (parts_spec d r t) as (rs & H3 & H4); [intros Ho; specialize (Hi Ho); inversion Hi; auto|exact Hf|].
    exists (hs ++ rs). rewrite mqparts_cons.
    rewrite (tbind_step _ _ _ _ _ _ _ H1), (tbind_step _ _ _ _ _ _ _ H3). split; [reflexivity|].
    assert (All : Forall (partHolds d noMedia) (hs ++ rs) <-> Forall (partHolds d (envOf (t_cmedia t))) (p :: r)).
    { rewrite Forall_noMedia, Forall_app, Forall_cons_iff, H2, H4. reflexivity. }
    destruct p as [sp x|sp psp n v|sp psp n lv op rv].
    + subst hs. cbn [app queryHolds]. destruct (beq x (B "not")).
      * rewrite Forall_noMedia, H4. reflexivity.
      * exact All.
    + destruct H5 as [N K]. destruct hs as [|h hs]; [congruence|]. cbn [app] in *.
      assert (Q : queryHolds d noMedia (h :: hs ++ rs) <-> Forall (partHolds d noMedia) (h :: hs ++ rs)).
      { cbn [queryHolds]. destruct h; try reflexivity. apply beq_neq in K. rewrite K. reflexivity. }
      rewrite Q. exact All.
    + destruct H5 as [N K]. destruct hs as [|h hs]; [congruence|]. cbn [app] in *.
      assert (Q : queryHolds d noMedia (h :: hs ++ rs) <-> Forall (partHolds d noMedia) (h :: hs ++ rs)).
      { cbn [queryHolds]. destruct h; try reflexivity. apply beq_neq in K. rewrite K. reflexivity. }
      rewrite Q. exact All.
Qed.
Lemma queries_spec : forall d qs t, (o_ranges o = true -> Forall (fun q : mquery => Forall inclusive (snd q)) qs) ->
  (forall x q, envOf (t_cmedia t) x = Some q -> flatDef q) ->
  exists qs', transformMqs o qs t = TOk qs' t /\
    (listHolds d noMedia qs' <-> listHolds d (envOf (t_cmedia t)) qs).
Proof.
  intros d qs t Hi Hf. induction qs as [|[sp ps] r IH].
  - exists []. split; [reflexivity|]. unfold listHolds. split; intros (q & [] & _).
  - destruct (query_spec d ps t) as (ps' & H1 & H2); [intros Ho; specialize (Hi Ho); inversion Hi; auto|exact Hf|].
    destruct IH as (r' & H3 & H4); [intros Ho; specialize (Hi Ho); inversion Hi; auto|].
    exists ((sp, ps') :: r'). cbn [transformMqs].
    rewrite (tbind_step _ _ _ _ _ _ _ H1), (tbind_step _ _ _ _ _ _ _ H3). split; [reflexivity|].
    unfold listHolds in *. split.
    + intros (q & [<-|Hq] & H); [exists (sp, ps); split; [left; auto|apply H2; exact H]|].
      destruct (proj1 H4) as (q' & Hq' & H'); [eauto|]. exists q'. split; [right; auto|auto].
    + intros (q & [<-|Hq] & H); [exists (sp, ps'); split; [left; auto|apply H2; exact H]|].
      destruct (proj2 H4) as (q' & Hq' & H'); [eauto|]. exists q'. split; [right; auto|auto].
Qed.

(** The definitions collected from the nodes walked so far. *)
Definition storedDefs (nd : node) : list (bytes * mquery) :=
  match nd with
  | NAt a =>
    if beq (ar_name a) (B "import") then [] else
    if beq (ar_name a) (B "custom-media") then
      match ar_preludes a with [APIdent _ name; APMq q] => [(name, q)] | _ => [] end
    else []
  | NRule _ => []
  end.
Lemma one_defs : forall n nd t out t', isImport nd = false \/ True -> oneNode o None n nd t = TOk out t' ->
  t_cmedia t' = match t_cmedia t with Some m => Some (rev (storedDefs nd) ++ m) | None => None end.
Proof.
  intros n nd t out t' _ H. destruct nd as [r|a]; cbn [oneNode storedDefs] in *.
  - apply tbind_ok in H as (x & t1 & H1 & H). apply tret_ok in H as [_ <-].
    rewrite (rule_media _ _ _ _ _ H1). destruct (t_cmedia t); reflexivity.
  - destruct (beq (ar_name a) (B "import")); [apply tret_ok in H as [_ <-]; destruct (t_cmedia t); reflexivity|].
    destruct (beq (ar_name a) (B "custom-media")).
    + apply tbind_ok in H as (x & t1 & H1 & H). apply tret_ok in H as [_ <-]. unfold addCustomMedia in H1.
      destruct (t_cmedia t) eqn:Em; [|inversion H1; subst; auto].
      destruct (ar_preludes a) as [|[] [|[] [|]]]; inversion H1; subst; cbn [t_cmedia rev app]; auto.
    + destruct (beq (ar_name a) (B "media")).
      * destruct (ar_preludes a) as [|[| |[lsp qs]| |] pres]; try discriminate.
        apply tbind_ok in H as (x & t1 & H1 & H). apply tret_ok in H as [_ <-].
        apply keeps_mqs in H1 as [_ ->]. destruct (t_cmedia t); reflexivity.
      * apply tret_ok in H as [_ <-]. destruct (t_cmedia t); reflexivity.
Qed.
Lemma nodes_defs : forall n ns t out t', transformNodes o None (S n) ns t = TOk out t' ->
  t_cmedia t' = match t_cmedia t with Some m => Some (rev (flat_map storedDefs ns) ++ m) | None => None end.
Proof.
  intros n ns. induction ns as [|nd r IH]; intros t out t' H.
  - rewrite nodes_nil in H. apply tret_ok in H as [_ <-]. destruct (t_cmedia t); reflexivity.
  - rewrite nodes_cons in H. apply tbind_ok in H as (h & t1 & H1 & H). apply tbind_ok in H as (rs & t2 & H2 & H).
    apply tret_ok in H as [_ <-]. apply one_defs in H1; [|auto]. apply IH in H2. rewrite H2, H1.
    destruct (t_cmedia t); [|reflexivity]. cbn [flat_map]. rewrite rev_app_distr, app_assoc. reflexivity.
Qed.
(** Latest first and last wins agree. *)
Lemma lookup_app : forall A x (a b : list (bytes * A)), lookup x (a ++ b) = match lookup x a with Some v => Some v | None => lookup x b end.
Proof. intros A x a b. induction a as [|[k v] r IH]; [reflexivity|]. cbn [app lookup]. destruct (beq x k); auto. Qed.
Lemma lookup_rev : forall A x (l : list (bytes * A)), lookup x (rev l) = lastDef x l.
Proof.
  intros A x l. induction l as [|[k v] r IH]; [reflexivity|]. cbn [rev lastDef]. rewrite lookup_app, IH.
  destruct (lastDef x r); [reflexivity|]. cbn [lookup]. reflexivity.
Qed.
Lemma lastDef_app : forall A x (a b : list (bytes * A)),
  lastDef x (a ++ b) = match lastDef x b with Some v => Some v | None => lastDef x a end.
Proof.
  intros A x a b. induction a as [|[k v] r IH]; [cbn [app]; destruct (lastDef x b); reflexivity|].
  cbn [app lastDef]. rewrite IH. destruct (lastDef x b); reflexivity.
Qed.
Lemma defs_agree : forall x ns, hasPrefix (B "--") x = true ->
  option_map snd (lastDef x (flat_map storedDefs ns)) = lastDef x (flat_map mediaDefs ns).
Proof.
  intros x ns Hx. induction ns as [|nd r IH]; [reflexivity|]. cbn [flat_map]. rewrite !lastDef_app, <- IH.
  destruct (lastDef x (flat_map storedDefs r)) as [q|] eqn:E; cbn [option_map]; [reflexivity|].
  destruct nd as [|a]; [reflexivity|]. cbn [storedDefs mediaDefs].
  destruct (beq (ar_name a) (B "import")) eqn:Ei.
  { apply beq_eq in Ei. rewrite Ei. reflexivity. }
  destruct (beq (ar_name a) (B "custom-media")); [|reflexivity].
  destruct (ar_preludes a) as [|[] [|[] [|]]]; try reflexivity.
  destruct (hasPrefix (B "--") v) eqn:Ev; cbn [lastDef].
  - destruct (beq x v); reflexivity.
  - destruct (beq x v) eqn:Ex; [|reflexivity]. apply beq_eq in Ex. subst. congruence.
Qed.
Lemma defs_prefix : forall x ns, hasPrefix (B "--") x = false -> lastDef x (flat_map mediaDefs ns) = None.
Proof.
  intros x ns Hx. induction ns as [|nd r IH]; [reflexivity|]. cbn [flat_map]. rewrite lastDef_app, IH.
  destruct nd as [|a]; [reflexivity|]. cbn [mediaDefs].
  destruct (beq (ar_name a) (B "custom-media")); [|reflexivity].
  destruct (ar_preludes a) as [|[] [|[] [|]]]; try reflexivity.
  destruct (hasPrefix (B "--") v) eqn:Ev; cbn [lastDef]; [|reflexivity].
  destruct (beq x v) eqn:Ex; [|reflexivity]. apply beq_eq in Ex. subst. congruence.
Qed.
Lemma env_agree : forall ns x, envOf (Some (rev (flat_map storedDefs ns) ++ [])) x = mediaEnvOf ns x.
Proof.
  intros ns x. unfold envOf, mediaEnvOf. rewrite app_nil_r, lookup_rev. destruct (hasPrefix (B "--") x) eqn:E.
  - apply defs_agree; auto.
  - symmetry. apply defs_prefix; auto.
Qed.

Lemma partHolds_ext : forall d e1 e2 p, (forall x, e1 x = e2 x) -> (partHolds d e1 p <-> partHolds d e2 p).
Proof. intros d e1 e2 p H. destruct p; cbn [partHolds]; try reflexivity. destruct v; try reflexivity. rewrite H. reflexivity. Qed.
Lemma queryHolds_ext : forall d e1 e2 ps, (forall x, e1 x = e2 x) -> (queryHolds d e1 ps <-> queryHolds d e2 ps).
Proof.
  intros d e1 e2 ps H. assert (X : forall l, Forall (partHolds d e1) l <-> Forall (partHolds d e2) l).
  { intros l. split; apply Forall_impl; intros a; apply partHolds_ext; auto. }
  destruct ps as [|[] r]; cbn [queryHolds]; try apply X. destruct (beq _ _); [|apply X]. rewrite X. reflexivity.
Qed.
Lemma listHolds_ext : forall d e1 e2 qs, (forall x, e1 x = e2 x) -> (listHolds d e1 qs <-> listHolds d e2 qs).
Proof.
  intros d e1 e2 qs H. unfold listHolds. split; intros (q & Hq & K); exists q; (split; [exact Hq|]);
    revert K; apply queryHolds_ext; auto.
Qed.

(** C26 on a whole stylesheet. *)
Lemma C26_lemma : forall n pre a lsp qs pres post out t', o_cmedia o = true ->
  ar_name a = B "media" -> ar_preludes a = APMql (lsp, qs) :: pres ->
  (o_ranges o = true -> Forall (fun q : mquery => Forall inclusive (snd q)) qs) ->
  (forall x q, mediaEnvOf pre x = Some q -> flatDef q) ->
  transformNodes o None (S n) (pre ++ NAt a :: post) (initState o None) = TOk out t' ->
  exists opre qs' opost,
    out = opre ++ NAt (mkAt (ar_run a) (ar_sp a) (ar_name a) (APMql (lsp, qs') :: pres) (ar_block a)) :: opost /\
    forall d, listHolds d noMedia qs' <-> listHolds d (mediaEnvOf pre) qs.
Proof.
  intros n pre a lsp qs pres post out t' Ho Hn Hp Hi Hf H.
  apply nodes_app in H as (oa & t1 & ob & H1 & H2 & ->).
  pose proof (nodes_defs _ _ _ _ _ H1) as Hd. unfold initState in Hd. cbn [t_cmedia] in Hd. rewrite Ho in Hd.
  rewrite nodes_cons in H2. apply tbind_ok in H2 as (h & t2 & H3 & H2). apply tbind_ok in H2 as (rs & t3 & H4 & H2).
  apply tret_ok in H2 as [<- <-]. cbn [oneNode] in H3. rewrite Hn in H3. cbn [beq] in H3.
  change (beq (B "media") (B "import")) with false in H3. change (beq (B "media") (B "custom-media")) with false in H3.
  change (beq (B "media") (B "media")) with true in H3. rewrite Hp in H3.
  apply tbind_ok in H3 as (qs' & t4 & H5 & H3). apply tret_ok in H3 as [<- <-].
  exists oa, qs', rs. split; [rewrite Hn; reflexivity|]. intros d.
  assert (He : forall x, envOf (t_cmedia t1) x = mediaEnvOf pre x) by (rewrite Hd; apply env_agree).
  destruct (queries_spec d qs t1 Hi) as (qs2 & H6 & H7); [intros x q; rewrite He; apply Hf|].
  rewrite H6 in H5. inversion H5; subst qs2. rewrite H7. apply listHolds_ext. exact He.
Qed.
End F.
