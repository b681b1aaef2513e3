(** Strict ranges: C25.  The bounds of a strict range are moved by .001; what
    that does to the devices it holds for. *)
From Coq Require Import QArith Lqa.
From Verif Require Import Bytes Utf8 Source Lexer Ast AstInd BytesFacts Transformer TransSpec TransProofs TransMedia.

Section Gap.
Context {FO : FloatOps}.
(** [val f] is the real number a float stands for, [px u] the size of unit [u]
    on device [d]. *)
Variables (d : device) (val : F -> Q) (px : bytes -> Q) (g : Q).
Definition measures : Prop :=
  (forall u, 0 < px u)%Q /\ forall sp n u f, fparse n = Some f -> (size d (VDim sp n u) == val f * px u)%Q.
(** Adding or subtracting .001 moves [f], by [g] at most. *)
Definition moves (f : F) : Prop :=
  (val f < val (fadd f fthousandth) /\ val (fadd f fthousandth) <= val f + g /\
   val (fadd f (fneg fthousandth)) < val f /\ val f - g <= val (fadd f (fneg fthousandth)))%Q.
(** A bound that is absent or a number that moves. *)
Definition boundOk (v : value) : Prop :=
  v = VNil \/ exists sp n u f, v = VDim sp n u /\ fparse n = Some f /\ moves f.
(** The feature is closer to the bound than [g] units. *)
Definition near (f : bytes) (v : value) : Prop :=
  exists sp n u, v = VDim sp n u /\ (size d v - g * px u < feat d f /\ feat d f < size d v + g * px u)%Q.
End Gap.

Section G.
Context {FO : FloatOps}.
Variable o : topts.
Lemma scale : forall a b c, (0 < c -> a <= b -> a * c <= b * c)%Q.
Proof. intros a b c H K. apply Qmult_le_compat_r; [exact K|apply Qlt_le_weak; exact H]. Qed.
Lemma scale_lt : forall a b c, (0 < c -> a < b -> a * c < b * c)%Q.
Proof. intros a b c H K. apply Qmult_lt_compat_r; assumption. Qed.

(** One side after the move, by direction. *)
Lemma side_up : forall d val px g v, (forall f, fparse (fformat f) = Some f) -> measures d val px ->
  boundOk val g v -> v <> VNil ->
  exists v', adjusted fthousandth v v' /\ (size d v < size d v')%Q /\
    forall q, (size d v < q -> ~ size d v' <= q -> exists sp n u, v = VDim sp n u /\ q < size d v + g * px u)%Q.
Proof.
  intros d val px g v RT [Hp Hs] [->|(sp & n & u & f & -> & Hf & M1 & M2 & _)] Hn; [congruence|].
  exists (VDim zsp (fformat (fadd f fthousandth)) u).
  assert (E1 := Hs sp n u f Hf). assert (E2 := Hs zsp (fformat (fadd f fthousandth)) u _ (RT _)).
  assert (L := scale_lt _ _ _ (Hp u) M1). assert (U := scale _ _ _ (Hp u) M2).
  split; [repeat eexists; eauto|]. split; [lra|]. intros q H1 H2. exists sp, n, u. split; [reflexivity|].
  apply Qnot_le_lt in H2. lra.
Qed.
Lemma side_dn : forall d val px g v, (forall f, fparse (fformat f) = Some f) -> measures d val px ->
  boundOk val g v -> v <> VNil ->
  exists v', adjusted (fneg fthousandth) v v' /\ (size d v' < size d v)%Q /\
    forall q, (q < size d v -> ~ q <= size d v' -> exists sp n u, v = VDim sp n u /\ size d v - g * px u < q)%Q.
Proof.
  intros d val px g v RT [Hp Hs] [->|(sp & n & u & f & -> & Hf & _ & _ & M1 & M2)] Hn; [congruence|].
  exists (VDim zsp (fformat (fadd f (fneg fthousandth))) u).
  assert (E1 := Hs sp n u f Hf). assert (E2 := Hs zsp (fformat (fadd f (fneg fthousandth))) u _ (RT _)).
  assert (L := scale_lt _ _ _ (Hp u) M1). assert (U := scale _ _ _ (Hp u) M2).
  split; [repeat eexists; eauto|]. split; [lra|]. intros q H1 H2. exists sp, n, u. split; [reflexivity|].
  apply Qnot_le_lt in H2. lra.
Qed.

Lemma compares_lt : forall a b, compares (B "<") a b <-> (a < b)%Q.
Proof. intros a b. unfold compares. split; [|auto]. intros [[_ H]|[[H _]|[[H _]|[H _]]]]; auto; discriminate. Qed.
Lemma compares_gt : forall a b, compares (B ">") a b <-> (b < a)%Q.
Proof. intros a b. unfold compares. split; [|auto]. intros [[H _]|[[H _]|[[_ H]|[H _]]]]; auto; discriminate. Qed.


(** Both sides and both operators. *)
Lemma side_lo : forall d val px g f v, (forall x, fparse (fformat x) = Some x) -> measures d val px -> boundOk val g v ->
  exists v', (v = VNil \/ adjusted fthousandth v v') /\
    (v = VNil \/ (size d v' <= feat d f)%Q -> v = VNil \/ (size d v < feat d f)%Q) /\
    (v = VNil \/ (size d v < feat d f)%Q -> (v = VNil \/ (size d v' <= feat d f)%Q) \/ near d px g f v).
Proof.
  intros d val px g f v RT HM HB. destruct (nil_dec v) as [E|E]; [exists VNil; tauto|].
  destruct (side_up d val px g v RT HM HB E) as (v' & A & L1 & L2). exists v'. split; [auto|]. split.
  - intros [C|C]; [auto|]. right. lra.
  - intros [C|C]; [auto|]. destruct (Qlt_le_dec (feat d f) (size d v')) as [Q1|Q1]; [|auto].
    right. destruct (L2 (feat d f) C) as (s1 & n1 & u1 & -> & X); [apply Qlt_not_le; exact Q1|].
    exists s1, n1, u1. split; [reflexivity|]. assert (PX := proj1 HM u1).
    assert (GP : (0 < g)%Q).
    { destruct HB as [HB|(sp1 & n2 & u2 & x & _ & _ & M1 & M2 & _)]; [discriminate|]. lra. }
    assert (Y := scale_lt _ _ _ PX GP). split; [lra|exact X].
Qed.
Lemma side_hi : forall d val px g f v, (forall x, fparse (fformat x) = Some x) -> measures d val px -> boundOk val g v ->
  exists v', (v = VNil \/ adjusted (fneg fthousandth) v v') /\
    (v = VNil \/ (feat d f <= size d v')%Q -> v = VNil \/ (feat d f < size d v)%Q) /\
    (v = VNil \/ (feat d f < size d v)%Q -> (v = VNil \/ (feat d f <= size d v')%Q) \/ near d px g f v).
Proof.
  intros d val px g f v RT HM HB. destruct (nil_dec v) as [E|E]; [exists VNil; tauto|].
  destruct (side_dn d val px g v RT HM HB E) as (v' & A & L1 & L2). exists v'. split; [auto|]. split.
  - intros [C|C]; [auto|]. right. lra.
  - intros [C|C]; [auto|]. destruct (Qlt_le_dec (size d v') (feat d f)) as [Q1|Q1]; [|auto].
    right. destruct (L2 (feat d f) C) as (s1 & n1 & u1 & -> & X); [apply Qlt_not_le; exact Q1|].
    exists s1, n1, u1. split; [reflexivity|]. assert (PX := proj1 HM u1).
    assert (GP : (0 < g)%Q).
    { destruct HB as [HB|(sp1 & n2 & u2 & x & _ & _ & M1 & M2 & _)]; [discriminate|]. lra. }
    assert (Y := scale_lt _ _ _ PX GP). split; [exact X|lra].
Qed.
Lemma range_gap : forall d val px g sp psp f lhs op rhs t,
  o_ranges o = true -> (op = B "<" \/ op = B ">") ->
  (forall x, fparse (fformat x) = Some x) -> measures d val px -> boundOk val g lhs -> boundOk val g rhs ->
  exists ps, transformRange o (MRange sp psp f lhs op rhs) psp f lhs op rhs t = TOk ps t /\
    (Forall (simplePart d) ps -> rangeHolds d f lhs op rhs) /\
    (rangeHolds d f lhs op rhs -> Forall (simplePart d) ps \/ near d px g f lhs \/ near d px g f rhs).
Proof.
  intros d val px g sp psp f lhs op rhs t Ho Hop RT HM HL HR.
  assert (C1 : forall a b : Q, B "<" = B "<" /\ (a <= b)%Q \/ B "<" = B ">" /\ (b <= a)%Q <-> (a <= b)%Q).
  { intros a b. split; [intros [[_ H]|[H _]]; [auto|discriminate]|auto]. }
  assert (C2 : forall a b : Q, B ">" = B "<" /\ (a <= b)%Q \/ B ">" = B ">" /\ (b <= a)%Q <-> (b <= a)%Q).
  { intros a b. split; [intros [[H _]|[_ H]]; [discriminate|auto]|auto]. }
  destruct Hop as [-> | ->].
  - destruct (side_lo d val px g f lhs RT HM HL) as (l' & L1 & L2 & L3).
    destruct (side_hi d val px g f rhs RT HM HR) as (r' & R1 & R2 & R3).
    destruct (range_strict o d sp psp f lhs (B "<") rhs t fthousandth (fneg fthousandth) l' r' Ho) as (ps & E & K); auto.
    exists ps. split; [exact E|]. rewrite K. unfold rangeHolds. rewrite !compares_lt, !C1. split; [intros [A C]; split; [apply L2, A|apply R2, C]|intros [A C]; destruct (L3 A) as [A1|A1]; [|auto]; destruct (R3 C) as [C3|C3]; [left; split; assumption|auto]].
  - destruct (side_hi d val px g f lhs RT HM HL) as (l' & L1 & L2 & L3).
    destruct (side_lo d val px g f rhs RT HM HR) as (r' & R1 & R2 & R3).
    destruct (range_strict o d sp psp f lhs (B ">") rhs t (fneg fthousandth) fthousandth l' r' Ho) as (ps & E & K); auto.
    exists ps. split; [exact E|]. rewrite K. unfold rangeHolds. rewrite !compares_gt, !C2. split; [intros [A C]; split; [apply L2, A|apply R2, C]|intros [A C]; destruct (L3 A) as [A1|A1]; [|auto]; destruct (R3 C) as [C3|C3]; [left; split; assumption|auto]].
Qed.
(** When adding .001 does not change the number the bound itself is admitted. *)
Lemma gap_lost : forall d sp psp f vsp n u x t,
  o_ranges o = true -> fparse n = Some x -> fadd x fthousandth = x -> fformat x = n ->
  (forall s1 s2 m w, size d (VDim s1 m w) = size d (VDim s2 m w)) ->
  (feat d f == size d (VDim vsp n u))%Q ->
  exists ps, transformRange o (MRange sp psp f (VDim vsp n u) (B "<") VNil) psp f (VDim vsp n u) (B "<") VNil t = TOk ps t /\
    Forall (simplePart d) ps /\ ~ rangeHolds d f (VDim vsp n u) (B "<") VNil.
Proof.
  intros d sp psp f vsp n u x t Ho Hp Ha Hf Hs He.
  destruct (range_strict o d sp psp f (VDim vsp n u) (B "<") VNil t fthousandth (fneg fthousandth) (VDim zsp n u) VNil Ho) as (ps & E & K); auto.
  { right. exists vsp, n, u, x. rewrite Ha, Hf. auto. }
  exists ps. split; [exact E|]. rewrite K. split.
  - split; [|auto]. right. left. split; [reflexivity|]. rewrite (Hs zsp vsp), He. apply Qle_refl.
  - unfold rangeHolds. rewrite !compares_lt. intros [[X|X] _]; [discriminate|]. rewrite He in X. apply Qlt_irrefl in X. exact X.
Qed.
End G.
