(** Proofs about the mappings string and the source map comment. *)
From Verif Require Import Bytes BytesFacts Utf8 Source LexSpec SourceSpec SourceProofs Ast AstInd Vlq VlqSpec VlqProofs Printer PrinterSpec PrinterProofs.

(** * Rendering and reading *)
Fixpoint joinC (c : byte) (l : list bytes) : bytes :=
  match l with [] => [] | x :: r => match r with [] => x | _ => x ++ c :: joinC c r end end.
Lemma joinC_cons c x y r : joinC c (x :: y :: r) = x ++ c :: joinC c (y :: r).
Proof. reflexivity. Qed.
Lemma joinC_snoc c l x : l <> [] -> joinC c (l ++ [x]) = joinC c l ++ c :: x.
Proof.
  induction l as [|y l IH]; [congruence|]. intros _. destruct l as [|z l].
  - reflexivity.
  - change ((y :: z :: l) ++ [x]) with (y :: z :: (l ++ [x])). rewrite !joinC_cons.
    change (z :: l ++ [x]) with ((z :: l) ++ [x]). rewrite IH by discriminate.
    rewrite <- app_assoc. reflexivity.
Qed.

Lemma splitAt_none c x : ~ In c x -> splitAt c x = [x].
Proof.
  induction x as [|b x IH]; intros N; simpl in *; auto.
  destruct (Byte.eqb b c) eqn:E; [apply byte_eqb_eq in E; subst; exfalso; auto|].
  rewrite IH by auto. reflexivity.
Qed.
Lemma splitAt_app c x r : ~ In c x -> splitAt c (x ++ c :: r) = x :: splitAt c r.
Proof.
  induction x as [|b x IH]; intros N; simpl in *.
  - assert (Byte.eqb c c = true) as -> by (apply byte_eqb_eq; auto). reflexivity.
  - destruct (Byte.eqb b c) eqn:E; [apply byte_eqb_eq in E; subst; exfalso; auto|].
    rewrite IH by auto. reflexivity.
Qed.
Lemma splitAt_join c l : l <> [] -> Forall (fun x => ~ In c x) l -> splitAt c (joinC c l) = l.
Proof.
  induction l as [|x l IH]; [congruence|]. intros _ H. inversion H as [|? ? Hx Hl]; subst.
  destruct l as [|y l].
  - apply splitAt_none; auto.
  - rewrite joinC_cons, splitAt_app by auto. f_equal. apply IH; auto. discriminate.
Qed.
Lemma in_joinC c b l : In b (joinC c l) -> b = c \/ exists x, In x l /\ In b x.
Proof.
  induction l as [|x l IH]; simpl; [tauto|]. destruct l as [|y l].
  - intro; right; exists x; auto.
  - intros H. apply in_app_or in H as [H|[H|H]]; auto.
    + right; exists x; auto.
    + destruct (IH H) as [->|(z & ? & ?)]; auto. right; exists z; auto.
Qed.

Notation seg := (Z * Z * Z * Z)%type.
Definition rseg (s : seg) : bytes :=
  let '(a, b, c, d) := s in vlqEncode a ++ vlqEncode b ++ vlqEncode c ++ vlqEncode d.
Definition small (z : Z) : Prop := Z.abs z < 1073741824.
Definition segOk (s : seg) : Prop := let '(a, b, c, d) := s in small a /\ small b /\ small c /\ small d.
Definition rline (l : list seg) : bytes := joinC ","%byte (map rseg l).
Definition rlines (ls : list (list seg)) : bytes := joinC ";"%byte (map rline ls).

Lemma read_rseg s : segOk s -> readSegment (rseg s) = Some s.
Proof.
  destruct s as [[[a b] c] d]. intros (A & Bb & C & D). unfold readSegment, rseg.
  rewrite (proj2 (C20_lemma a _ A)), (proj2 (C20_lemma b _ Bb)), (proj2 (C20_lemma c _ C)).
  rewrite <- (app_nil_r (vlqEncode d)), (proj2 (C20_lemma d _ D)). reflexivity.
Qed.
Lemma b64at_sep i : 0 <= i < 64 -> b64at i <> ","%byte /\ b64at i <> ";"%byte /\ b64at i <> "*"%byte.
Proof.
  intros H.
  assert (forallb (fun k => negb (Byte.eqb (b64at (Z.of_nat k)) ","%byte) && negb (Byte.eqb (b64at (Z.of_nat k)) ";"%byte) && negb (Byte.eqb (b64at (Z.of_nat k)) "*"%byte)) (seq 0 64) = true) as F by (vm_compute; reflexivity).
  rewrite forallb_forall in F. specialize (F (Z.to_nat i)). rewrite Z2Nat.id in F by lia.
  assert (In (Z.to_nat i) (seq 0 64)) as I by (apply in_seq; lia). specialize (F I).
  apply andb_true_iff in F as [F F3]. apply andb_true_iff in F as [F1 F2].
  apply negb_true_iff in F1, F2, F3.
  repeat split; intro X; apply byte_eqb_eq in X; congruence.
Qed.
Lemma rseg_sep s b : In b (rseg s) -> b <> ","%byte /\ b <> ";"%byte.
Proof.
  destruct s as [[[x y] z] t]. unfold rseg. rewrite !in_app_iff.
  intros H. assert (exists v, In b (vlqEncode v)) as (v & Hv) by (destruct H as [|[|[|]]]; eauto).
  apply vlqEncode_alpha in Hv as (i & Hi & ->). destruct (b64at_sep i Hi) as (? & ? & ?); auto.
Qed.
Lemma rseg_ne s : rseg s <> [].
Proof.
  destruct s as [[[x y] z] t]. unfold rseg. intro H. apply app_eq_nil in H as [H _].
  exact (vlqEncode_nonempty x H).
Qed.
Lemma sequence_map {A B} (f : A -> option B) (g : B -> A) l :
  Forall (fun x => f (g x) = Some x) l -> sequence (map f (map g l)) = Some l.
Proof. induction 1 as [|x l H _ IH]; simpl; auto. rewrite H, IH. reflexivity. Qed.
Lemma read_rline l : Forall segOk l -> readLine (rline l) = Some l.
Proof.
  intros H. unfold readLine. destruct (rline l) as [|b r] eqn:E.
  - destruct l as [|s l]; auto. exfalso. unfold rline in E. simpl in E.
    destruct (map rseg l); [exact (rseg_ne s E)|]. apply app_eq_nil in E as [_ E]. discriminate.
  - rewrite <- E. unfold rline. rewrite splitAt_join.
    + apply sequence_map. eapply Forall_impl; [|exact H]. intros; apply read_rseg; auto.
    + destruct l; [discriminate E|discriminate].
    + apply Forall_forall. intros x Hx C. apply in_map_iff in Hx as (s & <- & _).
      apply rseg_sep in C as [C _]. congruence.
Qed.
Lemma read_rlines ls : ls <> [] -> Forall (Forall segOk) ls -> readMappings (rlines ls) = Some (absLines 0 0 0 0 ls).
Proof.
  intros N H. unfold readMappings, rlines. rewrite splitAt_join.
  - rewrite sequence_map; auto. eapply Forall_impl; [|exact H]. intros; apply read_rline; auto.
  - destruct ls; [congruence|discriminate].
  - apply Forall_forall. intros x Hx C. apply in_map_iff in Hx as (l & <- & _).
    apply in_joinC in C as [C|(y & Hy & C)]; [discriminate|].
    apply in_map_iff in Hy as (s & <- & _). apply rseg_sep in C as [_ C]. congruence.
Qed.

(** * Adding segments at the end *)
(** Where the reader stands after the lines: line, generated column, source,
    original line and column. *)
Fixpoint lineEnd (gc sr l c : Z) (segs : list seg) : Z * Z * Z * Z :=
  match segs with
  | [] => (gc, sr, l, c)
  | (a, b, x, y) :: r => lineEnd (gc + a) (sr + b) (l + x) (c + y) r
  end.
Fixpoint linesEnd (line sr l c : Z) (ls : list (list seg)) : Z * Z * Z * Z * Z :=
  match ls with
  | [] => (line, 0, sr, l, c)
  | segs :: r =>
    let '(gc, sr', l', c') := lineEnd 0 sr l c segs in
    match r with
    | [] => (line, gc, sr', l', c')
    | _ => linesEnd (line + 1) sr' l' c' r
    end
  end.

Lemma absLine_end segs : forall line gc sr l c,
  snd (absLine line gc sr l c segs) = let '(_, sr', l', c') := lineEnd gc sr l c segs in (sr', l', c').
Proof.
  induction segs as [|[[[a b] x] y] segs IH]; intros; simpl; auto.
  specialize (IH line (gc + a) (sr + b) (l + x) (c + y)).
  destruct (absLine line (gc + a) (sr + b) (l + x) (c + y) segs) as [ms st]. exact IH.
Qed.
Lemma absLine_snoc segs a b x y : forall line gc sr l c,
  fst (absLine line gc sr l c (segs ++ [(a, b, x, y)])) =
  fst (absLine line gc sr l c segs) ++
  (let '(gc', sr', l', c') := lineEnd gc sr l c segs in [mkMapping line (gc' + a) (sr' + b) (l' + x) (c' + y)]) /\
  lineEnd gc sr l c (segs ++ [(a, b, x, y)]) =
  let '(gc', sr', l', c') := lineEnd gc sr l c segs in (gc' + a, sr' + b, l' + x, c' + y).
Proof.
  induction segs as [|[[[a' b'] x'] y'] segs IH]; intros; simpl; auto.
  destruct (IH line (gc + a') (sr + b') (l + x') (c + y')) as [E1 E2]. rewrite E2. split; auto.
  destruct (absLine _ _ _ _ _ (segs ++ _)) as [m1 s1], (absLine _ _ _ _ _ segs) as [m2 s2].
  simpl in *. rewrite E1. reflexivity.
Qed.

Lemma absLines_newline ls : ls <> [] -> forall line sr l c,
  absLines line sr l c (ls ++ [[]]) = absLines line sr l c ls /\
  linesEnd line sr l c (ls ++ [[]]) =
    let '(line', _, sr', l', c') := linesEnd line sr l c ls in (line' + 1, 0, sr', l', c').
Proof.
  induction ls as [|segs ls IH]; [congruence|]. intros _ line sr l c.
  cbn [absLines linesEnd app]. pose proof (absLine_end segs line 0 sr l c) as E.
  destruct (absLine line 0 sr l c segs) as [ms [[sr1 l1] c1]]. simpl in E.
  destruct (lineEnd 0 sr l c segs) as [[[gc' sr'] l'] c']. injection E as -> -> ->.
  destruct ls as [|segs2 ls].
  - simpl. auto.
  - destruct (IH ltac:(discriminate) (line + 1) sr' l' c') as [E1 E2]. split.
    + f_equal. exact E1.
    + exact E2.
Qed.
Lemma absLines_newlines k ls : ls <> [] -> forall line sr l c,
  absLines line sr l c (ls ++ repeat [] k) = absLines line sr l c ls /\
  linesEnd line sr l c (ls ++ repeat [] k) =
    let '(line', gc, sr', l', c') := linesEnd line sr l c ls in
    (line' + Z.of_nat k, (match k with O => gc | _ => 0 end), sr', l', c').
Proof.
  intros N. induction k as [|k IH]; intros line sr l c.
  - simpl repeat. rewrite app_nil_r. split; auto.
    destruct (linesEnd line sr l c ls) as [[[[? ?] ?] ?] ?]. rewrite Z.add_0_r. reflexivity.
  - assert (ls ++ repeat [] (S k) = (ls ++ repeat [] k) ++ [[]]) as ->.
    { cbn [repeat]. rewrite repeat_cons, app_assoc. reflexivity. }
    destruct (absLines_newline (ls ++ repeat [] k)) with (line := line) (sr := sr) (l := l) (c := c) as [E1 E2].
    { destruct ls; [congruence|discriminate]. }
    destruct (IH line sr l c) as [F1 F2]. rewrite E1, E2, F1, F2. split; auto.
    destruct (linesEnd line sr l c ls) as [[[[? ?] ?] ?] ?]. f_equal. f_equal. f_equal. f_equal. lia.
Qed.
Lemma absLines_seg ls last s : forall line sr l c,
  let '(a, b, x, y) := s in
  let '(line', gc, sr', l', c') := linesEnd line sr l c (ls ++ [last]) in
  absLines line sr l c (ls ++ [last ++ [s]]) =
    absLines line sr l c (ls ++ [last]) ++ [mkMapping line' (gc + a) (sr' + b) (l' + x) (c' + y)] /\
  linesEnd line sr l c (ls ++ [last ++ [s]]) = (line', gc + a, sr' + b, l' + x, c' + y).
Proof.
  destruct s as [[[a b] x] y]. induction ls as [|segs ls IH]; intros line sr l c.
  - cbn [app absLines linesEnd].
    destruct (absLine_snoc last a b x y line 0 sr l c) as [E1 E2].
    rewrite E2. destruct (lineEnd 0 sr l c last) as [[[gc' sr'] l'] c'].
    destruct (absLine line 0 sr l c (last ++ _)) as [m1 [[? ?] ?]], (absLine line 0 sr l c last) as [m2 [[? ?] ?]].
    simpl in *. rewrite E1, !app_nil_r. auto.
  - cbn [app absLines linesEnd]. pose proof (absLine_end segs line 0 sr l c) as E.
    destruct (absLine line 0 sr l c segs) as [ms [[sr1 l1] c1]]. simpl in E.
    destruct (lineEnd 0 sr l c segs) as [[[gc1 sr'] l'] c']. injection E as -> -> ->.
    specialize (IH (line + 1) sr' l' c').
    assert (forall z, exists h t, ls ++ [z] = h :: t) as NE by (intros z; destruct ls; simpl; eauto).
    destruct (NE last) as (h1 & t1 & Q1), (NE (last ++ [(a, b, x, y)])) as (h2 & t2 & Q2).
    rewrite Q1, Q2 in *.
    destruct (linesEnd (line + 1) sr' l' c' (h1 :: t1)) as [[[[? ?] ?] ?] ?].
    destruct IH as [I1 I2]. rewrite I1, I2, app_assoc. auto.
Qed.

Lemma rlines_newline ls : ls <> [] -> rlines (ls ++ [[]]) = rlines ls ++ B ";".
Proof.
  intros N. unfold rlines. rewrite map_app. simpl. rewrite joinC_snoc; [reflexivity|]. destruct ls; [congruence|discriminate].
Qed.
Lemma rlines_newlines k ls : ls <> [] -> rlines (ls ++ repeat [] k) = rlines ls ++ repeatB (B ";") k.
Proof.
  intros N. induction k as [|k IH].
  - simpl. rewrite !app_nil_r. reflexivity.
  - assert (ls ++ repeat [] (S k) = (ls ++ repeat [] k) ++ [[]]) as ->.
    { cbn [repeat]. rewrite repeat_cons, app_assoc. reflexivity. }
    rewrite rlines_newline, IH by (destruct ls; [congruence|discriminate]).
    assert (forall j, repeatB (B ";") j ++ B ";" = repeatB (B ";") (S j)) as R.
    { induction j; simpl in *; auto. rewrite IHj. reflexivity. }
    rewrite <- app_assoc, R. reflexivity.
Qed.
Lemma rlines_seg ls last s :
  rlines (ls ++ [last ++ [s]]) = rlines (ls ++ [last]) ++ (match last with [] => [] | _ => B "," end) ++ rseg s.
Proof.
  assert (rline (last ++ [s]) = rline last ++ (match last with [] => [] | _ => B "," end) ++ rseg s) as E.
  { unfold rline. rewrite map_app. destruct last as [|t last]; [reflexivity|].
    cbn [map]. change (map rseg (t :: last) ++ [rseg s]) with (map rseg (t :: last) ++ [rseg s]).
    rewrite joinC_snoc by discriminate. reflexivity. }
  unfold rlines. rewrite !map_app. cbn [map]. destruct ls as [|z ls].
  - simpl. exact E.
  - rewrite !joinC_snoc by discriminate. rewrite E, <- !app_assoc. reflexivity.
Qed.
(** The last byte of the mappings. *)
Lemma rlines_end_semi ls : ls <> [] -> exists u, rlines (ls ++ [[]]) = u ++ [";"%byte].
Proof. intros N. rewrite rlines_newline by auto. exists (rlines ls). reflexivity. Qed.
Lemma rlines_end_seg ls last : last <> [] -> exists u b, rlines (ls ++ [last]) = u ++ [b] /\ b <> ";"%byte.
Proof.
  intros N. destruct (exists_last N) as (l & s & ->). rewrite rlines_seg.
  destruct (exists_last (rseg_ne s)) as (r & b & E).
  exists (rlines (ls ++ [l]) ++ (match l with [] => [] | _ => B "," end) ++ r), b.
  rewrite E, <- !app_assoc. split; [reflexivity|].
  apply (rseg_sep s). rewrite E. apply in_or_app; simpl; auto.
Qed.

(** * Counting characters *)
Lemma decode_ascii a c t : bz c < 128 ->
  decodeRune (a ++ c :: t) = decodeRune (a ++ [c]).
Proof.
  intros C.
  assert (isCont (bz c) = false) as IC by (unfold isCont; destruct (Z.leb_spec 128 (bz c)); auto; lia).
  assert (forall lo hi, 128 <= lo -> (lo <=? bz c) && (bz c <=? hi) = false) as LC.
  { intros lo hi L. destruct (Z.leb_spec lo (bz c)); auto; lia. }
  destruct a as [|x [|y [|z [|u a]]]]; try reflexivity; unfold decodeRune; cbn [app].
  - destruct (Z.ltb_spec (bz c) 128); auto; lia.
  - destruct (bz x <? 128); auto. destruct ((bz x <? 194) || (244 <? bz x)); auto.
    destruct (bz x <? 224); [rewrite IC; auto|].
    rewrite LC; [reflexivity|]. destruct (bz x =? 224); [lia|]. destruct (bz x =? 240); lia.
  - destruct (bz x <? 128); auto. destruct ((bz x <? 194) || (244 <? bz x)); auto.
    destruct (bz x <? 224); auto. destruct (negb _); auto. rewrite IC. reflexivity.
Qed.

Lemma decode_width s : s <> [] -> (1 <= snd (decodeRune s) <= length s)%nat.
Proof.
  destruct s as [|c r]; [congruence|]. intros _. destruct (decodeRune (c :: r)) as [cp n] eqn:E.
  apply decodeRune_cons in E as (E & _). simpl. lia.
Qed.
Lemma runesFuel_enough f : forall g s, (length s <= f)%nat -> (length s <= g)%nat -> runesFuel f s = runesFuel g s.
Proof.
  induction f as [|f IH]; intros g s F G.
  - destruct s; [|simpl in F; lia]. destruct g; reflexivity.
  - destruct s as [|c r]; [destruct g; reflexivity|]. destruct g as [|g]; [simpl in G; lia|].
    cbn [runesFuel]. pose proof (decode_width (c :: r) ltac:(discriminate)) as Wd.
    destruct (decodeRune (c :: r)) as [cp n]. cbn [snd] in Wd. f_equal. apply IH; rewrite skipn_length; cbn [length] in *; unfold bytes in *; lia.
Qed.
Lemma runes_step s : s <> [] -> runes s = fst (decodeRune s) :: runes (skipn (snd (decodeRune s)) s).
Proof.
  intros N. unfold runes. destruct s as [|c r]; [congruence|].
  pose proof (decode_width (c :: r) N) as Wd. cbn [runesFuel length] in *.
  destruct (decodeRune (c :: r)) as [cp n]. cbn [fst snd] in *. f_equal.
  apply runesFuel_enough; rewrite ?skipn_length; cbn [length]; unfold bytes in *; lia.
Qed.
Lemma runes_nil : runes [] = []. Proof. reflexivity. Qed.
Lemma runes_app s t : asciiEnd s -> runes (s ++ t) = runes s ++ runes t.
Proof.
  intros (u & c & -> & C). remember (length u) as n eqn:Hn.
  revert u Hn. induction n as [n IH] using lt_wf_ind. intros u ->.
  rewrite (runes_step (u ++ [c])) by (destruct u; discriminate).
  assert ((u ++ [c]) ++ t = u ++ c :: t) as E by (rewrite <- app_assoc; reflexivity).
  rewrite (runes_step ((u ++ [c]) ++ t)) by (destruct u; discriminate).
  rewrite E at 1 2. rewrite decode_ascii by auto.
  pose proof (decode_width (u ++ [c]) ltac:(destruct u; discriminate)) as Wd.
  set (k := snd (decodeRune (u ++ [c]))) in *. rewrite app_length in Wd. simpl in Wd. cbn [app]. f_equal.
  rewrite skipn_app. assert (k - length (u ++ [c]) = 0)%nat as Z by (rewrite app_length; simpl; lia). rewrite Z. cbn [skipn].
  destruct (Nat.eq_dec k (length u + 1)) as [K|K].
  - rewrite skipn_all2 by (rewrite app_length; simpl; lia). reflexivity.
  - rewrite skipn_app. assert (k - length u = 0)%nat as -> by lia. cbn [skipn].
    apply (IH (length (skipn k u))); auto. rewrite skipn_length. lia.
Qed.
Lemma runes_length s : (length (runes s) <= length s)%nat.
Proof.
  remember (length s) as n eqn:Hn. revert s Hn. induction n as [n IH] using lt_wf_ind. intros s ->.
  destruct s as [|c r]; [simpl; lia|]. rewrite runes_step by discriminate.
  pose proof (decode_width (c :: r) ltac:(discriminate)) as Wd.
  set (k := snd (decodeRune (c :: r))) in *. cbn [length].
  specialize (IH (length (skipn k (c :: r)))). rewrite skipn_length in IH. cbn [length] in *.
  specialize (IH ltac:(lia) (skipn k (c :: r)) ltac:(rewrite skipn_length; reflexivity)). lia.
Qed.

Lemma walkRunes_app a : forall b l c, walkRunes l c (a ++ b) = let '(l', c') := walkRunes l c a in walkRunes l' c' b.
Proof. induction a as [|r a IH]; intros; simpl; auto. destruct (r =? 10); apply IH. Qed.
Lemma walkRunes_bounds rs : forall l c, 0 <= c -> 0 <= l ->
  let '(l', c') := walkRunes l c rs in l <= l' /\ 0 <= c' /\ c' <= c + Z.of_nat (length rs).
Proof.
  induction rs as [|r rs IH]; intros l c Hc Hl; cbn [walkRunes length].
  - lia.
  - destruct (r =? 10).
    + specialize (IH (l + 1) 0 ltac:(lia) ltac:(lia)). destruct (walkRunes (l + 1) 0 rs). lia.
    + specialize (IH l (c + 1) ltac:(lia) ltac:(lia)). destruct (walkRunes l (c + 1) rs). lia.
Qed.

(** What the loop of addMapping computes. *)
Lemma mapLoop_spec rs : forall last new l, 0 <= new -> new + Z.of_nat (length rs) < 2147483648 ->
  exists k, mapLoop last new rs =
    (match k with O => last | _ => 0 end, snd (walkRunes l new rs), repeatB (B ";") k)
    /\ fst (walkRunes l new rs) = l + Z.of_nat k.
Proof.
  induction rs as [|r rs IH]; intros last new l N Bd; cbn [mapLoop walkRunes].
  - exists 0%nat. simpl. split; auto; lia.
  - cbn [length] in Bd. destruct (r =? 10).
    + destruct (IH 0 0 (l + 1) ltac:(lia) ltac:(lia)) as (k & -> & E).
      exists (S k). split; [|lia]. destruct k; reflexivity.
    + rewrite wrap32_small by lia. destruct (IH last (new + 1) l ltac:(lia) ltac:(lia)) as (k & E & F).
      exists k. auto.
Qed.

(** * The printer's state *)
Record inv (s : source) (p : pstate) (done : list (bytes * span)) (init : list (list seg)) (last : list seg) : Prop := {
  i_map : p_map p = rlines (init ++ [last]);
  i_ok : Forall (Forall segOk) (init ++ [last]);
  i_abs : absLines 0 0 0 0 (init ++ [last]) = map (expected s) done;
  i_end : linesEnd 0 0 0 0 (init ++ [last]) =
    (fst (textEnd (firstn (p_lastWritten p) (p_s p))), p_gc p, 0, p_ol p, p_oc p);
  i_gc : snd (textEnd (firstn (p_lastWritten p) (p_s p))) = p_gc p;
  i_lw : (p_lastWritten p <= length (p_s p))%nat;
  i_cut : firstn (p_lastWritten p) (p_s p) = [] \/ asciiEnd (firstn (p_lastWritten p) (p_s p));
  i_done : match done with [] => init = [] /\ last = [] | _ => last <> [] end;
  i_ol : 0 <= p_ol p < 1073741824;
  i_oc : 0 <= p_oc p < 1073741824 }.

Lemma textEnd_bounds t : textOk t -> 0 <= fst (textEnd t) /\ 0 <= snd (textEnd t) < 1073741824.
Proof.
  intros H. unfold textEnd, textOk in *. pose proof (walkRunes_bounds (runes t) 0 0 ltac:(lia) ltac:(lia)) as Wb.
  pose proof (runes_length t). destruct (walkRunes 0 0 (runes t)). simpl. lia.
Qed.

Lemma inv_write s p done init last t : inv s p done init last ->
  inv s (mkP (p_s p ++ t) (p_map p) (p_lastWritten p) (p_gc p) (p_ol p) (p_oc p)) done init last.
Proof.
  intros [M O A E G L C D X Y].
  assert (firstn (p_lastWritten p) (p_s p ++ t) = firstn (p_lastWritten p) (p_s p)) as F.
  { rewrite firstn_app. assert (p_lastWritten p - length (p_s p) = 0)%nat as -> by lia. simpl. apply app_nil_r. }
  constructor; cbn [p_s p_map p_lastWritten p_gc p_ol p_oc]; rewrite ?F; auto.
  rewrite app_length. lia.
Qed.

Lemma inv_mark s p done init last sp : tableOk s -> spanOk sp -> textOk (p_s p) ->
  (match done with [] => p_s p = [] | _ => asciiEnd (p_s p) end) ->
  inv s p done init last ->
  exists p' init' last', addMapping (Some s) p sp = Some p' /\ p_s p' = p_s p /\
    inv s p' (done ++ [(p_s p, sp)]) init' last'.
Proof.
  intros [T1 T2] SP TX DN [M O A E G L C D X Y]. unfold spanOk in SP.
  destruct (lineAndCol_some s sp T1 ltac:(lia) ltac:(lia)) as (l & ls & LC & EN & LE & _).
  assert (l < length (src_lines s))%nat as Ll by (apply nth_error_Some; congruence).
  set (T0 := firstn (p_lastWritten p) (p_s p)) in *.
  set (rest := skipn (p_lastWritten p) (p_s p)) in *.
  assert (p_s p = T0 ++ rest) as TT by (symmetry; apply firstn_skipn).
  assert (textEnd (p_s p) = walkRunes (fst (textEnd T0)) (p_gc p) (runes rest)) as TE.
  { rewrite <- G. unfold textEnd. rewrite TT.
    assert (runes (T0 ++ rest) = runes T0 ++ runes rest) as ->.
    { destruct C as [C|C]; [rewrite C; reflexivity | apply runes_app; auto]. }
    rewrite walkRunes_app. destruct (walkRunes 0 0 (runes T0)); reflexivity. }
  assert (0 <= p_gc p < 1073741824) as GB.
  { rewrite <- G. apply textEnd_bounds. unfold textOk in *. rewrite TT, app_length in TX. lia. }
  destruct (mapLoop_spec (runes rest) (p_gc p) (p_gc p) (fst (textEnd T0))) as (k & ML & KL).
  { lia. }
  { pose proof (runes_length rest). unfold textOk in TX. rewrite TT, app_length in TX. lia. }
  destruct (textEnd_bounds (p_s p) TX) as [GL GC].
  rewrite <- TE in ML, KL.
  unfold addMapping. rewrite LC. fold rest. rewrite ML.
  rewrite (wrap32_small (Z.of_nat (S l) - 1)) by lia.
  rewrite (wrap32_small (Z.of_nat (sp_start sp) - Z.of_nat ls + 1 - 1)) by lia.
  set (ol := Z.of_nat (S l) - 1). set (oc := Z.of_nat (sp_start sp) - Z.of_nat ls + 1 - 1).
  set (lg := match k with O => p_gc p | _ => 0 end).
  assert (0 <= lg < 1073741824) as LG by (unfold lg; destruct k; lia).
  rewrite (wrap32_small (snd (textEnd (p_s p)) - lg)) by lia.
  rewrite (wrap32_small (ol - p_ol p)) by (unfold ol; lia).
  rewrite (wrap32_small (oc - p_oc p)) by (unfold oc; lia).
  set (sg := (snd (textEnd (p_s p)) - lg, 0, ol - p_ol p, oc - p_oc p) : seg).
  assert (segOk sg) as SG by (unfold segOk, sg, small, ol, oc; lia).
  (* the lines after the new line feeds *)
  assert (exists init' last', (init ++ [last]) ++ repeat [] k = init' ++ [last'] /\
    last' = (match k with O => last | _ => [] end) /\ (k <> 0%nat -> init' <> [])) as (init' & last' & E' & L' & NI).
  { destruct k as [|k].
    - exists init, last. cbn [repeat]. rewrite app_nil_r. split; [reflexivity|]. split; [reflexivity|]. intro Q; exfalso; apply Q; reflexivity.
    - exists ((init ++ [last]) ++ repeat [] k), []. cbn [repeat]. rewrite repeat_cons, app_assoc.
      split; [|split]; auto. intros _. destruct init; discriminate. }
  assert (init ++ [last] <> []) as NE by (destruct init; discriminate).
  destruct (absLines_newlines k (init ++ [last]) NE 0 0 0 0) as [F1 F2].
  pose proof (rlines_newlines k (init ++ [last]) NE) as F3.
  rewrite E' in F1, F2, F3. rewrite E in F2.
  pose proof (absLines_seg init' last' sg 0 0 0 0) as F4. rewrite F2 in F4. unfold sg at 1 in F4.
  cbv iota beta in F4. destruct F4 as [F4 F5].
  pose proof (rlines_seg init' last' sg) as F6.
  assert (exists m2, (if (0 <? length (p_s p))%nat
     then match rev (p_map p ++ repeatB (B ";") k) with
          | [] => None
          | b :: _ => Some (if Byte.eqb b ";" then p_map p ++ repeatB (B ";") k else (p_map p ++ repeatB (B ";") k) ++ B ",")
          end
     else Some (p_map p ++ repeatB (B ";") k)) = Some m2 /\ rlines (init' ++ [last' ++ [sg]]) = m2 ++ rseg sg) as (m2 & M2 & R2).
  { rewrite M, <- F3, F6. destruct done as [|d done].
    - rewrite DN in *. destruct D as [-> ->]. destruct (k) as [|k'].
      + cbn in L'. subst last'. exists (rlines (init' ++ [[]])). split; reflexivity.
      + subst lg. exfalso. clear - ML TT. symmetry in TT. apply app_eq_nil in TT as [_ TT]. rewrite TT in ML. discriminate ML.
    - assert ((0 <? length (p_s p))%nat = true) as ->.
      { apply Nat.ltb_lt. apply asciiEnd_ne in DN. destruct (p_s p); [congruence|simpl; lia]. }
      destruct k as [|k].
      + subst last'. destruct (rlines_end_seg init' last D) as (u & b & Eb & Nb).
        rewrite Eb, rev_app_distr. cbn [rev app].
        destruct (Byte.eqb b ";"%byte) eqn:Q; [apply byte_eqb_eq in Q; congruence|].
        eexists; split; [reflexivity|]. destruct last; [congruence|]. rewrite <- !app_assoc. reflexivity.
      + subst last'. destruct (rlines_end_semi init' (NI ltac:(lia))) as (u & Eu).
        rewrite Eu, rev_app_distr. cbn [rev app Byte.eqb]. eexists; split; [reflexivity|]. reflexivity. }
  rewrite M2. eexists _, init', (last' ++ [sg]). split; [reflexivity|]. split; [reflexivity|].
  constructor; cbn [p_s p_map p_lastWritten p_gc p_ol p_oc]; rewrite ?firstn_all.
  - rewrite R2. reflexivity.
  - rewrite <- E' in *. clear - O SG E'. 
    assert (Forall (Forall segOk) (init' ++ [last'])) as H.
    { rewrite <- E'. apply Forall_app; split; auto. apply Forall_forall. intros x Hx. apply repeat_spec in Hx. subst. constructor. }
    apply Forall_app in H as [H1 H2]. apply Forall_app; split; auto. constructor; [|constructor].
    apply Forall_app; split; auto. inversion H2; auto.
  - rewrite F4, F1, A, map_app. f_equal. cbn [map]. f_equal. unfold expected. cbn [fst snd]. rewrite LC.
    rewrite <- KL. destruct (textEnd (p_s p)) as [gl gc]. cbn [fst snd].
    f_equal; unfold ol, oc, lg; destruct k; lia.
  - rewrite F5, KL. repeat f_equal; unfold ol, oc, lg; destruct k; lia.
  - reflexivity.
  - lia.
  - destruct done as [|d done]; [left; exact DN | right; exact DN].
  - destruct done; simpl; destruct last'; discriminate.
  - unfold ol; lia.
  - unfold oc; lia.
Qed.

Definition marksOk (done marks : list (bytes * span)) : Prop :=
  match done with
  | [] => match marks with [] => True | m :: r => fst m = [] /\ Forall goodMark r end
  | _ => Forall goodMark marks
  end.

Lemma runOps_inv s l : tableOk s -> forall p done init last,
  inv s p done init last ->
  textOk (p_s p ++ textOf l) ->
  marksOk done (marksOf (p_s p) l) ->
  Forall (fun m => spanOk (snd m)) (marksOf (p_s p) l) ->
  exists p' init' last', runOps (Some s) p l = Some p' /\ p_s p' = p_s p ++ textOf l /\
    inv s p' (done ++ marksOf (p_s p) l) init' last'.
Proof.
  intros T. induction l as [|[t|sp] l IH]; intros p done init last I TX MO SO; cbn [runOps marksOf textOf] in *.
  - exists p, init, last. rewrite !app_nil_r. auto.
  - pose proof (inv_write s p done init last t I) as I'.
    destruct (IH _ done init last I') as (p' & init' & last' & R & Q & I''); auto.
    + cbn [p_s]. rewrite <- app_assoc. exact TX.
    + exists p', init', last'. split; auto. split; auto. rewrite Q. cbn [p_s]. rewrite <- app_assoc. reflexivity.
  - inversion SO as [|? ? S1 S2]; subst. cbn [snd] in S1.
    assert (match done with [] => p_s p = [] | _ => asciiEnd (p_s p) end) as DN.
    { destruct done; cbn [marksOk] in MO; [apply MO|]. inversion MO; subst. assumption. }
    destruct (inv_mark s p done init last sp T S1) as (p1 & init1 & last1 & AM & P1 & I1); auto.
    { unfold textOk in *. rewrite app_length in TX. lia. }
    rewrite AM. destruct (IH p1 (done ++ [(p_s p, sp)]) init1 last1 I1) as (p' & init' & last' & R & Q & I''); rewrite ?P1; auto.
    + assert (Forall goodMark (marksOf (p_s p) l)) as X.
      { destruct done; cbn [marksOk] in MO; [apply MO|]. inversion MO; auto. }
      destruct done; exact X.
    + exists p', init', last'. split; auto. rewrite Q, P1. split; auto.
      rewrite P1, <- app_assoc in I''. exact I''.
Qed.

Lemma inv_p0 s : inv s p0 [] [] [].
Proof. constructor; cbn; auto; try lia. Qed.

Lemma starts_marks ns l : printNodes ns = Some l -> marksOf [] l = starts [] ns /\ marksOk [] (marksOf [] l).
Proof.
  intros H. destruct (nodes_ops ns l [] H) as (E & _ & G). split; auto.
  unfold marksOk. destruct (marksOf [] l) as [|m r] eqn:Q; auto. split; auto.
  destruct ns as [|[q|a] ns]; cbn [starts] in E; [discriminate| |]; injection E as -> _; reflexivity.
Qed.

(** * The result of Print with a map *)
Lemma print_map s ns l : tableOk s -> printNodes ns = Some l -> textOk (textOf l) ->
  Forall (fun m => spanOk (snd m)) (starts [] ns) ->
  exists mappings,
    print (Some s) ns = Some (textOf l ++ mapComment (base64Std (mappingJson s mappings))) /\
    readMappings mappings = Some (map (expected s) (starts [] ns)).
Proof.
  intros T H TX SO. destruct (starts_marks ns l H) as [E MO].
  destruct (runOps_inv s l T p0 [] [] [] (inv_p0 s)) as (p' & init' & last' & R & Q & I); auto.
  { cbn [p_s p0]. rewrite E. exact SO. }
  exists (p_map p'). unfold print. rewrite H, R, Q. split; [reflexivity|].
  rewrite (i_map _ _ _ _ _ I), read_rlines.
  - rewrite (i_abs _ _ _ _ _ I). cbn [app p_s p0]. rewrite E. reflexivity.
  - destruct init'; discriminate.
  - apply (i_ok _ _ _ _ _ I).
Qed.

Lemma some_inj {A} (a b : A) : Some a = Some b -> a = b.
Proof. congruence. Qed.

(** Whatever the spans are, the text is the same. *)
Lemma addMapping_s src p sp p' : addMapping src p sp = Some p' -> p_s p' = p_s p.
Proof.
  unfold addMapping. destruct src as [s|]; [|intro H; injection H as <-; reflexivity].
  destruct (lineAndCol s sp) as [[ln c]|]; [|discriminate].
  destruct (mapLoop _ _ _) as [[a b] m].
  match goal with |- match ?x with _ => _ end = _ -> _ => destruct x end; [|discriminate].
  intro H; injection H as <-. reflexivity.
Qed.
Lemma runOps_text src l : forall p p', runOps src p l = Some p' -> p_s p' = p_s p ++ textOf l.
Proof.
  induction l as [|[t|sp] l IH]; intros p p' H; cbn [runOps textOf] in *.
  - injection H as <-. rewrite app_nil_r. reflexivity.
  - apply IH in H. rewrite H. cbn [p_s]. rewrite <- app_assoc. reflexivity.
  - destruct (addMapping src p sp) as [p1|] eqn:A; [|discriminate].
    apply addMapping_s in A. apply IH in H. rewrite H, A. reflexivity.
Qed.
Lemma print_text s ns out : print (Some s) ns = Some out ->
  exists css mappings, print None ns = Some css /\ out = css ++ mapComment (base64Std (mappingJson s mappings)).
Proof.
  unfold print at 1. destruct (printNodes ns) as [l|] eqn:H; [|discriminate].
  destruct (runOps (Some s) p0 l) as [p|] eqn:R; [|discriminate].
  intro Q. apply some_inj in Q. subst out. apply runOps_text in R.
  exists (textOf l), (p_map p). split; [apply print_none; auto|]. rewrite R. reflexivity.
Qed.
Lemma addMapping_total s p sp : hd_error (src_lines s) = Some 0%nat ->
  (p_s p = [] \/ p_map p <> []) -> exists p', addMapping (Some s) p sp = Some p' /\ p_map p' <> [].
Proof.
  intros Hh D. unfold addMapping.
  destruct (lineIndex_spec (src_lines s) (sp_start sp) Hh) as (l & ls & E & En & _).
  unfold lineAndCol. rewrite E, En. destruct (mapLoop _ _ _) as [[a b] m].
  assert (forall x v y, x ++ vlqEncode v ++ y <> []) as NE.
  { intros x v y Q. apply app_eq_nil in Q as [_ Q]. apply app_eq_nil in Q as [Q _]. exact (vlqEncode_nonempty v Q). }
  destruct (0 <? length (p_s p))%nat eqn:Q.
  - destruct D as [D|D]; [rewrite D in Q; discriminate|].
    destruct (rev (p_map p ++ m)) as [|c r] eqn:R.
    + apply (f_equal (@rev _)) in R. rewrite rev_involutive in R. apply app_eq_nil in R as [R _]. congruence.
    + eexists; split; [reflexivity|]. apply NE.
  - eexists; split; [reflexivity|]. apply NE.
Qed.
Lemma runOps_total s l : hd_error (src_lines s) = Some 0%nat -> forall p,
  (p_map p <> [] \/ (p_s p = [] /\ match l with W _ :: _ => False | _ => True end)) ->
  exists p', runOps (Some s) p l = Some p'.
Proof.
  intros Hh. induction l as [|[t|sp] l IH]; intros p D; cbn [runOps].
  - eauto.
  - apply IH. destruct D as [D|[_ []]]. left; exact D.
  - destruct (addMapping_total s p sp Hh) as (p' & A & N); [tauto|].
    rewrite A. apply IH. auto.
Qed.
Lemma print_total s ns css : hd_error (src_lines s) = Some 0%nat -> print None ns = Some css ->
  exists out, print (Some s) ns = Some out.
Proof.
  intros Hh H. apply print_none_iff in H as (l & H & ->). unfold print. rewrite H.
  destruct (runOps_total s l Hh p0) as (p' & R).
  - right. split; [reflexivity|]. destruct (starts_marks ns l H) as [E M].
    destruct ns as [|[q|a] ns]; cbn [printNodes all printNode] in H.
    + injection H as <-. exact I.
    + apply cat_some in H as (x & y & Hx & _ & ->). unfold printRule in Hx.
      apply cat_some in Hx as (x1 & x2 & Ex & _ & ->). injection Ex as <-. exact I.
    + apply cat_some in H as (x & y & Hx & _ & ->). unfold printAt in Hx.
      apply cat_some in Hx as (x1 & x2 & Ex & _ & ->). injection Ex as <-. exact I.
  - rewrite R. eauto.
Qed.

(** * Base64 *)
Lemma digitValue_b64at i : 0 <= i < 64 -> digitValue (b64at i) = Some i.
Proof. intros H. apply digits_ok; auto. Qed.
Lemma byteOf_bz b : byteOf (bz b) = b.
Proof. unfold byteOf, bz. rewrite N2Z.id, Byte.of_to_N. reflexivity. Qed.
Lemma b64at_noteq i : 0 <= i < 64 -> Byte.eqb (b64at i) "="%byte = false.
Proof.
  intros H. destruct (Byte.eqb (b64at i) "="%byte) eqn:E; auto. apply byte_eqb_eq in E.
  pose proof (digitValue_b64at i H) as D. rewrite E in D. discriminate.
Qed.

Lemma divmod n d q r : 0 <= r < d -> n = d * q + r -> n / d = q /\ n mod d = r.
Proof. intros H E. split; symmetry; [apply (Z.div_unique n d q r) | apply (Z.mod_unique n d q r)]; auto. Qed.
Lemma split_byte a d e : 0 <= a < 256 -> 0 < d -> 0 < e -> d * e = 256 ->
  exists h l, a = d * h + l /\ 0 <= l < d /\ 0 <= h < e.
Proof.
  intros A D E1 E2. exists (a / d), (a mod d).
  pose proof (Z.div_mod a d ltac:(lia)). pose proof (Z.mod_pos_bound a d D). split; auto. split; auto. nia.
Qed.
Lemma b64_three a b c : 0 <= a < 256 -> 0 <= b < 256 -> 0 <= c < 256 ->
  let n := a * 65536 + b * 256 + c in
  let x := n / 262144 in let y := n / 4096 mod 64 in let z := n / 64 mod 64 in let t := n mod 64 in
  0 <= x < 64 /\ 0 <= y < 64 /\ 0 <= z < 64 /\ 0 <= t < 64 /\
  x * 4 + y / 16 = a /\ y mod 16 * 16 + z / 4 = b /\ z mod 4 * 64 + t = c.
Proof.
  intros A B C. cbv zeta.
  destruct (split_byte a 4 64 A) as (ah & al & -> & ? & ?); try lia.
  destruct (split_byte b 16 16 B) as (bh & bl & -> & ? & ?); try lia.
  destruct (split_byte c 64 4 C) as (ch & cl & -> & ? & ?); try lia.
  set (n := (4 * ah + al) * 65536 + (16 * bh + bl) * 256 + (64 * ch + cl)).
  destruct (divmod n 262144 ah (al * 65536 + (16 * bh + bl) * 256 + (64 * ch + cl))) as [-> _]; [lia|unfold n; lia|].
  destruct (divmod n 4096 ((4 * ah + al) * 16 + bh) (bl * 256 + (64 * ch + cl))) as [-> _]; [lia|unfold n; lia|].
  destruct (divmod n 64 ((4 * ah + al) * 1024 + (16 * bh + bl) * 4 + ch) cl) as [-> ->]; [lia|unfold n; lia|].
  destruct (divmod ((4 * ah + al) * 16 + bh) 64 ah (al * 16 + bh)) as [_ ->]; [lia|lia|].
  destruct (divmod ((4 * ah + al) * 1024 + (16 * bh + bl) * 4 + ch) 64 (16 * (4 * ah + al) + bh) (bl * 4 + ch)) as [_ ->]; [lia|lia|].
  destruct (divmod (al * 16 + bh) 16 al bh) as [-> ->]; [lia|lia|].
  destruct (divmod (bl * 4 + ch) 4 bl ch) as [-> ->]; [lia|lia|].
  lia.
Qed.

Lemma base64Std_cons3 a b c r : base64Std (a :: b :: c :: r) =
  let n := bz a * 65536 + bz b * 256 + bz c in
    [b64at (n / 262144); b64at (n / 4096 mod 64); b64at (n / 64 mod 64); b64at (n mod 64)] ++ base64Std r.
Proof. destruct r; reflexivity. Qed.

Lemma base64_spec k : forall s, (length s <= k)%nat -> base64Read (base64Std s) = Some s /\
  Forall (fun b => b = "="%byte \/ exists i, 0 <= i < 64 /\ b = b64at i) (base64Std s) /\
  (s <> [] -> exists a b c d r, base64Std s = a :: b :: c :: d :: r).
Proof.
  induction k as [|k IH]; intros s L.
  - destruct s; [|simpl in L; lia]. split; [reflexivity|]. split; [constructor | congruence].
  - destruct s as [|a [|b [|c r]]].
    + split; [reflexivity|]. split; [constructor | congruence].
    + pose proof (bz_range a) as A. cbn [base64Std]. cbv zeta.
      assert (0 <= bz a / 4 < 64) as H1 by (Z.to_euclidean_division_equations; lia).
      assert (0 <= bz a mod 4 * 16 < 64) as H2 by (Z.to_euclidean_division_equations; lia).
      split; [|split].
      * cbn [base64Read app B list_byte_of_string]. rewrite !digitValue_b64at by auto.
        change (Byte.eqb "=" "=") with true. cbv iota.
        assert (bz a mod 4 * 16 mod 16 =? 0 = true) as -> by (apply Z.eqb_eq; Z.to_euclidean_division_equations; lia).
        unfold b64Byte. assert (bz a / 4 * 4 + bz a mod 4 * 16 / 16 = bz a) as -> by (Z.to_euclidean_division_equations; lia).
        rewrite byteOf_bz. reflexivity.
      * cbn [app]. do 2 (constructor; [right; eauto|]). do 2 (constructor; [left; reflexivity|]). constructor.
      * intros _. repeat eexists.
    + pose proof (bz_range a) as A. pose proof (bz_range b) as Bb. cbn [base64Std]. cbv zeta.
      set (n := bz a * 256 + bz b).
      destruct (split_byte (bz a) 4 64 A) as (ah & al & Ea & ? & ?); try lia.
      destruct (split_byte (bz b) 16 16 Bb) as (bh & bl & Eb & ? & ?); try lia.
      assert (n / 1024 = ah) as E1 by (apply (divmod n 1024 ah (al * 256 + bz b)); [lia|unfold n; lia]).
      assert (n / 16 mod 64 = al * 16 + bh) as E2.
      { destruct (divmod n 16 (bz a * 16 + bh) bl) as [-> _]; [lia|unfold n; lia|].
        apply (divmod (bz a * 16 + bh) 64 ah (al * 16 + bh)); lia. }
      assert (n mod 16 = bl) as E3 by (apply (divmod n 16 (bz a * 16 + bh) bl); [lia|unfold n; lia]).
      rewrite E1, E2, E3. clear E1 E2 E3 n.
      assert (0 <= ah < 64) as K1 by lia.
      assert (0 <= al * 16 + bh < 64) as K2 by lia.
      assert (0 <= bl * 4 < 64) as K3 by lia.
      split; [|split].
      * cbn [base64Read app B list_byte_of_string]. rewrite !digitValue_b64at by auto.
        rewrite b64at_noteq by auto. change (Byte.eqb "=" "=") with true. cbv iota.
        destruct (divmod (bl * 4) 4 bl 0) as [-> ->]; [lia|lia|].
        destruct (divmod (al * 16 + bh) 16 al bh) as [-> ->]; [lia|lia|].
        change (0 =? 0) with true. cbv iota. unfold b64Byte.
        replace (ah * 4 + al) with (bz a) by lia. replace (bh * 16 + bl) with (bz b) by lia.
        rewrite !byteOf_bz. reflexivity.
      * cbn [app]. do 3 (constructor; [right; eauto|]). constructor; [left; reflexivity|]. constructor.
      * intros _. repeat eexists.
    + rewrite base64Std_cons3. cbv zeta.
      destruct (b64_three (bz a) (bz b) (bz c) (bz_range a) (bz_range b) (bz_range c)) as (X & Y & Z & T & E1 & E2 & E3).
      set (x := (bz a * 65536 + bz b * 256 + bz c) / 262144) in *.
      set (y := (bz a * 65536 + bz b * 256 + bz c) / 4096 mod 64) in *.
      set (z := (bz a * 65536 + bz b * 256 + bz c) / 64 mod 64) in *.
      set (t := (bz a * 65536 + bz b * 256 + bz c) mod 64) in *.
      destruct (IH r ltac:(simpl in L; unfold bytes in *; lia)) as (I1 & I2 & I3).
      split; [|split].
      * destruct r as [|e r].
        -- cbn [base64Read app base64Std]. rewrite !digitValue_b64at, !b64at_noteq by auto.
           unfold b64Byte. rewrite E1, E2, E3, !byteOf_bz. reflexivity.
        -- destruct (I3 ltac:(discriminate)) as (a1 & b1 & c1 & d1 & r1 & Er). rewrite Er in *.
           cbn [app]. remember (a1 :: b1 :: c1 :: d1 :: r1) as tail.
           cbn [base64Read]. rewrite !digitValue_b64at by auto. rewrite I1. unfold b64Byte.
           rewrite E1, E2, E3, !byteOf_bz. subst tail. reflexivity.
      * cbn [app]. repeat (constructor; [right; eauto|]). exact I2.
      * intros _. repeat eexists.
Qed.

Lemma base64_alpha s b : In b (base64Std s) -> b <> "*"%byte.
Proof.
  intros H. destruct (base64_spec (length s) s (Nat.le_refl _)) as (_ & F & _).
  rewrite Forall_forall in F. destruct (F b H) as [->|(i & Hi & ->)]; [discriminate|].
  apply b64at_sep; auto.
Qed.

(** * The theorems *)
Lemma C19_lemma s ns out : print (Some s) ns = Some out ->
  exists css payload mappings, print None ns = Some css /\ out = css ++ mapComment payload /\
    ~ In "*"%byte payload /\ base64Read payload = Some (mappingJson s mappings).
Proof.
  intros H. apply print_text in H as (css & m & H & ->).
  exists css, (base64Std (mappingJson s m)), m. split; auto. split; auto. split.
  - intro X. apply base64_alpha in X. congruence.
  - apply (base64_spec (length (mappingJson s m)) (mappingJson s m) (Nat.le_refl _)).
Qed.
Lemma C22_lemma s ns css : tableOk s -> print None ns = Some css -> textOk css ->
  Forall (fun m => spanOk (snd m)) (starts [] ns) ->
  exists mappings,
    print (Some s) ns = Some (css ++ mapComment (base64Std (mappingJson s mappings))) /\
    readMappings mappings = Some (map (expected s) (starts [] ns)).
Proof.
  intros T H TX SO. apply print_none_iff in H as (l & H & ->). apply print_map; auto.
Qed.

Lemma lineStarts_length s : (length (lineStarts s) <= S (length s))%nat.
Proof.
  unfold lineStarts. cbn [length]. apply le_n_S. generalize 0%nat.
  induction s as [|b s IH]; intro o; cbn [linesIn length]; [lia|].
  specialize (IH (S o)). destruct (Byte.eqb b LF); cbn [length]; lia.
Qed.
Lemma C22_position_lemma path content ns css :
  Z.of_nat (length content) < 1073741823 ->
  print None ns = Some css -> textOk css ->
  Forall (fun m => (sp_start (snd m) <= length content)%nat) (starts [] ns) ->
  let s := mkSource path content (lineStarts content) in
  exists mappings,
    print (Some s) ns = Some (css ++ mapComment (base64Std (mappingJson s mappings))) /\
    readMappings mappings = Some (map (fun m =>
      mkMapping (fst (textEnd (fst m))) (snd (textEnd (fst m))) 0
                (fst (position content (sp_start (snd m))) - 1) (snd (position content (sp_start (snd m))) - 1))
      (starts [] ns)).
Proof.
  intros L H TX SO s.
  destruct (C22_lemma s ns css) as (m & P & R); auto.
  - split; [reflexivity|]. cbn [src_lines s]. pose proof (lineStarts_length content). lia.
  - eapply Forall_impl; [|exact SO]. cbn beta. intros [t sp] Q. unfold spanOk. cbn [snd] in *. lia.
  - exists m. split; auto. rewrite R. f_equal. apply map_ext_in. intros [t sp] Q.
    rewrite Forall_forall in SO. specialize (SO _ Q). cbn [snd] in SO. unfold expected. cbn [fst snd].
    unfold s. rewrite C07_lemma by (auto; lia). destruct (textEnd t), (position content (sp_start sp)). reflexivity.
Qed.

From Verif Require Import Parser Samples.
Lemma C22_unit_lemma : exists content ss mp,
  @parse asciiOnly 0 100 content = ParseOk ss (lineStarts content) /\
  print None (ss_nodes ss) = Some content /\
  In mp (map (expected (mkSource [] content (lineStarts content))) (starts [] (ss_nodes ss))) /\
  m_genLine mp = m_line mp /\ m_genCol mp = 6 /\ m_col mp = 7.
Proof.
  exists ([Byte.xc3; Byte.xa9] ++ B "{c:d}a{b:c}"). eexists _, (mkMapping 0 6 0 0 7).
  split; [vm_compute; reflexivity|]. split; [vm_compute; reflexivity|]. split; [vm_compute; auto|]. auto.
Qed.
