(** Lemmas on source.go and logging.go. *)
From Verif Require Import Bytes Utf8 Source Lexer BytesFacts LexSpec LexFacts LexProps SourceSpec.
From Coq Require Import Sorting.Sorted.

(** * sort.Search *)
Lemma searchLoop_spec f n : forall fuel i j, (i <= j <= n)%nat -> (j - i < fuel)%nat ->
  ((0 < i)%nat -> f (i - 1)%nat = false) -> ((j < n)%nat -> f j = true) ->
  let r := searchLoop fuel f i j in
  (r <= n)%nat /\ ((0 < r)%nat -> f (r - 1)%nat = false) /\ ((r < n)%nat -> f r = true).
Proof.
  induction fuel as [|fuel IH]; intros i j Hij Hf Hi Hj; [lia|]. cbn [searchLoop].
  destruct (Nat.ltb_spec i j).
  - pose proof (Nat.div_mod (i + j) 2 ltac:(lia)) as Hd.
    pose proof (Nat.mod_upper_bound (i + j) 2 ltac:(lia)) as Hm.
    set (h := ((i + j) / 2)%nat) in *.
    destruct (f h) eqn:E; cbn [negb].
    + apply IH; auto; lia.
    + apply IH; auto; try lia. intros _. replace (h + 1 - 1)%nat with h by lia. exact E.
  - cbn. assert (i = j) by lia. subst j. split; [lia|]. auto.
Qed.

Lemma sortSearch_spec f n : let r := sortSearch n f in
  (r <= n)%nat /\ ((0 < r)%nat -> f (r - 1)%nat = false) /\ ((r < n)%nat -> f r = true).
Proof. apply searchLoop_spec; lia. Qed.

Lemma wrap32_small z : -2147483648 <= z < 2147483648 -> wrap32 z = z.
Proof. intros H. unfold wrap32. rewrite Z.mod_small; lia. Qed.

(** * The line found, for a table whose first entry is 0 *)
Lemma lineIndex_spec lines start : hd_error lines = Some 0%nat ->
  exists l ls, lineIndex lines start = S l /\ nth_error lines l = Some ls /\ (ls <= start)%nat /\
    (l < length lines)%nat /\
    (forall x, nth_error lines (S l) = Some x -> (start < x)%nat).
Proof.
  intros Hh. unfold lineIndex.
  destruct (sortSearch_spec (fun i => (start <? nth i lines 0)%nat) (length lines)) as (R1 & R2 & R3).
  set (r := sortSearch _ _) in *. destruct lines as [|x lines]; [discriminate|].
  cbn in Hh. injection Hh as ->.
  destruct r as [|l].
  { specialize (R3 ltac:(cbn; lia)). cbn in R3. discriminate. }
  specialize (R2 ltac:(lia)). replace (S l - 1)%nat with l in R2 by lia.
  apply Nat.ltb_ge in R2.
  exists l, (nth l (0%nat :: lines) 0%nat). split; auto.
  split; [apply nth_error_nth'; lia|]. split; auto. split; [lia|].
  intros y Hy. assert (S l < length (0%nat :: lines))%nat by (apply nth_error_Some; congruence).
  specialize (R3 H). apply Nat.ltb_lt in R3. rewrite (nth_error_nth _ _ _ Hy) in R3. exact R3.
Qed.

Lemma lineAndCol_some s loc : hd_error (src_lines s) = Some 0%nat ->
  Z.of_nat (length (src_lines s)) < 2147483648 -> Z.of_nat (sp_start loc) < 2147483647 ->
  exists l ls, lineAndCol s loc = Some (Z.of_nat (S l), Z.of_nat (sp_start loc) - Z.of_nat ls + 1) /\
    nth_error (src_lines s) l = Some ls /\ (ls <= sp_start loc)%nat /\
    (forall x, nth_error (src_lines s) (S l) = Some x -> (sp_start loc < x)%nat).
Proof.
  intros Hh Hn Hs. destruct (lineIndex_spec (src_lines s) (sp_start loc) Hh) as (l & ls & E & En & Hle & Hl & Hnx).
  exists l, ls. unfold lineAndCol. rewrite E, En. rewrite !wrap32_small by lia. auto.
Qed.

(** * C07 *)
Lemma walk_app s t : forall l c, walk l c (s ++ t) = let '(l', c') := walk l c s in walk l' c' t.
Proof. induction s as [|b s IH]; intros l c; cbn; auto. destruct (Byte.eqb b LF); apply IH. Qed.

(** The walk in terms of the table of line starts. *)
Lemma walk_lines s : forall l c o,
  walk l c s = (l + Z.of_nat (length (linesIn o s)),
                Z.of_nat (o + length s) -
                match rev (linesIn o s) with [] => Z.of_nat o - c + 1 | x :: _ => Z.of_nat x end + 1).
Proof.
  induction s as [|b s IH]; intros l c o; cbn [walk linesIn length].
  - cbn. f_equal; lia.
  - destruct (Byte.eqb b LF).
    + rewrite (IH _ _ (S o)). cbn [length rev]. f_equal; [lia|].
      destruct (rev (linesIn (S o) s)); cbn [app]; lia.
    + rewrite (IH _ _ (S o)). f_equal. destruct (rev (linesIn (S o) s)); lia.
Qed.

Lemma linesIn_firstn_filter s : forall o n,
  linesIn o (firstn n s) = filter (fun x => (x <=? o + n)%nat) (linesIn o s).
Proof.
  induction s as [|b s IH]; intros o n; [rewrite firstn_nil; reflexivity|].
  destruct n as [|n].
  - cbn [firstn linesIn].
    assert (Hall : forall l, (forall x, In x l -> (o < x)%nat) -> filter (fun x => (x <=? o + 0)%nat) l = []).
    { induction l as [|y l IHl]; intros H; auto. cbn.
      pose proof (H y (or_introl eq_refl)).
      destruct (Nat.leb_spec y (o + 0)); [lia|]. apply IHl. intros; apply H; right; auto. }
    symmetry. apply Hall. intros x Hx. apply (linesIn_iff o (b :: s) x) in Hx as (i & -> & _). lia.
  - cbn [firstn linesIn]. destruct (Byte.eqb b LF); cbn [filter].
    + destruct (Nat.leb_spec (S o) (o + S n)); [|lia]. rewrite IH. f_equal.
      apply filter_ext. intros x. replace (S o + n)%nat with (o + S n)%nat by lia. reflexivity.
    + rewrite IH. apply filter_ext. intros x. replace (S o + n)%nat with (o + S n)%nat by lia. reflexivity.
Qed.

(** In a sorted list the entries up to a bound are a prefix. *)
Lemma sorted_filter lines k l ls : StronglySorted lt lines -> nth_error lines l = Some ls -> (ls <= k)%nat ->
  (forall x, nth_error lines (S l) = Some x -> (k < x)%nat) ->
  filter (fun x => (x <=? k)%nat) lines = firstn (S l) lines.
Proof.
  intros Hs. revert l. induction Hs as [|x lines Hs IH Hx]; intros l Hl Hle Hn; [destruct l; discriminate|].
  destruct l as [|l].
  - cbn in Hl. injection Hl as ->. cbn [filter firstn]. destruct (Nat.leb_spec ls k); [|lia]. f_equal.
    destruct lines as [|y lines]; [reflexivity|]. specialize (Hn y eq_refl).
    assert (Hall : forall z, In z (y :: lines) -> (k < z)%nat).
    { intros z [<-|Hz]; auto. inversion Hs; subst. rewrite Forall_forall in H3. specialize (H3 z Hz). lia. }
    clear - Hall. induction (y :: lines) as [|z r IH]; auto. cbn. pose proof (Hall z (or_introl eq_refl)).
    destruct (Nat.leb_spec z k); [lia|]. apply IH. intros; apply Hall; right; auto.
  - cbn [nth_error] in Hl. cbn [filter].
    rewrite Forall_forall in Hx. pose proof (Hx ls (nth_error_In _ _ Hl)).
    destruct (Nat.leb_spec x k); [|lia].
    change (firstn (S (S l)) (x :: lines)) with (x :: firstn (S l) lines). f_equal. apply IH; auto.
Qed.

Lemma position_table content off l ls : (off <= length content)%nat ->
  nth_error (lineStarts content) l = Some ls -> (ls <= off)%nat ->
  (forall x, nth_error (lineStarts content) (S l) = Some x -> (off < x)%nat) ->
  position content off = (Z.of_nat (S l), Z.of_nat off - Z.of_nat ls + 1).
Proof.
  intros Ho Hl Hle Hn. unfold position. rewrite (walk_lines _ 1 1 0).
  rewrite (firstn_length_le _ Ho). cbn [Nat.add].
  pose proof (sorted_filter _ off _ _ (lineStarts_sorted content) Hl Hle Hn) as Hf.
  rewrite linesIn_firstn_filter. cbn [Nat.add].
  unfold lineStarts in *. cbn [filter] in Hf. change ((0 <=? off)%nat) with true in Hf. cbn iota in Hf.
  change (firstn (S l) (0%nat :: linesIn 0 content)) with (0%nat :: firstn l (linesIn 0 content)) in Hf.
  injection Hf as Hf. rewrite Hf.
  destruct l as [|l].
  - cbn in Hl. injection Hl as <-. cbn. f_equal; lia.
  - cbn [nth_error] in Hl.
    assert (Hlt : (l < length (linesIn 0 content))%nat) by (apply nth_error_Some; congruence).
    rewrite firstn_length_le by lia.
    assert (Hr : exists r, rev (firstn (S l) (linesIn 0 content)) = ls :: r).
    { destruct (nth_error_split _ _ Hl) as (a & b & E & <-). rewrite E.
      replace (S (length a)) with (length a + 1)%nat by lia.
      rewrite firstn_plus, firstn_app, Nat.sub_diag, firstn_all, app_nil_r.
      rewrite skipn_app, Nat.sub_diag, skipn_all. cbn.
      rewrite rev_app_distr. cbn. eauto. }
    destruct Hr as [r ->]. f_equal; lia.
Qed.

Lemma C07_lemma : forall path content loc,
  (sp_start loc <= length content)%nat -> Z.of_nat (length content) < 2147483647 ->
  lineAndCol (mkSource path content (lineStarts content)) loc = Some (position content (sp_start loc)).
Proof.
  intros path content loc Hs Hb.
  assert (Hlen : (length (lineStarts content) <= S (length content))%nat).
  { assert (H : forall s o, (length (linesIn o s) <= length s)%nat).
    { induction s as [|b s IH]; intros o; cbn; [lia|].
      destruct (Byte.eqb b LF); cbn; specialize (IH (S o)); lia. }
    unfold lineStarts. cbn [length]. specialize (H content 0%nat). lia. }
  destruct (lineAndCol_some (mkSource path content (lineStarts content)) loc) as (l & ls & E & En & Hle & Hnx);
    cbn [src_lines]; [reflexivity|lia|lia|].
  rewrite E. f_equal. symmetry. apply position_table; auto.
Qed.

(** * C09 *)
Lemma findNewlineFuel_spec : forall fuel i s, (length s <= fuel)%nat ->
  match findNewlineFuel fuel i s with
  | Some j => exists n, j = (i + n)%nat /\ untilLF s = firstn n s /\ (n < length s)%nat
  | None => untilLF s = s
  end.
Proof.
  induction fuel as [|f IH]; intros i s Hf.
  - destruct s; [reflexivity|cbn in Hf; lia].
  - destruct s as [|c r]; [reflexivity|]. cbn [findNewlineFuel].
    destruct (decodeRune (c :: r)) as [cp n] eqn:E.
    apply decodeRune_cons in E as (Hn & Hcp & Hd).
    destruct (Z.eqb_spec cp 10) as [E10|N10].
    + destruct Hd as [(D1 & D2 & ->)|(D1 & D2 & _)]; [|lia].
      assert (c = LF). { apply bz_inj. rewrite <- D2, E10. reflexivity. } subst c.
      exists 0%nat. split; [lia|]. split; [reflexivity|cbn; lia].
    + assert (Hpre : forall t, untilLF (firstn n (c :: r) ++ t) = firstn n (c :: r) ++ untilLF t).
      { assert (Hno : ~ In LF (firstn n (c :: r))).
        { destruct Hd as [(D1 & D2 & ->)|(D1 & D2 & D3)].
          - cbn. intros [->|[]]. apply N10. rewrite D2. reflexivity.
          - intros Hin. rewrite Forall_forall in D3. specialize (D3 _ Hin). apply D3. reflexivity. }
        intros t. revert Hno. generalize (firstn n (c :: r)). induction l as [|x l IHl]; intros Hno; auto.
        cbn. destruct (Byte.eqb x LF) eqn:EB; [apply byte_eqb_eq in EB; subst; destruct Hno; left; auto|].
        f_equal. apply IHl. intros X; apply Hno; right; auto. }
      specialize (IH (i + n)%nat (skipn n (c :: r))).
      assert (Hl : (length (skipn n (c :: r)) <= f)%nat) by (rewrite skipn_length; cbn [length] in *; lia).
      specialize (IH Hl). pose proof (firstn_skipn n (c :: r)) as Hsplit.
      pose proof (Hpre (skipn n (c :: r))) as Hp. rewrite Hsplit in Hp.
      destruct (findNewlineFuel f (i + n) (skipn n (c :: r))) as [j|].
      * destruct IH as (m & -> & Hu & Hm). exists (n + m)%nat. split; [lia|]. split.
        -- rewrite Hp, Hu, firstn_plus. reflexivity.
        -- rewrite skipn_length in Hm. lia.
      * rewrite Hp, IH. exact Hsplit.
Qed.

Lemma untilLF_len s : (length (untilLF s) <= length s)%nat.
Proof. induction s as [|b s IH]; cbn; [lia|]. destruct (Byte.eqb b LF); cbn; lia. Qed.

Lemma untilLF_prefix s : untilLF s = firstn (length (untilLF s)) s.
Proof. induction s as [|b s IH]; cbn; auto. destruct (Byte.eqb b LF); cbn; congruence. Qed.

Lemma findNewline_end s : match findNewline s with Some i => i | None => length s end = length (untilLF s).
Proof.
  unfold findNewline. pose proof (findNewlineFuel_spec (length s) 0 s ltac:(lia)) as H.
  destruct (findNewlineFuel (length s) 0 s) as [j|].
  - destruct H as (n & -> & -> & Hn). rewrite firstn_length_le; lia.
  - rewrite H. reflexivity.
Qed.

Lemma fullLine_spec s loc : hd_error (src_lines s) = Some 0%nat ->
  Z.of_nat (length (src_lines s)) < 2147483648 ->
  (sp_start loc <= length (src_content s))%nat -> Z.of_nat (length (src_content s)) < 2147483647 ->
  exists l ls, lineAndCol s loc = Some (Z.of_nat (S l), Z.of_nat (sp_start loc) - Z.of_nat ls + 1) /\
    nth_error (src_lines s) l = Some ls /\ (ls <= sp_start loc)%nat /\
    (forall x, nth_error (src_lines s) (S l) = Some x -> (sp_start loc < x)%nat) /\
    fullLine s loc = Some (mkSpan ls (sp_start loc + length (untilLF (skipn (sp_start loc) (src_content s))))).
Proof.
  intros Hh Hn Hs Hb. destruct (lineAndCol_some s loc) as (l & ls & E & En & Hle & Hnx); auto; [lia|].
  exists l, ls. repeat split; auto. unfold fullLine. rewrite E.
  destruct (Z.ltb_spec (Z.of_nat (S l) - 1) 0); [lia|].
  replace (Z.to_nat (Z.of_nat (S l) - 1)) with l by lia. rewrite En.
  destruct (Nat.ltb_spec (length (src_content s)) (sp_start loc)); [lia|].
  f_equal. f_equal. pose proof (findNewline_end (skipn (sp_start loc) (src_content s))) as Hf.
  destruct (findNewline (skipn (sp_start loc) (src_content s))); [lia|].
  rewrite skipn_length in Hf. lia.
Qed.

(** The rendered annotation. *)
Lemma annotate_spec s loc : hd_error (src_lines s) = Some 0%nat ->
  Z.of_nat (length (src_lines s)) < 2147483648 ->
  (sp_start loc <= sp_end loc)%nat -> (sp_end loc <= length (src_content s))%nat ->
  Z.of_nat (length (src_content s)) < 2147483647 ->
  exists l ls, 
    lineAndCol s loc = Some (Z.of_nat (S l), Z.of_nat (sp_start loc) - Z.of_nat ls + 1) /\
    nth_error (src_lines s) l = Some ls /\ (ls <= sp_start loc)%nat /\
    (forall x, nth_error (src_lines s) (S l) = Some x -> (sp_start loc < x)%nat) /\
    let stop := (sp_start loc + length (untilLF (skipn (sp_start loc) (src_content s))))%nat in
    let line := sub (src_content s) ls stop in
    annotateSourceSpan s loc = Some ([Byte.x09] ++ replaceTabs line ++ [Byte.x0a] ++ [Byte.x09] ++
      repeatB (B " ") (sp_start loc - ls + countTabs line) ++
      repeatB (B "~") (Nat.min (sp_end loc) stop - sp_start loc) ++
      (if (stop <? sp_end loc)%nat then B ">" else [])).
Proof.
  intros Hh Hn Hse He Hb.
  destruct (fullLine_spec s loc) as (l & ls & E & En & Hle & Hnx & Hfl); auto; [lia|].
  exists l, ls. split; auto. split; auto. split; auto. split; auto. cbv zeta.
  unfold annotateSourceSpan. rewrite E, Hfl. cbn [sp_start sp_end].
  pose proof (untilLF_len (skipn (sp_start loc) (src_content s))) as Hu. rewrite skipn_length in Hu.
  set (stop := (sp_start loc + length (untilLF (skipn (sp_start loc) (src_content s))))%nat) in *.
  rewrite slice_ok by lia. fold (sub (src_content s) ls stop). set (line := sub (src_content s) ls stop).
  destruct (Z.ltb_spec (Z.of_nat (sp_start loc) - Z.of_nat ls + 1 + Z.of_nat (countTabs line) - 1) 0); [lia|].
  destruct (Nat.ltb_spec (sp_end loc) (sp_start loc)); [lia|].
  replace (Z.to_nat (Z.of_nat (sp_start loc) - Z.of_nat ls + 1 + Z.of_nat (countTabs line) - 1))
    with (sp_start loc - ls + countTabs line)%nat by lia.
  assert (Hrep : forall n, length (repeatB (B "~") n) = n).
  { induction n as [|n IHn]; cbn; auto. }
  assert (Hfirst : forall k n, (k <= n)%nat -> firstn k (repeatB (B "~") n) = repeatB (B "~") k).
  { induction k as [|k IHk]; intros n Hk; auto. destruct n as [|n]; [lia|]. cbn. f_equal. apply IHk. lia. }
  rewrite Hrep. destruct (Z.ltb_spec 0 (Z.of_nat (sp_end loc) - Z.of_nat stop)).
  - destruct (Z.ltb_spec (Z.of_nat (sp_end loc - sp_start loc) - (Z.of_nat (sp_end loc) - Z.of_nat stop)) 0); [unfold stop in *; lia|].
    rewrite Hfirst by (unfold stop in *; lia).
    destruct (Nat.ltb_spec stop (sp_end loc)); [|lia].
    replace (Z.to_nat (Z.of_nat (sp_end loc - sp_start loc) - (Z.of_nat (sp_end loc) - Z.of_nat stop)))
      with (Nat.min (sp_end loc) stop - sp_start loc)%nat by (unfold stop in *; lia).
    reflexivity.
  - destruct (Nat.ltb_spec stop (sp_end loc)); [lia|].
    rewrite Nat.min_l by lia. reflexivity.
Qed.

Lemma C09_lemma : forall s loc inner,
  hd_error (src_lines s) = Some 0%nat ->
  (sp_start loc <= sp_end loc)%nat -> (sp_end loc <= length (src_content s))%nat ->
  Z.of_nat (length (src_content s)) < 2147483647 -> Z.of_nat (length (src_lines s)) < 2147483648 ->
  exists msg, locationErrorString s loc inner = Some msg.
Proof.
  intros s loc inner H1 H2 H3 H4 H5.
  destruct (annotate_spec s loc) as (l & ls & E & _ & _ & _ & Ha); auto.
  unfold locationErrorString. rewrite E, Ha. eauto.
Qed.

(** With the right line table the quoted text is the line of the offset. *)
Lemma untilLF_app_no s t : ~ In LF s -> untilLF (s ++ t) = s ++ untilLF t.
Proof.
  induction s as [|x s IH]; intros H; auto. cbn. destruct (Byte.eqb x LF) eqn:E.
  - apply byte_eqb_eq in E. subst. destruct H; left; auto.
  - f_equal. apply IH. intros X; apply H; right; auto.
Qed.

Lemma lineOf_table content off l ls : (off <= length content)%nat ->
  nth_error (lineStarts content) l = Some ls -> (ls <= off)%nat ->
  (forall x, nth_error (lineStarts content) (S l) = Some x -> (off < x)%nat) ->
  lineOf content off = sub content ls (off + length (untilLF (skipn off content))).
Proof.
  intros Ho Hl Hle Hn. unfold lineOf.
  assert (Hsp : firstn off content = firstn ls content ++ sub content ls off).
  { unfold sub. replace off with (ls + (off - ls))%nat at 1 by lia. apply firstn_plus. }
  assert (Hno : ~ In LF (sub content ls off)).
  { intros Hin. apply In_nth_error in Hin as [i Hi].
    assert (Hi' : nth_error content (ls + i) = Some LF /\ (ls + i < off)%nat).
    { unfold sub in Hi. assert (i < length (firstn (off - ls) (skipn ls content)))%nat by (apply nth_error_Some; congruence).
      rewrite firstn_length_le in H by (rewrite skipn_length; lia). split; [|lia].
      rewrite <- Hi. rewrite <- (firstn_skipn ls content) at 1.
      rewrite nth_error_app2 by (rewrite firstn_length_le; lia). rewrite firstn_length_le by lia.
      replace (ls + i - ls)%nat with i by lia.
      rewrite <- (firstn_skipn (off - ls) (skipn ls content)) at 1.
      rewrite nth_error_app1; auto. rewrite firstn_length_le; [lia|rewrite skipn_length; lia]. }
    destruct Hi' as [Hi1 Hi2].
    assert (Hin : In (S (ls + i)) (lineStarts content)).
    { right. apply linesIn_iff. exists (ls + i)%nat. split; auto. }
    apply In_nth_error in Hin as [k Hk].
    pose proof (lineStarts_sorted content) as Hs.
    assert (Hmono : forall L a b x y, StronglySorted lt L -> nth_error L a = Some x -> nth_error L b = Some y -> (a < b)%nat -> (x < y)%nat).
    { clear. induction L as [|z L IH]; intros a b x y Hs Ha Hb Hab; [destruct a; discriminate|].
      inversion Hs; subst. destruct b as [|b]; [lia|]. destruct a as [|a]; cbn in *.
      - injection Ha as ->. rewrite Forall_forall in H2. apply H2. eapply nth_error_In; eauto.
      - eapply IH; eauto. lia. }
    destruct (lt_eq_lt_dec k l) as [[Hkl|Hkl]|Hkl].
    - pose proof (Hmono _ _ _ _ _ Hs Hk Hl Hkl). lia.
    - subst. assert (S (ls + i) = ls) by congruence. lia.
    - destruct (Nat.eq_dec k (S l)) as [->|Hne]; [specialize (Hn _ Hk); lia|].
      assert (Hx : exists x, nth_error (lineStarts content) (S l) = Some x).
      { destruct (nth_error (lineStarts content) (S l)) eqn:E; eauto.
        apply nth_error_None in E. assert (k < length (lineStarts content))%nat by (apply nth_error_Some; congruence). lia. }
      destruct Hx as [x Hx]. specialize (Hn _ Hx). pose proof (Hmono _ _ _ _ _ Hs Hx Hk ltac:(lia)). lia. }
  assert (Hpre : untilLF (rev (firstn ls content)) = []).
  { destruct l as [|l].
    - cbn in Hl. injection Hl as <-. reflexivity.
    - cbn [nth_error lineStarts] in Hl. unfold lineStarts in Hl. cbn [nth_error] in Hl.
      apply nth_error_In in Hl. apply linesIn_iff in Hl as (i & -> & Hi). cbn [Nat.add] in *.
      apply nth_error_split in Hi as (a & b & -> & <-).
      replace (S (length a)) with (length a + 1)%nat by lia.
      rewrite firstn_plus, firstn_app, Nat.sub_diag, firstn_all, app_nil_r.
      rewrite skipn_app, Nat.sub_diag, skipn_all. cbn [firstn skipn app].
      rewrite rev_app_distr. reflexivity. }
  rewrite Hsp, rev_app_distr, untilLF_app_no by (rewrite <- in_rev; auto).
  rewrite Hpre, app_nil_r, rev_involutive.
  unfold sub. rewrite (untilLF_prefix (skipn off content)) at 1.
  set (n := length (untilLF (skipn off content))).
  replace (off + n - ls)%nat with ((off - ls) + n)%nat by lia. rewrite firstn_plus. f_equal.
  rewrite skipn_skipn'. f_equal. f_equal. lia.
Qed.

Lemma C09_content_lemma : forall path content loc inner,
  (sp_start loc <= sp_end loc)%nat -> (sp_end loc <= length content)%nat ->
  Z.of_nat (length content) < 2147483647 ->
  let line := lineOf content (sp_start loc) in
  let '(ln, col) := position content (sp_start loc) in
  exists marks,
  locationErrorString (mkSource path content (lineStarts content)) loc inner =
    Some (path ++ B ":" ++ itoa ln ++ B ":" ++ itoa col ++ [LF] ++ inner ++ B ":" ++ [LF] ++
          [TAB] ++ replaceTabs line ++ [LF] ++ [TAB] ++
          repeatB (B " ") (Z.to_nat (col - 1) + countTabs line) ++ marks) /\
    (marks = repeatB (B "~") (sp_end loc - sp_start loc) \/
     exists n, (n < sp_end loc - sp_start loc)%nat /\ marks = repeatB (B "~") n ++ B ">").
Proof.
  intros path content loc inner H1 H2 H3.
  assert (Hlen : (length (lineStarts content) <= S (length content))%nat).
  { assert (H : forall s o, (length (linesIn o s) <= length s)%nat).
    { induction s as [|b s IH]; intros o; cbn; [lia|].
      destruct (Byte.eqb b LF); cbn; specialize (IH (S o)); lia. }
    unfold lineStarts. cbn [length]. specialize (H content 0%nat). lia. }
  destruct (annotate_spec (mkSource path content (lineStarts content)) loc) as (l & ls & E & En & Hle & Hnx & Ha); auto.
  { cbn [src_lines]. lia. }
  cbn [src_lines src_content] in *.
  pose proof (position_table content (sp_start loc) l ls ltac:(lia) En Hle Hnx) as Hp. rewrite Hp.
  pose proof (lineOf_table content (sp_start loc) l ls ltac:(lia) En Hle Hnx) as Hlo. cbv zeta.
  unfold locationErrorString. rewrite E, Ha, <- Hlo. cbn [src_path].
  eexists. split.
  - replace (Z.to_nat (Z.of_nat (sp_start loc) - Z.of_nat ls + 1 - 1)) with (sp_start loc - ls)%nat by lia.
    reflexivity.
  - set (stop := (sp_start loc + length (untilLF (skipn (sp_start loc) content)))%nat).
    destruct (Nat.ltb_spec stop (sp_end loc)).
    + right. rewrite Nat.min_r by lia. exists (stop - sp_start loc)%nat. split; [unfold stop in *; lia|reflexivity].
    + left. rewrite Nat.min_l by lia. apply app_nil_r.
Qed.

(** Columns beyond the int32 range. *)
Lemma C09_huge_lemma :
  exists s loc, hd_error (src_lines s) = Some 0%nat /\ (sp_start loc <= sp_end loc)%nat /\
    (sp_end loc <= length (src_content s))%nat /\ forall inner, locationErrorString s loc inner = None.
Proof.
  assert (Hex : exists n, Z.of_nat n = 2147483648) by (exists (Z.to_nat 2147483648); apply Z2Nat.id; lia).
  destruct Hex as [n Hn].
  exists (mkSource [] (repeat "a"%byte n) [0%nat]), (mkSpan n n). cbn [src_lines src_content sp_start sp_end].
  split; [reflexivity|]. split; [lia|]. split; [rewrite repeat_length; lia|].
  intros inner. unfold locationErrorString.
  assert (E : lineAndCol (mkSource [] (repeat "a"%byte n) [0%nat]) (mkSpan n n) = Some (1, -2147483647)).
  { unfold lineAndCol. cbn [src_lines sp_start].
    destruct (lineIndex_spec [0%nat] n eq_refl) as (l & ls & El & En & Hle & Hl & _).
    cbn in Hl. assert (l = 0%nat) by lia. subst l. rewrite El. cbn [nth_error]. rewrite Hn. reflexivity. }
  rewrite E. unfold annotateSourceSpan. rewrite E.
  unfold fullLine. rewrite E. cbn [Z.ltb Z.sub Z.compare Z.to_nat]. change (1 - 1 <? 0) with false. cbn iota.
  change (Z.to_nat (1 - 1)) with 0%nat. cbn [src_lines nth_error sp_start src_content].
  destruct (Nat.ltb_spec (length (repeat "a"%byte n)) n) as [Hx|Hx]; [rewrite repeat_length in Hx; lia|].
  rewrite skipn_all2 by (rewrite repeat_length; lia). change (findNewline []) with (@None nat).
  cbn iota. cbn [sp_start sp_end]. rewrite slice_ok by lia. rewrite Nat.sub_0_r, firstn_all. cbn [skipn].
  replace (countTabs (repeat "a"%byte n)) with 0%nat.
  - reflexivity.
  - unfold countTabs. clear. induction n; cbn; auto.
Qed.

(** * C42 *)
Lemma replaceTabs_len s : length (replaceTabs s) = (length s + countTabs s)%nat.
Proof.
  induction s as [|b s IH]; [reflexivity|]. unfold replaceTabs, countTabs in *. cbn [flat_map filter].
  rewrite app_length. destruct (Byte.eqb b Byte.x09); change (length (B "  ")) with 2%nat; cbn [length]; lia.
Qed.
Lemma countTabs_app s t : countTabs (s ++ t) = (countTabs s + countTabs t)%nat.
Proof. unfold countTabs. rewrite filter_app, app_length. reflexivity. Qed.
Lemma countTabs_0 s : countTabs s = 0%nat <-> ~ In TAB s.
Proof.
  induction s as [|b s IH]; cbn; [tauto|]. unfold countTabs in *. cbn [filter].
  destruct (Byte.eqb b Byte.x09) eqn:E.
  - apply byte_eqb_eq in E. subst. cbn. split; [lia|]. intros H; destruct H; left; auto.
  - split.
    + intros H [X|X]; [subst; discriminate|]. tauto.
    + intros H. apply IH. tauto.
Qed.

Lemma walk_col s : forall l c, (~ In LF s -> snd (walk l c s) = c + Z.of_nat (length s)).
Proof.
  induction s as [|b s IH]; intros l c H; cbn [walk length]; [cbn; lia|].
  destruct (Byte.eqb b LF) eqn:E; [apply byte_eqb_eq in E; subst; destruct H; left; auto|].
  rewrite IH; [lia|]. intros X; apply H; right; auto.
Qed.

Lemma position_before content off : snd (position content off) = Z.of_nat (length (lineBefore content off)) + 1.
Proof.
  unfold position, lineBefore. rewrite rev_length. set (s := firstn off content). clearbody s.
  assert (H : forall l c, snd (walk l c s) = match untilLF (rev s) with u =>
     if in_dec Byte.byte_eq_dec LF s then Z.of_nat (length u) + 1 else c + Z.of_nat (length s) end).
  { induction s as [|b s IH] using rev_ind; intros l c; [cbn; lia|].
    rewrite walk_app. specialize (IH l c). destruct (walk l c s) as [l' c'] eqn:W. cbn [snd] in IH.
    rewrite rev_app_distr. cbn [rev app walk untilLF]. destruct (Byte.eqb b LF) eqn:E.
    - apply byte_eqb_eq in E. subst b. cbn. destruct (in_dec Byte.byte_eq_dec LF (s ++ [LF])) as [|n]; [reflexivity|].
      destruct n. apply in_or_app. right; left; auto.
    - cbn [snd length]. rewrite IH, app_length. cbn [length].
      destruct (in_dec Byte.byte_eq_dec LF s) as [i|n]; destruct (in_dec Byte.byte_eq_dec LF (s ++ [b])) as [j|m]; try lia.
      + destruct m. apply in_or_app; auto.
      + apply in_app_or in j as [j|[j|[]]]; [contradiction|]. subst. discriminate. }
  rewrite H. cbv zeta. destruct (in_dec Byte.byte_eq_dec LF s) as [i|n]; auto.
  rewrite <- (app_nil_r (rev s)), untilLF_app_no by (rewrite <- in_rev; auto).
  cbn [untilLF]. rewrite app_nil_r, rev_length. lia.
Qed.

Lemma repeatB_one b n : repeatB [b] n = repeat b n.
Proof. induction n as [|n IH]; cbn; [auto|]. f_equal. exact IH. Qed.
Lemma C42_lemma : forall path content loc inner,
  (sp_start loc <= sp_end loc)%nat -> (sp_end loc <= length content)%nat ->
  Z.of_nat (length content) < 2147483647 ->
  let before := lineBefore content (sp_start loc) in
  let after := untilLF (skipn (sp_start loc) content) in
  let '(ln, col) := position content (sp_start loc) in
  exists blanks,
  locationErrorString (mkSource path content (lineStarts content)) loc inner =
    Some (path ++ B ":" ++ itoa ln ++ B ":" ++ itoa col ++ [LF] ++ inner ++ B ":" ++ [LF] ++
          [TAB] ++ shown (before ++ after) ++ [LF] ++ [TAB] ++ repeat " "%byte blanks ++
          repeat "~"%byte (Nat.min (sp_end loc - sp_start loc) (length after)) ++
          if (length after <? sp_end loc - sp_start loc)%nat then B ">" else []) /\
  (blanks = length (shown before) <-> ~ In TAB after).
Proof.
  intros path content loc inner H1 H2 H3.
  assert (Hlen : (length (lineStarts content) <= S (length content))%nat).
  { assert (H : forall s o, (length (linesIn o s) <= length s)%nat).
    { induction s as [|b s IH]; intros o; cbn; [lia|].
      destruct (Byte.eqb b LF); cbn; specialize (IH (S o)); lia. }
    unfold lineStarts. cbn [length]. specialize (H content 0%nat). lia. }
  destruct (annotate_spec (mkSource path content (lineStarts content)) loc) as (l & ls & E & En & Hle & Hnx & Ha); auto.
  { cbn [src_lines]. lia. }
  cbn [src_lines src_content] in *.
  pose proof (position_table content (sp_start loc) l ls ltac:(lia) En Hle Hnx) as Hp. pose proof (position_before content (sp_start loc)) as Hb.
  rewrite Hp in Hb |- *. cbn [snd] in Hb.
  pose proof (lineOf_table content (sp_start loc) l ls ltac:(lia) En Hle Hnx) as Hlo. cbv zeta.
  unfold locationErrorString. rewrite E, Ha, <- Hlo. cbn [src_path].
  set (after := untilLF (skipn (sp_start loc) content)) in *. set (before := lineBefore content (sp_start loc)) in *.
  assert (Hl : lineOf content (sp_start loc) = before ++ after) by reflexivity. rewrite Hl.
  exists (length before + countTabs (before ++ after))%nat. split.
  - replace (sp_start loc - ls)%nat with (length before) by lia. change (B " ") with [" "%byte]. change (B "~") with ["~"%byte]. rewrite !repeatB_one.
    replace (Nat.min (sp_end loc) (sp_start loc + length after) - sp_start loc)%nat with (Nat.min (sp_end loc - sp_start loc) (length after)) by lia.
    destruct (Nat.ltb_spec (sp_start loc + length after) (sp_end loc)); destruct (Nat.ltb_spec (length after) (sp_end loc - sp_start loc)); try lia; reflexivity.
  - change (shown before) with (replaceTabs before). rewrite replaceTabs_len, countTabs_app, <- countTabs_0. lia.
Qed.

Lemma C42_refuted_lemma :
  exists content loc, (sp_start loc < sp_end loc <= length content)%nat /\
    locationErrorString (mkSource (B "f") content (lineStarts content)) loc (B "bad") =
    Some (B "f:1:1" ++ [LF] ++ B "bad:" ++ [LF] ++ [TAB] ++ B "x  y" ++ [LF] ++ [TAB] ++ B " ~").
Proof.
  exists (B "x" ++ [TAB] ++ B "y"), (mkSpan 0 1). split; [cbn; lia|]. vm_compute. reflexivity.
Qed.

Lemma C07_huge_lemma :
  exists content loc, (sp_start loc <= length content)%nat /\
    lineAndCol (mkSource [] content (lineStarts content)) loc = Some (1, -2147483647) /\
    position content (sp_start loc) = (1, 2147483649).
Proof.
  assert (Hex : exists n, Z.of_nat n = 2147483648) by (exists (Z.to_nat 2147483648); apply Z2Nat.id; lia).
  destruct Hex as [n Hn]. exists (repeat "a"%byte n), (mkSpan n n). cbn [sp_start].
  assert (Hl : forall o, linesIn o (repeat "a"%byte n) = []). { clear. induction n; intros o; cbn; auto. }
  split; [rewrite repeat_length; lia|]. split.
  - unfold lineStarts. rewrite Hl. unfold lineAndCol. cbn [src_lines sp_start].
    destruct (lineIndex_spec [0%nat] n eq_refl) as (l & ls & El & En & Hle & Hlt & _).
    cbn in Hlt. assert (l = 0%nat) by lia. subst l. rewrite El. cbn [nth_error]. rewrite Hn. reflexivity.
  - unfold position. rewrite firstn_all2 by (rewrite repeat_length; lia).
    rewrite (walk_lines _ 1 1 0), Hl. cbn [length rev]. rewrite repeat_length. f_equal. lia.
Qed.
