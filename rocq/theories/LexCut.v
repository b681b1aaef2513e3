(** The lexer's cursor as a list of characters still to be read, and what its
    one-step tests say about that list. *)
From Verif Require Import Bytes Utf8 Source Lexer BytesFacts LexSpec LexFacts LexNext LexGrammar.

(** * Cutting *)
Fixpoint cutFuel (fuel : nat) (s : bytes) : list char :=
  match fuel, s with
  | O, _ | _, [] => []
  | S f, _ => (fst (chOf s), firstn (snd (chOf s)) s) :: cutFuel f (skipn (snd (chOf s)) s)
  end.
Definition chars (s : bytes) : list char := cutFuel (length s) s.

Lemma cutFuel_enough f g s : (length s <= f)%nat -> (length s <= g)%nat -> cutFuel f s = cutFuel g s.
Proof.
  revert g s. induction f as [|f IH]; intros g s Hf Hg.
  { destruct s; [|simpl in Hf; lia]. destruct g; reflexivity. }
  destruct s as [|b s]; [destruct g; reflexivity|].
  destruct g as [|g]; [simpl in Hg; lia|]. cbn [cutFuel]. f_equal.
  pose proof (chOf_nonempty (b :: s)) as [Hb _]; [congruence|].
  apply IH; rewrite skipn_length; simpl length in *; lia.
Qed.
Lemma chars_cons s : s <> [] ->
  chars s = (fst (chOf s), firstn (snd (chOf s)) s) :: chars (skipn (snd (chOf s)) s).
Proof.
  intros Hs. unfold chars. destruct s as [|b s]; [congruence|]. cbn [length cutFuel]. f_equal.
  pose proof (chOf_nonempty (b :: s)) as [Hb _]; [congruence|].
  apply cutFuel_enough; rewrite skipn_length; simpl length in *; lia.
Qed.
Lemma chars_ind (P : bytes -> Prop) : P [] ->
  (forall s, s <> [] -> P (skipn (snd (chOf s)) s) -> P s) -> forall s, P s.
Proof.
  intros H0 H1 s. remember (length s) as n eqn:En. revert s En.
  induction n as [n IH] using lt_wf_ind. intros s ->.
  destruct s as [|b s]; auto. apply H1; [congruence|].
  pose proof (chOf_nonempty (b :: s)) as [Hb _]; [congruence|].
  eapply IH; [|reflexivity]. rewrite skipn_length. simpl length in *; lia.
Qed.
Lemma flat_chars s : flat (chars s) = s.
Proof.
  induction s as [|s Hs IH] using chars_ind; [reflexivity|].
  rewrite chars_cons by auto. unfold flat in *. cbn [map concat snd]. rewrite IH. apply firstn_skipn.
Qed.
Lemma chars_nil s : chars s = [] <-> s = [].
Proof.
  split; [|intros ->; reflexivity]. intros H. rewrite <- (flat_chars s), H. reflexivity.
Qed.

Lemma decode13 b s c n : decodeRune (b :: s) = (c, n) -> c = 13 -> b = CR /\ n = 1%nat.
Proof.
  intros H Hc. subst c. apply decodeRune_low in H as (b' & s' & E & Hb & ->); [|lia].
  inversion E; subst b' s'. split; auto. apply bz_inj. rewrite <- Hb. reflexivity.
Qed.
Lemma cuts_chars s : cuts s (chars s).
Proof.
  induction s as [|s Hs IH] using chars_ind; [constructor|].
  rewrite chars_cons by auto. destruct s as [|b s]; [congruence|]. revert IH. unfold chOf.
  destruct (decodeRune (b :: s)) as [c n] eqn:E. destruct (Z.eqb_spec c 13) as [Ec|Nc].
  - destruct (decode13 _ _ _ _ E Ec) as [-> ->]. cbn [skipn].
    destruct (decodeRune s) as [c' n'] eqn:E'. cbn [fst snd Nat.add skipn firstn]. intros IH.
    apply cutFold; auto.
  - cbn [fst snd]. intros IH. apply cutPlain; auto.
Qed.
Lemma cuts_fun s cs : cuts s cs -> cs = chars s.
Proof.
  induction 1 as [|s c n cs Hs E Nc H IH|s c n cs E H IH]; [reflexivity| |].
  - rewrite chars_cons by auto. subst cs. unfold chOf. destruct s as [|b s]; [congruence|].
    rewrite E. destruct (Z.eqb_spec c 13); [contradiction|]. reflexivity.
  - rewrite chars_cons by congruence. subst cs.
    assert (E0 : decodeRune (CR :: s) = (13, 1%nat)) by (apply decodeRune_ascii; cbn; lia).
    unfold chOf. rewrite E0. change (13 =? 13) with true. cbn [skipn]. rewrite E.
    cbn [fst snd Nat.add skipn firstn]. reflexivity.
Qed.

(** A low character that is not folded takes one byte. *)
Lemma chars_low s c t b : chars s = c :: t -> sees b c -> bz b < 128 -> snd c = [b] /\ s = b :: flat t /\ chars (flat t) = t.
Proof.
  intros H [Hc Hr] Hb. unfold is in Hc.
  assert (Hs : s <> []) by (intros ->; discriminate). rewrite chars_cons in H by auto.
  injection H as <- <-. cbn [fst snd] in *. rewrite flat_chars.
  destruct s as [|b0 s]; [congruence|]. unfold chOf in *.
  destruct (decodeRune (b0 :: s)) as [c n] eqn:E. destruct (Z.eqb_spec c 13) as [Ec|Nc].
  - destruct (decode13 _ _ _ _ E Ec) as [-> ->]. cbn [skipn] in *.
    destruct (decodeRune s) as [c' n']. cbn [fst snd Nat.add firstn] in *. edestruct Hr; reflexivity.
  - cbn [fst snd] in *. subst c. apply decodeRune_low in E as (b' & s' & E & Hb' & ->); [|lia].
    inversion E; subst b' s'. apply bz_inj in Hb'. subst b0. cbn [firstn skipn]. auto.
Qed.

(** * Looking at a character without reading it *)
Definition look (r : list char) : Z :=
  match r with
  | [] => -1
  | c :: _ => match snd c with b :: _ => if Byte.eqb b CR then 13 else fst c | [] => fst c end
  end.
Lemma raw_iff c : raw c <-> (forall b u, snd c = b :: u -> Byte.eqb b CR = false).
Proof.
  unfold raw. split.
  - intros H b u E. destruct (Byte.eqb b CR) eqn:Eb; auto. apply byte_eqb_eq in Eb. subst b. edestruct H; eauto.
  - intros H u E. apply H in E. discriminate.
Qed.
Lemma look_raw c t : raw c -> look (c :: t) = fst c.
Proof.
  intros H. unfold look. destruct (snd c) as [|b u] eqn:E; auto.
  rewrite (proj1 (raw_iff c) H _ _ E). reflexivity.
Qed.
Lemma look_cases c t : (raw c /\ look (c :: t) = fst c) \/ (~ raw c /\ look (c :: t) = 13).
Proof.
  unfold look. destruct (snd c) as [|b u] eqn:E.
  - left. split; auto. intros v. rewrite E. discriminate.
  - destruct (Byte.eqb b CR) eqn:Eb.
    + right. split; auto. apply byte_eqb_eq in Eb. subst b. intros H. apply (H u). exact E.
    + left. split; auto. intros v. rewrite E. intros X. inversion X; subst. discriminate.
Qed.
Lemma look_test (p : Z -> bool) t : p (-1) = false -> p 13 = false ->
  (p (look t) = true <-> starts (fun c => p (fst c) = true /\ raw c) t).
Proof.
  intros P1 P13. unfold starts. split.
  - intros H. destruct t as [|c t]; [cbn in H; congruence|].
    destruct (look_cases c t) as [[R E]|[R E]]; rewrite E in H; [|congruence]. eauto.
  - intros (c & t' & -> & Hp & R). rewrite look_raw; auto.
Qed.
Lemma look_sees b t : bz b <> 13 -> (look t = bz b <-> starts (sees b) t).
Proof.
  intros Nb. unfold starts, sees, is. split.
  - intros H. destruct t as [|c t]; [cbn in H; pose proof (bz_range b); lia|].
    destruct (look_cases c t) as [[R E]|[R E]]; rewrite E in H; [|congruence]. eauto.
  - intros (c & t' & -> & Hc & R). rewrite look_raw; auto.
Qed.
Lemma look_code s : look (chars s) = match s with [] => -1 | _ => fst (decodeRune s) end.
Proof.
  destruct s as [|b s]; [reflexivity|]. rewrite chars_cons by congruence.
  unfold chOf. destruct (decodeRune (b :: s)) as [c n] eqn:E.
  destruct (Z.eqb_spec c 13) as [Ec|Nc].
  - destruct (decode13 _ _ _ _ E Ec) as [-> ->]. cbn [skipn].
    destruct (decodeRune s) as [c' n']. cbn [fst snd Nat.add firstn look]. rewrite Ec. reflexivity.
  - cbn [fst snd]. pose proof (decodeRune_cons _ _ _ _ E) as (Hn & _).
    destruct n as [|n]; [lia|]. cbn [firstn look snd fst].
    destruct (Byte.eqb b CR) eqn:Eb; [|reflexivity]. apply byte_eqb_eq in Eb. subst b.
    rewrite decodeRune_ascii in E by (cbn; lia). inversion E. reflexivity.
Qed.

(** * The cursor *)
Definition todo (l : lexer) : list char := chars (rest l).

Lemma todo_end l : cwf l -> (l_ch l = -1 <-> todo l = []).
Proof. intros W. rewrite cwf_eof by auto. symmetry. apply chars_nil. Qed.
Lemma rest_step l : cwf l -> l_ch l <> -1 -> rest (step l) = skipn (snd (chOf (rest l))) (rest l).
Proof.
  intros W Hc. destruct (step_moves _ W Hc) as (_ & H & _).
  rewrite H at 2. rewrite skipn_app. rewrite firstn_length_le by apply chOf_bound.
  rewrite Nat.sub_diag. cbn [skipn]. rewrite skipn_all2; [reflexivity|].
  rewrite firstn_length_le by apply chOf_bound. lia.
Qed.
Lemma todo_step l : cwf l -> l_ch l <> -1 -> todo l = (l_ch l, unitOf l) :: todo (step l).
Proof.
  intros W Hc. unfold todo. rewrite rest_step by auto.
  assert (Hr : rest l <> []) by (intro E; apply Hc; apply cwf_eof; auto).
  rewrite chars_cons by auto. destruct W as (_ & -> & _). reflexivity.
Qed.
Lemma todo_cons l c t : cwf l -> todo l = c :: t ->
  l_ch l = fst c /\ l_ch l <> -1 /\ unitOf l = snd c /\ todo (step l) = t /\ cwf (step l).
Proof.
  intros W H. assert (Hc : l_ch l <> -1). { intro E. apply todo_end in E; auto. congruence. }
  rewrite todo_step in H by auto. injection H as <- <-. repeat split; auto; apply (step_moves _ W Hc).
Qed.
Lemma todo_pos l c t : cwf l -> todo l = c :: t -> skipn (l_pos l) (l_content l) = flat t.
Proof.
  intros W H. destruct (todo_cons _ _ _ W H) as (_ & Hc & _ & Ht & _).
  rewrite <- Ht. unfold todo. rewrite flat_chars, rest_step by auto.
  destruct W as (W1 & W2 & W3). rewrite W3. unfold rest. rewrite skipn_skipn'. reflexivity.
Qed.

(** [peeks t q0 q1 q2]: what looking ahead sees of [t].  The offsets are
    bytes, so the second value is meaningful only if the first character seen
    is one byte, and so on. *)
Definition low (c : char) : Prop := fst c < 128 /\ raw c.
Definition peeks2 (t : list char) (q0 q1 : Z) : Prop :=
  q0 = look t /\ forall c t1, t = c :: t1 -> low c -> q1 = look t1.
Definition peeks (t : list char) (q0 q1 q2 : Z) : Prop :=
  q0 = look t /\ forall c t1, t = c :: t1 -> low c -> peeks2 t1 q1 q2.
Lemma peeks_2 t q0 q1 q2 : peeks t q0 q1 q2 -> peeks2 t q0 q1.
Proof. intros [E H]. split; auto. intros c t1 E1 L. apply (H c t1 E1 L). Qed.

Lemma peek_look l i : peek l i = look (chars (skipn (l_pos l + i) (l_content l))).
Proof.
  rewrite look_code. unfold peek.
  destruct (Nat.ltb_spec (length (l_content l)) (l_pos l + i)).
  - rewrite skipn_all2 by lia. reflexivity.
  - destruct (skipn (l_pos l + i) (l_content l)) as [|b s]; [reflexivity|].
    destruct (decodeRune (b :: s)) as [c n] eqn:E. pose proof (decodeRune_cons _ _ _ _ E) as (Hn & _).
    destruct (Nat.eqb_spec n 0); [lia|]. reflexivity.
Qed.
Lemma chars_byte s c t : chars s = c :: t -> low c -> chars (skipn 1 s) = t.
Proof.
  intros H [Hl Hr]. assert (Hs : s <> []) by (intros ->; discriminate).
  assert (0 <= fst c).
  { rewrite chars_cons in H by auto. injection H as <- _. cbn. apply chOf_nonempty; auto. }
  destruct (chars_low s c t (byteOf (fst c))) as (_ & -> & E); auto.
  - split; auto. unfold is, byteOf.
    assert (Hb : exists b, Byte.of_N (Z.to_N (fst c)) = Some b).
    { destruct (Byte.of_N (Z.to_N (fst c))) eqn:E; eauto. apply Byte.of_N_None_iff in E. lia. }
    destruct Hb as [b Hb]. rewrite Hb. apply Byte.to_of_N_iff in Hb. unfold bz. rewrite Hb. lia.
  - unfold byteOf. destruct (Byte.of_N (Z.to_N (fst c))) as [b|] eqn:Hb; [|cbn; lia].
    apply Byte.to_of_N_iff in Hb. unfold bz. rewrite Hb. lia.
Qed.
Lemma peeks_todo l c t : cwf l -> todo l = c :: t -> peeks t (peek l 0) (peek l 1) (peek l 2).
Proof.
  intros W H. rewrite !peek_look, Nat.add_0_r.
  pose proof (todo_pos _ _ _ W H) as Hp.
  assert (Hc : chars (skipn (l_pos l) (l_content l)) = t).
  { rewrite Hp. destruct (todo_cons _ _ _ W H) as (_ & _ & _ & <- & _).
    unfold todo. rewrite flat_chars. reflexivity. }
  rewrite <- (skipn_skipn' 1), <- (skipn_skipn' 2). split; [congruence|].
  intros d t1 E1 L1. rewrite E1 in Hc. pose proof (chars_byte _ _ _ Hc L1) as H1.
  split; [congruence|]. intros e t2 E2 L2. rewrite E2 in H1.
  pose proof (chars_byte _ _ _ H1 L2) as H2. rewrite (skipn_skipn' 1 1) in H2. cbn [Nat.add] in H2. congruence.
Qed.
Lemma peeks_nil l : cwf l -> todo l = [] -> peek l 0 = -1 /\ peek l 1 = -1.
Proof.
  intros W H. assert (Hr : rest l = []) by (apply chars_nil; exact H).
  rewrite !peek_look. destruct W as (W1 & W2 & W3). rewrite Hr in W3. cbn in W3.
  unfold rest in Hr.
  assert (length (l_content l) <= l_lastPos l)%nat.
  { pose proof (f_equal (@length _) Hr) as L. rewrite skipn_length in L. cbn in L. lia. }
  rewrite !skipn_all2 by lia. auto.
Qed.

(** * Character classes *)
Lemma b_ws c : isWhitespace (fst c) = true <-> blank c.
Proof.
  unfold isWhitespace, blank, is. rewrite !orb_true_iff, !Z.eqb_eq.
  change (bz SP) with 32. change (bz TAB) with 9. change (bz LF) with 10. tauto.
Qed.
Lemma b_name0 c : isNameStartCodePoint (fst c) = true <-> nameStart c.
Proof.
  unfold isNameStartCodePoint, nameStart, within, is.
  rewrite !orb_true_iff, !andb_true_iff, !Z.leb_le, Z.eqb_eq.
  change (bz "A") with 65. change (bz "Z") with 90. change (bz "a") with 97. change (bz "z") with 122.
  change (bz "_") with 95. tauto.
Qed.
Lemma b_name c : isNameCodePoint (fst c) = true <-> nameChar c.
Proof.
  unfold isNameCodePoint, nameChar. rewrite !orb_true_iff, b_name0, andb_true_iff, !Z.leb_le, Z.eqb_eq.
  unfold within, is. change (bz "0") with 48. change (bz "9") with 57. change (bz "-") with 45. tauto.
Qed.
Lemma b_np c : isNonPrintable (fst c) = true <-> nonPrintable c.
Proof.
  unfold isNonPrintable, nonPrintable, within, is.
  rewrite !orb_true_iff, !andb_true_iff, !Z.leb_le, !Z.eqb_eq.
  change (bz Byte.x00) with 0. change (bz Byte.x08) with 8. change (bz Byte.x0b) with 11.
  change (bz Byte.x0e) with 14. change (bz Byte.x1f) with 31. change (bz Byte.x7f) with 127. tauto.
Qed.
Lemma b_url s : isURLString s = true <-> urlName s.
Proof.
  unfold isURLString, urlName. destruct s as [|a [|b [|c [|]]]];
    try (split; [discriminate|intros (?&?&?&E&_); discriminate]).
  rewrite !andb_true_iff, !orb_true_iff, !Z.eqb_eq.
  assert (K : forall x y, bz x = bz y <-> x = y). { split; [apply bz_inj|congruence]. }
  change 117 with (bz "u"). change 85 with (bz "U"). change 114 with (bz "r"). change 82 with (bz "R").
  change 108 with (bz "l"). change 76 with (bz "L"). rewrite !K.
  split.
  - intros [[A Bb] C]. exists a, b, c. auto.
  - intros (a' & b' & c' & E & A & Bb & C). inversion E; subst. auto.
Qed.

Section WithUnicode.
Context {U : UnicodeDigits}.
Lemma b_hex c : isHexDigit (fst c) = true <-> hex c.
Proof.
  unfold isHexDigit, hex, digit, within. rewrite !orb_true_iff, !andb_true_iff, !Z.leb_le.
  change (bz "A") with 65. change (bz "F") with 70. change (bz "a") with 97. change (bz "f") with 102. tauto.
Qed.

(** * Looking ahead *)
Lemma low_sees b c : bz b < 128 -> sees b c -> low c.
Proof. intros H [E R]. split; auto. rewrite E. exact H. Qed.

Lemma t_digit t : isDigit (look t) = true <-> starts rawDigit t.
Proof. apply (look_test isDigit); reflexivity. Qed.
Lemma t_name t : isNameCodePoint (look t) = true <-> starts (fun d => nameChar d /\ raw d) t.
Proof.
  rewrite look_test by reflexivity. unfold starts.
  split; intros (c & r & E & H & R); exists c, r; split; auto; split; auto; apply b_name; auto.
Qed.

Lemma starts_head P (c : char) t : starts P (c :: t) <-> P c.
Proof. split; [intros (d & r & E & H); inversion E; subst; auto | intros; exists c, t; auto]. Qed.
Lemma starts_nil P : ~ starts P [].
Proof. intros (d & r & E & H). discriminate. Qed.

Lemma esc_now c t p : look t = p -> (startsEscape (fst c) p = true <-> opensEscape (c :: t)).
Proof.
  intros <-. unfold startsEscape, opensEscape. destruct (Z.eqb_spec (fst c) 92) as [E|N]; cbn [negb].
  - destruct (Z.eqb_spec (look t) 10) as [E'|N'].
    + split; [discriminate|]. intros (d & r & X & _ & H). inversion X; subst. elim H.
      apply look_sees; [cbn; lia|exact E'].
    + split; auto. intros _. exists c, t. split; auto. split; [exact E|].
      intros H. apply N'. apply look_sees in H; [exact H|cbn; lia].
  - split; [discriminate|]. intros (d & r & X & H & _). inversion X; subst. elim N. exact H.
Qed.
Lemma esc_ahead t q0 q1 : peeks2 t q0 q1 -> (startsEscape q0 q1 = true <-> seesEscape t).
Proof.
  intros (-> & H). unfold seesEscape. destruct t as [|c t].
  { split; [discriminate|]. intros [_ X]. destruct (starts_nil _ X). }
  rewrite starts_head. destruct (look_cases c t) as [[R E]|[R E]]; rewrite E.
  - destruct (Z.lt_ge_cases (fst c) 128) as [L|L].
    + pose proof (H c t eq_refl (conj L R)) as E1. rewrite (esc_now c t) by auto. tauto.
    + split.
      * intros X. apply startsEscape_ch in X. lia.
      * intros [(d & r & X & Y & _) _]. inversion X; subst. unfold is in Y. cbn in Y. lia.
  - split; [discriminate|tauto].
Qed.

Lemma unsigned_ahead t q0 q1 : peeks2 t q0 q1 ->
  (isDigit q0 || ((q0 =? 46) && isDigit q1) = true <-> seesUnsigned t).
Proof.
  intros (-> & H). unfold seesUnsigned. rewrite orb_true_iff, t_digit, andb_true_iff, Z.eqb_eq.
  change 46 with (bz "."). rewrite look_sees by (cbn; lia).
  split; (intros [X|X]; [left; exact X|right]).
  - destruct X as [(c & t1 & -> & Hc) D].
    rewrite (H c t1 eq_refl) in D; [|apply (low_sees "."); auto; cbn; lia].
    apply t_digit in D as (d & t2 & -> & Hd). eauto 6.
  - destruct X as (p & d & t2 & -> & Hp & Hd). split; [exists p, (d :: t2); auto|].
    rewrite (H p (d :: t2) eq_refl); [|apply (low_sees "."); auto; cbn; lia].
    apply t_digit. exists d, t2; auto.
Qed.
Lemma number_signed c t q0 q1 : peeks2 t q0 q1 -> (c = 43 \/ c = 45) ->
  (startsNumber c q0 q1 = true <-> seesUnsigned t).
Proof.
  intros H Hc. rewrite <- (unsigned_ahead _ _ _ H). unfold startsNumber.
  assert ((c =? 43) || (c =? 45) = true) as -> by (apply orb_true_iff; rewrite !Z.eqb_eq; auto).
  destruct (isDigit q0); [tauto|]. destruct ((q0 =? 46) && isDigit q1); tauto.
Qed.
Lemma sign_look t : look t = 43 \/ look t = 45 -> starts (fun s => sees "+" s \/ sees "-" s) t.
Proof.
  intros [Es|Es].
  - apply (look_sees "+") in Es; [|cbn; lia]. destruct Es as (s & t1 & -> & Hs). exists s, t1; auto.
  - apply (look_sees "-") in Es; [|cbn; lia]. destruct Es as (s & t1 & -> & Hs). exists s, t1; auto.
Qed.
Lemma look_sign s t : sees "+" s \/ sees "-" s -> look (s :: t) = 43 \/ look (s :: t) = 45.
Proof.
  intros [Hs|Hs]; [left; apply (look_sees "+")|right; apply (look_sees "-")]; try (cbn; lia); exists s, t; auto.
Qed.
Lemma sign_low s : sees "+" s \/ sees "-" s -> low s.
Proof. intros [Hs|Hs]; eapply low_sees; eauto; cbn; lia. Qed.

Lemma number_ahead t q0 q1 q2 : peeks t q0 q1 q2 ->
  (startsNumber q0 q1 q2 = true <-> seesNumber t).
Proof.
  intros H. pose proof (unsigned_ahead _ _ _ (peeks_2 _ _ _ _ H)) as HU. destruct H as (E0 & H).
  unfold seesNumber. rewrite <- HU. unfold startsNumber.
  destruct ((q0 =? 43) || (q0 =? 45)) eqn:Es.
  - apply orb_true_iff in Es. rewrite !Z.eqb_eq in Es.
    assert (isDigit q0 || ((q0 =? 46) && isDigit q1) = false) as ->.
    { destruct Es as [-> | ->]; reflexivity. }
    rewrite E0 in Es. destruct (sign_look t Es) as (s & t1 & -> & Hs).
    pose proof (unsigned_ahead _ _ _ (H s t1 eq_refl (sign_low _ Hs))) as HU1.
    transitivity (isDigit q1 || ((q1 =? 46) && isDigit q2) = true).
    { destruct (isDigit q1); [tauto|]. destruct ((q1 =? 46) && isDigit q2); tauto. }
    rewrite HU1. split.
    + intros X. right. eauto.
    + intros [X|(s' & t' & E & _ & X)]; [discriminate|]. inversion E; subst; auto.
  - transitivity (isDigit q0 || ((q0 =? 46) && isDigit q1) = true).
    { destruct ((q0 =? 46) && isDigit q1), (isDigit q0); cbn; tauto. }
    split; [tauto|]. intros [X|(s & t1 & -> & Hs & _)]; auto. exfalso.
    pose proof (look_sign s t1 Hs) as X. rewrite <- E0 in X.
    apply orb_false_iff in Es. rewrite !Z.eqb_neq in Es. lia.
Qed.

(** [startsIdentifier] on the current character, and on what is ahead. *)
Lemma name_now c t q0 q1 : peeks2 t q0 q1 ->
  (startsIdentifier (fst c) q0 q1 = true <-> opensName (c :: t)).
Proof.
  intros H. pose proof (esc_ahead _ _ _ H) as HE. destruct H as (E0 & H).
  unfold startsIdentifier, opensName. destruct (Z.eqb_spec (fst c) 45) as [Ec|Nc].
  - assert (Hm : (q0 =? 45) || isNameCodePoint q0 = isNameCodePoint q0).
    { destruct (Z.eqb_spec q0 45) as [->|]; reflexivity. }
    rewrite Hm, orb_true_iff, HE, E0, t_name. split.
    + intros X. exists c, t. split; auto.
    + intros (d & r & X & [[_ Y]|[_ Y]]); inversion X; subst; auto. elim Y. exact Ec.
  - assert (Hm : (if fst c =? 10 then false else isNameCodePoint (fst c)) = isNameCodePoint (fst c)).
    { destruct (Z.eqb_spec (fst c) 10) as [->|]; reflexivity. }
    rewrite Hm, b_name. split.
    + intros X. exists c, t. split; auto.
    + intros (d & r & X & [[Y _]|[Y _]]); inversion X; subst; auto. elim Nc. exact Y.
Qed.
Lemma name_ahead t q0 q1 q2 : peeks t q0 q1 q2 ->
  (startsIdentifier q0 q1 q2 = true <-> seesName t).
Proof.
  intros (E0 & H). unfold seesName. destruct t as [|c t].
  { rewrite E0. split; [discriminate|]. intros [_ X]. destruct (starts_nil _ X). }
  rewrite starts_head. destruct (look_cases c t) as [[R E]|[R E]]; rewrite E in E0; subst q0.
  - destruct (Z.lt_ge_cases (fst c) 128) as [L|L].
    + rewrite (name_now c t q1 q2) by (apply (H c t eq_refl); split; auto). tauto.
    + assert (startsIdentifier (fst c) q1 q2 = true).
      { unfold startsIdentifier. destruct (Z.eqb_spec (fst c) 45); [lia|]. destruct (Z.eqb_spec (fst c) 10); [lia|].
        apply b_name. left. right. right. right. lia. }
      split; auto. intros _. split; auto. exists c, t. split; auto. right. split; [left; right; right; right; lia|].
      unfold is. cbn. lia.
  - split; [discriminate|tauto].
Qed.
Lemma hash_ahead t q0 q1 : peeks2 t q0 q1 ->
  (isNameCodePoint q0 || startsEscape q0 q1 = true <-> seesHash t).
Proof.
  intros H. unfold seesHash. rewrite orb_true_iff, (esc_ahead _ _ _ H). destruct H as (-> & _). rewrite t_name. tauto.
Qed.
Lemma sees_ahead t q0 q1 q2 a b : peeks t q0 q1 q2 -> bz a < 128 -> bz b < 128 -> bz a <> 13 -> bz b <> 13 ->
  (q0 = bz a /\ q1 = bz b <-> exists x y r, t = x :: y :: r /\ sees a x /\ sees b y).
Proof.
  intros (-> & H) La Lb Na Nb. rewrite look_sees by auto. split.
  - intros [(x & t1 & -> & Hx) E]. destruct (H x t1 eq_refl (low_sees _ _ La Hx)) as [E1 _].
    rewrite E1 in E. apply look_sees in E as (y & r & -> & Hy); auto. exists x, y, r; auto.
  - intros (x & y & r & -> & Hx & Hy). split; [exists x, (y :: r); auto|].
    destruct (H x (y :: r) eq_refl (low_sees _ _ La Hx)) as [E2 _].
    rewrite E2. apply look_sees; auto. exists y, r; auto.
Qed.
Lemma cdc_ahead t q0 q1 q2 : peeks t q0 q1 q2 -> ((q0 =? 45) && (q1 =? 62) = true <-> closesCDC t).
Proof.
  intros H. rewrite andb_true_iff, !Z.eqb_eq. apply (sees_ahead t q0 q1 q2 "-" ">" H); cbn; lia.
Qed.
Lemma cdo_ahead t q0 q1 q2 : peeks t q0 q1 q2 ->
  ((q0 =? 33) && (q1 =? 45) && (q2 =? 45) = true <-> opensCDO t).
Proof.
  intros H. rewrite !andb_true_iff, !Z.eqb_eq.
  rewrite (sees_ahead t q0 q1 q2 "!" "-" H) by (cbn; lia). unfold opensCDO. destruct H as (_ & H). split.
  - intros [(x & y & r & -> & Hx & Hy) E].
    destruct (H x (y :: r) eq_refl) as [_ E1]; [eapply low_sees; eauto; cbn; lia|].
    rewrite (E1 y r eq_refl) in E by (eapply low_sees; eauto; cbn; lia).
    apply (look_sees "-") in E as (z & r' & -> & Hz); [|cbn; lia]. exists x, y, z, r'; auto.
  - intros (x & y & z & r & -> & Hx & Hy & Hz). split; [exists x, y, (z :: r); auto|].
    destruct (H x (y :: z :: r) eq_refl) as [_ E1]; [eapply low_sees; eauto; cbn; lia|].
    rewrite (E1 y (z :: r) eq_refl) by (eapply low_sees; eauto; cbn; lia).
    apply (look_sees "-"); [cbn; lia|]. exists z, r; auto.
Qed.
End WithUnicode.
