(** Printed text with its source map, read again. *)
From Verif Require Import Bytes Utf8 Source Ast Lexer Parser Printer PrinterSpec Strip.
From Verif Require Import BytesFacts LexSpec LexFacts LexProps MapProofs PrintStrip Vlq RoundSpec RoundLex RoundValue RoundSheet RoundTrip.

(** * White space and a comment at the end of a text *)
Definition inComment (c : byte) : Prop := ascii c /\ bz c <> 42.
Definition star : byte := "*"%byte.
Definition slash : byte := "/"%byte.
Definition nl : byte := Byte.x0a.
Lemma star_ascii : ascii star. Proof. split; vm_compute; congruence. Qed.
Lemma slash_ascii : ascii slash. Proof. split; vm_compute; congruence. Qed.
Lemma nl_ascii : ascii nl. Proof. split; vm_compute; congruence. Qed.

Lemma comment_run f : forall l s r, cwf l -> rest l = s ++ star :: slash :: r -> Forall inComment s -> (length s + 1 < f)%nat ->
  exists lm l', commentLoop f l = Ok (l_lastPos lm, l') /\ movesF l lm s /\ movesF lm l' [star; slash].
Proof.
  induction f as [|f IH]; intros l s r H E N L; [lia|]. cbn [commentLoop]. destruct s as [|c s].
  - simpl in E. rewrite (ch_at _ _ _ H E star_ascii). change (bz star) with 42. cbn [Z.eqb Pos.eqb].
    destruct (step_at _ _ _ H E star_ascii) as [M1 R1]. pose proof (movesF_cwf _ _ _ M1) as H1.
    rewrite (ch_at _ _ _ H1 R1 slash_ascii). change (bz slash) with 47. cbn [Z.eqb Pos.eqb].
    destruct (step_at _ _ _ H1 R1 slash_ascii) as [M2 R2].
    exists l, (step (step l)). split; auto. split; [apply movesF_refl; auto|]. exact (movesF_trans _ _ _ [star] [slash] M1 M2).
  - simpl in E. inversion N as [|x y (A & Nc) N']; subst. rewrite (ch_at _ _ _ H E A).
    destruct (Z.eqb_spec (bz c) 42); [contradiction|]. destruct (Z.eqb_spec (bz c) (-1)); [pose proof (bz_range c); lia|].
    destruct (step_at _ _ _ H E A) as [M R]. pose proof (movesF_cwf _ _ _ M) as H1.
    destruct (IH (step l) s r H1 R N' ltac:(simpl in L; lia)) as (lm & l' & E1 & M1 & M2).
    exists lm, l'. split; auto. split; auto. exact (movesF_trans _ _ _ [c] s M M1).
Qed.

Section WithUnicode.
Context {U : UnicodeDigits}.
Lemma newline_skip f l0 T : cwf l0 -> rest l0 = nl :: T -> l_rws l0 = false ->
  exists l1, nextLoop (S f) l0 = nextLoop f l1 /\ cwf l1 /\ rest l1 = T /\ l_rws l1 = false /\ l_rcom l1 = l_rcom l0.
Proof.
  intros H E W. cbn [nextLoop]. set (l := setStart l0 (l_lastPos l0)).
  assert (H1 : cwf l) by exact H. assert (E1 : rest l = nl :: T) by exact E.
  rewrite (ch_at _ _ _ H1 E1 nl_ascii). change (bz nl) with 10. cbn [Z.eqb Pos.eqb orb isWhitespace].
  change (l_rws l) with (l_rws l0). rewrite W. cbn [negb].
  destruct (step_at _ _ _ H1 E1 nl_ascii) as [M R]. exists (step l). split; auto. split; [eapply movesF_cwf; eauto|]. split; auto.
  destruct M as (_ & (_ & _ & _ & _ & M5 & M6)). rewrite M5, M6. auto.
Qed.
Lemma comment_skip f l0 s T : cwf l0 -> rest l0 = slash :: star :: s ++ star :: slash :: T -> Forall inComment s -> l_rws l0 = false -> l_rcom l0 = false ->
  exists l1, nextLoop (S f) l0 = nextLoop f l1 /\ cwf l1 /\ rest l1 = T /\ l_rws l1 = false /\ l_rcom l1 = false.
Proof.
  intros H E N W C. cbn [nextLoop]. set (l := setStart l0 (l_lastPos l0)).
  assert (H1 : cwf l) by exact H. assert (E1 : rest l = slash :: star :: s ++ star :: slash :: T) by exact E.
  rewrite (ch_at _ _ _ H1 E1 slash_ascii). change (bz slash) with 47. cbn [Z.eqb Pos.eqb].
  rewrite (peek_at _ _ _ 0 H1 E1 slash_ascii). cbn [skipn]. rewrite chr_ascii by (vm_compute; reflexivity). change (bz star) with 42. cbn [Z.eqb Pos.eqb negb].
  destruct (step_at _ _ _ H1 E1 slash_ascii) as [M1 R1]. pose proof (movesF_cwf _ _ _ M1) as H2.
  destruct (step_at _ _ _ H2 R1 star_ascii) as [M2 R2]. pose proof (movesF_cwf _ _ _ M2) as H3.
  pose proof (movesF_trans _ _ _ _ _ M1 M2) as M12. set (l1 := step (step l)) in *.
  destruct (comment_run (lfuel l1) l1 s T H3 R2 N) as (lm & l2 & E2 & M3 & M4).
  { pose proof (lfuel_rest l1) as F. rewrite R2, app_length in F. simpl in F. lia. }
  rewrite E2. cbn [bind]. pose proof (movesF_cwf _ _ _ M3) as H4. pose proof (movesF_cwf _ _ _ M4) as H5.
  pose proof (moves_rest _ _ _ _ M3 R2) as R3. pose proof (moves_rest _ _ _ (T) M4 R3) as R4.
  assert (S : contentSlice (setCur l2 Comment) (l_lastPos l1) (l_lastPos lm) = Ok s).
  { pose proof (contentSlice_moves _ _ _ H3 (proj1 M3)) as X. unfold contentSlice in *.
    change (l_content (setCur l2 Comment)) with (l_content l2). destruct (proj1 M4) as (Y & _). rewrite Y.
    destruct (slice (l_content lm) (l_lastPos l1) (l_lastPos lm)); [injection X as ->; reflexivity|discriminate]. }
  rewrite S. cbn [bind]. change (l_rcom (setStr (setCur l2 Comment) s)) with (l_rcom l2).
  destruct M12 as (_ & (_ & _ & _ & _ & A5 & A6)). destruct M3 as (_ & (_ & _ & _ & _ & B5 & B6)). destruct M4 as (_ & (_ & _ & _ & _ & C5 & C6)).
  assert (Ec : l_rcom l2 = false) by (rewrite C6, B6, A6; exact C). assert (Ew : l_rws l2 = false) by (rewrite C5, B5, A5; exact W).
  rewrite Ec. cbn [negb]. eexists. split; [reflexivity|]. split; [exact H5|]. split; [exact R4|]. split; auto.
Qed.
Lemma tok_tail s : Forall inComment s -> Tok (nl :: slash :: star :: s ++ star :: slash :: nl :: []) EOF None None [].
Proof.
  intros N f l0 H E C (Lf & Rw). specialize (Rw eq_refl). simpl in Lf. rewrite app_length in Lf. simpl in Lf.
  destruct (newline_skip f l0 _ H E Rw) as (l1 & -> & H1 & R1 & W1 & C1). rewrite C in C1.
  destruct f as [|f]; [lia|]. destruct (comment_skip f l1 s _ H1 R1 N W1 C1) as (l2 & -> & H2 & R2 & W2 & C2).
  destruct f as [|f]; [lia|]. destruct (newline_skip f l2 _ H2 R2 W2) as (l3 & -> & H3 & R3 & W3 & C3). rewrite C2 in C3.
  destruct f as [|f]; [lia|]. destruct (tok_eof f l3 H3 R3 C3) as (l & E4 & F & W); [split; [simpl; lia|discriminate]|].
  exists l. split; auto. split; auto. congruence.
Qed.

(** * The comment with the map *)
Lemma mapComment_ending s m : ending (mapComment (base64Std (mappingJson s m))).
Proof.
  set (payload := base64Std (mappingJson s m)).
  assert (F : Forall inComment payload).
  { destruct (base64_spec _ (mappingJson s m) (le_n _)) as (_ & F & _). eapply Forall_impl; [|exact F]. intros c [->|(i & Hi & ->)].
    - split; [split; vm_compute; congruence|vm_compute; congruence].
    - assert (X : forallb (fun k => let z := bz (b64at (Z.of_nat k)) in (z <? 128) && negb (z =? 13) && negb (z =? 42)) (seq 0 64) = true) by (vm_compute; reflexivity).
      rewrite forallb_forall in X. specialize (X (Z.to_nat i)). rewrite Z2Nat.id in X by lia. cbv zeta in X.
      rewrite !andb_true_iff, !negb_true_iff, Z.ltb_lt, !Z.eqb_neq in X. destruct X as ((X1 & X2) & X3); [apply in_seq; lia|]. split; [split|]; auto. }
  set (s1 := B "# sourceMappingURL=data:application/json;base64," ++ payload ++ B " ").
  assert (N : Forall inComment s1).
  { unfold s1. apply Forall_app. split; [|apply Forall_app; split; auto].
    - repeat constructor; vm_compute; congruence.
    - repeat constructor; vm_compute; congruence. }
  assert (E : mapComment payload = nl :: slash :: star :: s1 ++ star :: slash :: nl :: []).
  { unfold mapComment, s1. rewrite <- !app_assoc. reflexivity. }
  rewrite E. pose proof (tok_tail s1 N) as K. split; [|eauto]. split; [eapply tok_lexable; exact K|reflexivity].
Qed.
Lemma round_trip_map run s ns out : forallb writable ns = true -> print (Some s) ns = Some out ->
  exists ss lines n0, (forall n, (n0 <= n)%nat -> parse run n out = ParseOk ss lines) /\
    strip (ss_nodes ss) = strip (tidy ns) /\ print None (ss_nodes ss) = print None ns.
Proof.
  intros O E. destruct (print_text s ns out E) as (css & m & E1 & ->). rewrite (sheet_text ns O) in E1. injection E1 as <-.
  destruct (read_back run ns _ O (mapComment_ending s m)) as (ss & lines & n0 & R & D). exists ss, lines, n0. split; auto. split; auto.
  rewrite <- print_strip, D, print_strip. apply print_tidy; auto.
Qed.
End WithUnicode.
