(** Next does not look at the line table. *)
From Verif Require Import Bytes Utf8 Source Lexer BytesFacts.

(** Equal but for the line table. *)
Definition same (l l' : lexer) : Prop := exists ls, l' = setLines l ls.
Definition rsame (r r' : res lexer) : Prop :=
  match r, r' with
  | Ok l, Ok l' => same l l'
  | Panic p _, Panic p' _ => p = p'
  | Timeout, Timeout => True
  | _, _ => False
  end.
Definition rsame2 {A} (r r' : res (A * lexer)) : Prop :=
  match r, r' with
  | Ok (a, l), Ok (a', l') => a = a' /\ same l l'
  | Panic p _, Panic p' _ => p = p'
  | Timeout, Timeout => True
  | _, _ => False
  end.
Lemma same_refl l : same l l. Proof. exists (l_lines l). destruct l. reflexivity. Qed.
Lemma same_lines l ls : same l (setLines l ls). Proof. exists ls. reflexivity. Qed.
Lemma same_sym l l' : same l l' -> same l' l.
Proof. intros [ls ->]. exists (l_lines l). destruct l. reflexivity. Qed.
Lemma same_trans a b c : same a b -> same b c -> same a c.
Proof. intros [x ->] [y ->]. exists y. reflexivity. Qed.
Lemma step_same l l' : same l l' -> same (step l) (step l').
Proof.
  intros [ls ->]. unfold step. cbn [setLines l_pos l_content l_lines].
  destruct (decodeRune (skipn (l_pos l) (l_content l))) as [cp size]. destruct (size =? 0)%nat; [eexists; reflexivity|].
  destruct (cp =? 13); [|eexists; reflexivity].
  destruct (decodeRune (skipn (l_pos l + size) (l_content l))) as [nx sz]. eexists; reflexivity.
Qed.
Lemma setCur_same t l l' : same l l' -> same (setCur l t) (setCur l' t). Proof. intros [ls ->]. eexists; reflexivity. Qed.
Lemma setStr_same t l l' : same l l' -> same (setStr l t) (setStr l' t). Proof. intros [ls ->]. eexists; reflexivity. Qed.
Lemma setNum_same t l l' : same l l' -> same (setNum l t) (setNum l' t). Proof. intros [ls ->]. eexists; reflexivity. Qed.
Lemma setRws_same t l l' : same l l' -> same (setRws l t) (setRws l' t). Proof. intros [ls ->]. eexists; reflexivity. Qed.
Lemma setStart_same t l l' : same l l' -> same (setStart l t) (setStart l' t). Proof. intros [ls ->]. eexists; reflexivity. Qed.
Lemma same_peek l l' i : same l l' -> peek l' i = peek l i. Proof. intros [ls ->]. reflexivity. Qed.
Lemma same_ch l l' : same l l' -> l_ch l' = l_ch l. Proof. intros [ls ->]. reflexivity. Qed.
Lemma same_last l l' : same l l' -> l_lastPos l' = l_lastPos l. Proof. intros [ls ->]. reflexivity. Qed.
Lemma same_fuel l l' : same l l' -> lfuel l' = lfuel l. Proof. intros [ls ->]. reflexivity. Qed.
Lemma same_content l l' : same l l' -> l_content l' = l_content l. Proof. intros [ls ->]. reflexivity. Qed.
Lemma same_span l l' : same l l' -> tokenSpan l' = tokenSpan l. Proof. intros [ls ->]. reflexivity. Qed.
Lemma same_rcom l l' : same l l' -> l_rcom l' = l_rcom l. Proof. intros [ls ->]. reflexivity. Qed.
Lemma same_rws l l' : same l l' -> l_rws l' = l_rws l. Proof. intros [ls ->]. reflexivity. Qed.
Lemma same_cur l l' : same l l' -> l_cur l' = l_cur l. Proof. intros [ls ->]. reflexivity. Qed.
Lemma same_str l l' : same l l' -> l_str l' = l_str l. Proof. intros [ls ->]. reflexivity. Qed.
Lemma same_num l l' : same l l' -> l_num l' = l_num l. Proof. intros [ls ->]. reflexivity. Qed.
Global Hint Resolve same_refl step_same setCur_same setStr_same setNum_same setRws_same setStart_same : same.
Lemma slice_same l l' a b : same l l' -> match contentSlice l a b, contentSlice l' a b with
  | Ok s, Ok s' => s = s' | Panic p _, Panic p' _ => p = p' | _, _ => False end.
Proof. intros [ls ->]. unfold contentSlice. cbn [setLines l_content]. destruct (slice (l_content l) a b); reflexivity. Qed.
Lemma bind_rsame m m' k k' : rsame m m' -> (forall l l', same l l' -> rsame (k l) (k' l')) -> rsame (bind m k) (bind m' k').
Proof. destruct m, m'; cbn; intros H G; try contradiction; auto. Qed.
Lemma bind2_rsame {A} (m m' : res (A * lexer)) k k' : rsame2 m m' -> (forall a l l', same l l' -> rsame (k (a, l)) (k' (a, l'))) ->
  rsame (bind m k) (bind m' k').
Proof. destruct m as [[a l]| |], m' as [[a' l']| |]; cbn; intros H G; try contradiction; auto. destruct H as [-> H]. auto. Qed.
Lemma slice_rsame l l' a b k k' : same l l' -> (forall s, rsame (k s) (k' s)) -> rsame (bind (contentSlice l a b) k) (bind (contentSlice l' a b) k').
Proof.
  intros H G. pose proof (slice_same _ _ a b H) as E. destruct (contentSlice l a b), (contentSlice l' a b); cbn; try contradiction; subst; auto.
Qed.
Lemma ok_rsame l l' : same l l' -> rsame (Ok l) (Ok l'). Proof. auto. Qed.
Lemma errorf_rsame l l' m : same l l' -> rsame (errorf l m) (errorf l' m).
Proof. intros H. unfold errorf. rewrite (same_span _ _ H). reflexivity. Qed.
Lemma errorf_rsame2 {A} l l' m : same l l' -> @rsame2 A (errorf l m) (errorf l' m).
Proof. intros H. unfold errorf. rewrite (same_span _ _ H). reflexivity. Qed.
Lemma stepWhile_same p f : forall l l', same l l' -> rsame (stepWhile p f l) (stepWhile p f l').
Proof. induction f as [|f IH]; intros l l' H; [exact I|]. cbn [stepWhile]. rewrite (same_ch _ _ H). destruct (p (l_ch l)); auto with same. Qed.

Section WithUnicode.
Context {U : UnicodeDigits}.
Lemma escaped_same n : forall l l', same l l' -> same (escapedLoop n l) (escapedLoop n l').
Proof.
  induction n as [|n IH]; intros l l' H; [exact H|]. cbn [escapedLoop]. rewrite (same_ch _ _ H). destruct (isHexDigit (l_ch l)); auto.
  apply IH. cbv zeta. pose proof (step_same _ _ H) as H1. rewrite (same_ch _ _ H1). destruct (isWhitespace (l_ch (step l))); auto with same.
Qed.
Lemma nextEscaped_same l l' : same l l' -> same (nextEscaped l) (nextEscaped l').
Proof. intros H. apply escaped_same. auto with same. Qed.
Hint Resolve nextEscaped_same : same.
Ltac flds H := rewrite ?(same_ch _ _ H), ?(same_peek _ _ _ H), ?(same_last _ _ H), ?(same_fuel _ _ H), ?(same_content _ _ H), ?(same_rcom _ _ H), ?(same_rws _ _ H).
Lemma nextNameLoop_same f : forall l l', same l l' -> rsame (nextNameLoop f l) (nextNameLoop f l').
Proof.
  induction f as [|f IH]; intros l l' H; [exact I|]. cbn [nextNameLoop]. flds H.
  destruct (isNameCodePoint (l_ch l)); [auto with same|]. destruct (startsEscape _ _); auto with same.
Qed.
Lemma nextName_same l l' : same l l' -> rsame (nextName l) (nextName l').
Proof. intros H. unfold nextName. flds H. apply nextNameLoop_same. auto. Qed.
Lemma nextDelimToken_same l l' : same l l' -> rsame (nextDelimToken l) (nextDelimToken l').
Proof.
  intros H. unfold nextDelimToken. cbv zeta. flds H. assert (G : same (setCur (step l) Delim) (setCur (step l') Delim)) by auto with same.
  flds G. apply slice_rsame; auto. intros s. apply ok_rsame. auto with same.
Qed.
Lemma nextNumber_same l l' : same l l' -> rsame (nextNumber l) (nextNumber l').
Proof.
  intros H. unfold nextNumber. cbv zeta. flds H.
  assert (G : same (if (l_ch l =? 43) || (l_ch l =? 45) then step l else l) (if (l_ch l =? 43) || (l_ch l =? 45) then step l' else l'))
    by (destruct ((l_ch l =? 43) || (l_ch l =? 45)); auto with same).
  flds G. apply bind_rsame; [apply stepWhile_same; auto|]. intros m m' M. flds M. apply bind_rsame.
  - destruct ((l_ch m =? 46) && isDigit (peek m 0)); [|exact M]. apply stepWhile_same. auto with same.
  - intros q q' Q. flds Q. destruct (((l_ch q =? 101) || (l_ch q =? 69)) && _); [|exact Q].
    assert (R : same (step q) (step q')) by auto with same. flds R.
    assert (T : same (if (l_ch (step q) =? 43) || (l_ch (step q) =? 45) then step (step q) else step q)
                     (if (l_ch (step q) =? 43) || (l_ch (step q) =? 45) then step (step q') else step q'))
      by (destruct ((l_ch (step q) =? 43) || (l_ch (step q) =? 45)); auto with same).
    flds T. apply stepWhile_same. auto.
Qed.
Lemma nextNumericToken_same l l' : same l l' -> rsame (nextNumericToken l) (nextNumericToken l').
Proof.
  intros H. unfold nextNumericToken. cbv zeta. flds H. apply bind_rsame; [apply nextNumber_same; auto|]. intros m m' M. flds M.
  apply slice_rsame; auto. intros s. assert (G : same (setNum m s) (setNum m' s)) by auto with same. flds G.
  destruct (startsIdentifier _ _ _).
  - apply bind_rsame; [apply nextName_same; auto|]. intros q q' Q. flds Q. apply slice_rsame; auto. intros u. apply ok_rsame. auto with same.
  - destruct (l_ch (setNum m s) =? 37); apply ok_rsame; auto with same.
Qed.
Lemma urlSkipWs_same f : forall i l l', same l l' -> rsame (urlSkipWs f i l) (urlSkipWs f i l').
Proof. induction f as [|f IH]; intros i l l' H; [exact I|]. cbn [urlSkipWs]. flds H. destruct (_ && _); auto with same. Qed.
Lemma urlLoop_same f : forall u l l', same l l' -> rsame (urlLoop f u l) (urlLoop f u l').
Proof.
  induction f as [|f IH]; intros u l l' H; [exact I|]. cbn [urlLoop]. cbv zeta. flds H.
  destruct (l_ch l =? 41). { apply slice_rsame; auto. intros s. apply ok_rsame. auto with same. }
  repeat match goal with |- rsame (if ?b then _ else _) _ => destruct b end; auto using errorf_rsame with same.
Qed.
Lemma nextIdentLikeToken_same l l' : same l l' -> rsame (nextIdentLikeToken l) (nextIdentLikeToken l').
Proof.
  intros H. unfold nextIdentLikeToken. cbv zeta. flds H. apply bind_rsame; [apply nextName_same; auto|]. intros m m' M. flds M.
  apply slice_rsame; auto. intros s. assert (G : same (setStr m s) (setStr m' s)) by auto with same. flds G.
  destruct (isURLString s && _).
  - assert (R : same (step (setStr m s)) (step (setStr m' s))) by auto with same. flds R. apply bind_rsame; [apply urlSkipWs_same; auto|].
    intros q q' Q. flds Q. destruct (_ || _); [apply ok_rsame; auto with same|].
    assert (T : same (setCur q URL) (setCur q' URL)) by auto with same. flds T. apply urlLoop_same. auto.
  - destruct (l_ch (setStr m s) =? 40); apply ok_rsame; auto with same.
Qed.
Lemma commentLoop_same f : forall l l', same l l' -> rsame2 (commentLoop f l) (commentLoop f l').
Proof.
  induction f as [|f IH]; intros l l' H; [exact I|]. cbn [commentLoop]. cbv zeta. assert (R : same (step l) (step l')) by auto with same.
  flds H. flds R. destruct (l_ch l =? 42); [destruct (l_ch (step l) =? 47)|destruct (l_ch l =? -1)]; auto using errorf_rsame2.
  split; auto with same.
Qed.
Lemma stringLoop_same f mark : forall l l', same l l' -> rsame2 (stringLoop f mark l) (stringLoop f mark l').
Proof.
  induction f as [|f IH]; intros l l' H; [exact I|]. cbn [stringLoop]. cbv zeta. assert (R : same (step l) (step l')) by auto with same.
  flds H. flds R. destruct (l_ch l =? mark); [split; auto|].
  repeat match goal with |- rsame2 (if ?b then _ else _) _ => destruct b end; auto using errorf_rsame2 with same.
Qed.
Lemma nextSigilName_same t l l' : same l l' -> rsame (nextSigilName t l) (nextSigilName t l').
Proof.
  intros H. unfold nextSigilName. cbv zeta. assert (G : same (setCur (step l) t) (setCur (step l') t)) by auto with same. flds G.
  apply bind_rsame; [apply nextName_same; auto|]. intros m m' M. flds M. apply slice_rsame; auto. intros s. apply ok_rsame. auto with same.
Qed.
Lemma single_same t l l' : same l l' -> rsame (single t l) (single t l').
Proof. intros H. apply ok_rsame. auto with same. Qed.
Lemma okCur_same t l l' : same l l' -> rsame (Ok (setCur l t)) (Ok (setCur l' t)).
Proof. intros H. apply ok_rsame. auto with same. Qed.
Lemma nextLoop_same f : forall l l', same l l' -> rsame (nextLoop f l) (nextLoop f l').
Proof.
  induction f as [|f IH]; intros l0 l0' H0; [exact I|]. cbn [nextLoop]. cbv zeta. rewrite (same_last _ _ H0).
  assert (H : same (setStart l0 (l_lastPos l0)) (setStart l0' (l_lastPos l0))) by auto with same.
  set (l := setStart l0 (l_lastPos l0)) in *. set (l' := setStart l0' (l_lastPos l0)) in *. clearbody l l'. clear l0 l0' H0. flds H.
  assert (R : same (step l) (step l')) by auto with same. assert (R2 : same (step (step l)) (step (step l'))) by auto with same.
  repeat match goal with
  | |- rsame (if ?b then _ else _) _ => destruct b
  end; auto using single_same, okCur_same, nextNumericToken_same, nextDelimToken_same, nextIdentLikeToken_same, nextSigilName_same, errorf_rsame, ok_rsame.
  - flds R2. apply bind2_rsame; [apply commentLoop_same; auto|]. intros e m m' M. apply slice_rsame; [auto with same|]. intros s.
    assert (G : same (setStr (setCur m Comment) s) (setStr (setCur m' Comment) s)) by auto with same. flds G.
    destruct (l_rcom (setStr (setCur m Comment) s)); cbn [negb]; auto.
  - flds R. apply bind2_rsame; [apply stringLoop_same; auto|]. intros e m m' M. apply slice_rsame; [auto with same|]. intros s.
    apply ok_rsame. auto with same.
  - apply bind_rsame; [apply stepWhile_same; auto|]. intros m m' M. apply okCur_same. auto.
Qed.
Lemma next_same l l' : same l l' -> rsame (next l) (next l').
Proof. intros H. unfold next. flds H. apply nextLoop_same. auto. Qed.
End WithUnicode.
