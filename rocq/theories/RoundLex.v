(** The tokens of printed text: what Next returns on each kind of word. *)
From Verif Require Import Bytes Utf8 Source Lexer BytesFacts LexSpec LexFacts RoundSpec.

Definition ascii (c : byte) : Prop := bz c < 128 /\ bz c <> 13.

(** * One step *)
Lemma ch_at l c s : cwf l -> rest l = c :: s -> ascii c -> l_ch l = bz c.
Proof. intros (_ & H & _) E [A1 A2]. rewrite H, E, chOf_byte; auto. Qed.
Lemma ch_nil l : cwf l -> rest l = [] -> l_ch l = -1.
Proof. intros H E. apply cwf_eof; auto. Qed.

Lemma step_at l c s : cwf l -> rest l = c :: s -> ascii c -> movesF l (step l) [c] /\ rest (step l) = s.
Proof.
  intros H E A. pose proof (ch_at _ _ _ H E A) as C.
  assert (Hn : l_ch l <> -1) by (rewrite C; pose proof (bz_range c); lia).
  pose proof (step_movesF _ H Hn) as M. destruct A as [A1 A2].
  rewrite E, chOf_byte in M by auto. simpl in M. split; auto.
  destruct M as ((_ & M & _) & _). rewrite E in M. injection M as M. auto.
Qed.

Lemma step_high l c s : cwf l -> rest l = c :: s -> 128 <= bz c ->
  exists u s', c :: s = u ++ s' /\ u <> [] /\ Forall (fun b => 128 <= bz b) u /\ movesF l (step l) u /\
    rest (step l) = s' /\ 128 <= l_ch l.
Proof.
  intros H E A.
  assert (C : chOf (c :: s) = decodeRune (c :: s) /\ 128 <= fst (decodeRune (c :: s)) /\
    (1 <= snd (decodeRune (c :: s)))%nat /\
    Forall (fun b => 128 <= bz b) (firstn (snd (decodeRune (c :: s))) (c :: s))).
  { unfold chOf. destruct (decodeRune (c :: s)) as [cp n] eqn:D.
    apply decodeRune_cons in D as (D1 & D2 & [D3|(D3 & D4 & D5)]); [lia|].
    destruct (Z.eqb_spec cp 13); [lia|]. simpl fst; simpl snd. repeat split; auto. lia. }
  destruct C as (C1 & C2 & C3 & C4).
  assert (Hn : l_ch l <> -1).
  { destruct H as (_ & H & _). rewrite H, E, C1. lia. }
  pose proof (step_movesF _ H Hn) as M. rewrite E, C1 in M.
  exists (firstn (snd (decodeRune (c :: s))) (c :: s)), (skipn (snd (decodeRune (c :: s))) (c :: s)).
  split; [symmetry; apply firstn_skipn|]. split; [destruct (snd (decodeRune (c :: s))); [lia|discriminate]|].
  split; auto. split; auto. split.
  - destruct M as ((_ & M & _) & _). rewrite E in M. rewrite <- (firstn_skipn (snd (decodeRune (c :: s))) (c :: s)) in M at 1.
    apply app_inv_head in M. auto.
  - destruct H as (_ & H & _). rewrite H, E, C1. auto.
Qed.

(** A run of non-ASCII bytes in [s ++ r] lies in [s] when [r] begins with ASCII. *)
Lemma high_prefix u : forall s r t, Forall (fun b => 128 <= bz b) u -> u ++ t = s ++ r ->
  match r with [] => True | c :: _ => bz c < 128 end ->
  exists s2, s = u ++ s2 /\ t = s2 ++ r.
Proof.
  induction u as [|c u IH]; intros s r t F E A; simpl in *.
  - exists s. auto.
  - inversion F; subst. destruct s as [|d s]; simpl in E.
    + subst r. lia.
    + injection E as <- E. destruct (IH _ _ _ H2 E A) as (s2 & -> & ->). exists s2. auto.
Qed.

(** * Peeking *)
Definition chr (s : bytes) : Z := match s with [] => -1 | _ => fst (decodeRune s) end.
Lemma peek_at l c s i : cwf l -> rest l = c :: s -> ascii c -> peek l i = chr (skipn i s).
Proof.
  intros (H1 & H2 & H3) E [A1 A2]. rewrite E, chOf_byte in H3 by auto. simpl in H3.
  assert (E2 : skipn (l_pos l + i) (l_content l) = skipn i s).
  { rewrite H3. replace (l_lastPos l + 1 + i)%nat with (l_lastPos l + (1 + i))%nat by lia.
    rewrite <- skipn_skipn'. fold (rest l). rewrite E. reflexivity. }
  unfold peek. rewrite E2. unfold chr.
  destruct (Nat.ltb_spec (length (l_content l)) (l_pos l + i)).
  - assert (L : skipn i s = []).
    { rewrite <- E2. apply skipn_all2. lia. }
    rewrite L. reflexivity.
  - destruct (skipn i s) as [|d t]; [reflexivity|].
    destruct (decodeRune (d :: t)) as [cp n] eqn:D.
    apply decodeRune_cons in D as (D1 & _). destruct (Nat.eqb_spec n 0); [lia|]. reflexivity.
Qed.
Lemma chr_ascii c s : bz c < 128 -> chr (c :: s) = bz c.
Proof. intros. unfold chr. rewrite decodeRune_ascii; auto. Qed.
Lemma chr_high c s : 128 <= bz c -> 128 <= chr (c :: s).
Proof.
  intros H. unfold chr. destruct (decodeRune (c :: s)) as [cp n] eqn:D.
  apply decodeRune_cons in D as (_ & _ & [D|D]); simpl; lia.
Qed.

(** * Character classes *)
Ltac zb := repeat match goal with
  | H : context [(?x =? ?k)] |- _ => destruct (Z.eqb_spec x k); simpl in H
  | H : context [(?x <=? ?k)] |- _ => destruct (Z.leb_spec x k); simpl in H
  | H : context [(?x <? ?k)] |- _ => destruct (Z.ltb_spec x k); simpl in H
  | |- context [(?x =? ?k)] => destruct (Z.eqb_spec x k); simpl
  | |- context [(?x <=? ?k)] => destruct (Z.leb_spec x k); simpl
  | |- context [(?x <? ?k)] => destruct (Z.ltb_spec x k); simpl
  end; try lia; try congruence; auto.

Lemma nameByte_name c : bz c < 128 -> isNameCodePoint (bz c) = nameByte c.
Proof.
  intros H. unfold isNameCodePoint, isNameStartCodePoint, nameByte, isLetter, isUpper, isLower, isNumeric. zb.
Qed.
Lemma name_high z : 128 <= z -> isNameCodePoint z = true.
Proof. intros H. unfold isNameCodePoint, isNameStartCodePoint. zb. Qed.
Lemma startByte_facts c : startByte c = true ->
  (65 <= bz c <= 90 \/ 97 <= bz c <= 122 \/ bz c = 95).
Proof. unfold startByte, isLetter, isUpper, isLower. intros H. zb. Qed.
Lemma startByte_ascii c : startByte c = true -> ascii c.
Proof. intros H. apply startByte_facts in H. split; lia. Qed.
Lemma startByte_name c : startByte c = true -> nameByte c = true.
Proof. intros H. apply startByte_facts in H. unfold nameByte, isLetter, isUpper, isLower, isNumeric. zb. Qed.
Lemma nameByte_facts c : nameByte c = true -> bz c < 128 ->
  65 <= bz c <= 90 \/ 97 <= bz c <= 122 \/ 48 <= bz c <= 57 \/ bz c = 95 \/ bz c = 45.
Proof. unfold nameByte, isLetter, isUpper, isLower, isNumeric. intros H L. zb. Qed.
Lemma nameByte_ascii c : nameByte c = true -> bz c < 128 -> ascii c.
Proof. intros H L. apply nameByte_facts in H; auto. split; lia. Qed.
Lemma isNumeric_facts c : isNumeric c = true -> 48 <= bz c <= 57.
Proof. unfold isNumeric. intros H. zb. Qed.
Lemma isNumeric_ascii c : isNumeric c = true -> ascii c.
Proof. intros H. apply isNumeric_facts in H. split; lia. Qed.

Section WithUnicode.
Context {U : UnicodeDigits}.
Lemma digit_ascii z : z <= 255 -> isDigit z = (48 <=? z) && (z <=? 57).
Proof. intros. unfold isDigit. zb. Qed.
Lemma digit_byte c : bz c < 128 -> isDigit (bz c) = isNumeric c.
Proof. intros. rewrite digit_ascii by lia. reflexivity. Qed.
Lemma digit_no z : z < 48 \/ 57 < z < 128 -> isDigit z = false.
Proof. intros. rewrite digit_ascii by lia. zb. Qed.
Lemma digit_yes z : 48 <= z <= 57 -> isDigit z = true.
Proof. intros. rewrite digit_ascii by lia. zb. Qed.

(** What may follow a name, a word, a number. *)
Definition stopName (c : byte) : bool :=
  (bz c <? 128) && negb (nameByte c) && negb ((bz c =? 92) || (bz c =? 13)).
Definition endName (r : bytes) : Prop := match r with [] => True | c :: _ => stopName c = true end.
Definition endWord (r : bytes) : Prop := match r with [] => True | c :: _ => stopName c = true /\ bz c <> 40 end.
Definition endNum (r : bytes) : Prop :=
  match r with [] => True | c :: _ => stopName c = true /\ bz c <> 40 /\ bz c <> 46 /\ bz c <> 37 end.
Lemma endWord_name r : endWord r -> endName r.
Proof. destruct r; simpl; tauto. Qed.
Lemma endNum_word r : endNum r -> endWord r.
Proof. destruct r; simpl; tauto. Qed.
Lemma stopName_facts c : stopName c = true ->
  ascii c /\ nameByte c = false /\ bz c <> 92 /\ bz c <> 45 /\ ~ (48 <= bz c <= 57) /\
  ~ (65 <= bz c <= 90) /\ ~ (97 <= bz c <= 122) /\ bz c <> 95.
Proof.
  unfold stopName. rewrite !andb_true_iff, !negb_true_iff, !orb_false_iff, !Z.eqb_neq, Z.ltb_lt.
  intros ((H1 & H2) & H3 & H4). split; [split; auto|]. split; auto.
  revert H2. unfold nameByte, isLetter, isUpper, isLower, isNumeric. rewrite !orb_false_iff, !andb_false_iff, !Z.leb_gt, !Z.eqb_neq. lia.
Qed.
Lemma endName_low r : endName r -> match r with [] => True | c :: _ => bz c < 128 end.
Proof. destruct r; simpl; auto. intros H. apply stopName_facts in H as ((H & _) & _). auto. Qed.
Lemma endName_ch l r : cwf l -> rest l = r -> endName r ->
  isNameCodePoint (l_ch l) = false /\ l_ch l <> 92 /\ l_ch l <> 45 /\ isDigit (l_ch l) = false.
Proof.
  intros H E W. destruct r as [|c r].
  - rewrite (ch_nil _ H E). repeat split; try lia; reflexivity.
  - simpl in W. apply stopName_facts in W as (A & N & ? & ? & ? & ?).
    rewrite (ch_at _ _ _ H E A). destruct A as [A1 A2]. repeat split; auto.
    + rewrite nameByte_name; auto.
    + apply digit_no. lia.
Qed.
Lemma endWord_ch l r : cwf l -> rest l = r -> endWord r -> l_ch l <> 40.
Proof.
  intros H E W. destruct r as [|c r].
  - rewrite (ch_nil _ H E). lia.
  - destruct W as [W N]. apply stopName_facts in W as (A & _). rewrite (ch_at _ _ _ H E A). auto.
Qed.

(** * Names *)
Lemma moves_rest l l' t r : movesF l l' t -> rest l = t ++ r -> rest l' = r.
Proof. intros ((_ & M & _) & _) E. rewrite M in E. apply app_inv_head in E. auto. Qed.

Lemma name_run_fuel f : forall l s r, cwf l -> rest l = s ++ r -> forallb nameByte s = true -> endName r ->
  (length s < f)%nat -> exists l', nextNameLoop f l = Ok l' /\ movesF l l' s.
Proof.
  induction f as [|f IH]; intros l s r H E N W L; [lia|]. cbn [nextNameLoop].
  destruct s as [|c s].
  - destruct (endName_ch _ _ H E W) as (N1 & N2 & _). rewrite N1.
    unfold startsEscape. destruct (Z.eqb_spec (l_ch l) 92); [contradiction|]. simpl.
    exists l. split; auto. apply movesF_refl; auto.
  - simpl in N. apply andb_true_iff in N as [Nc N].
    destruct (Z.ltb_spec (bz c) 128).
    + assert (A : ascii c) by (apply nameByte_ascii; auto).
      rewrite (ch_at _ _ _ H E A), nameByte_name, Nc by auto.
      destruct (step_at _ _ _ H E A) as [M R].
      destruct (IH (step l) s r) as (l' & E1 & M1); auto; [eapply movesF_cwf; eauto | simpl in L; lia|].
      exists l'. split; auto. eapply (movesF_trans _ _ _ [c]); eauto.
    + destruct (step_high _ _ _ H E) as (u & t & Eu & Nu & Fu & M & R & C); [lia|].
      rewrite name_high by auto. 
      destruct (high_prefix u (c :: s) r t Fu (eq_sym Eu) (endName_low _ W)) as (s2 & E2 & E3).
      destruct (IH (step l) s2 r) as (l' & E1 & M1); auto.
      * eapply movesF_cwf; eauto.
      * rewrite R; auto.
      * assert (X : forallb nameByte (u ++ s2) = true) by (rewrite <- E2; simpl; rewrite Nc; auto).
        rewrite forallb_app in X. apply andb_true_iff in X as [_ X]. auto.
      * rewrite E2, app_length in L. destruct u; [contradiction|]. simpl in L. lia.
      * exists l'. split; auto. rewrite E2. eapply movesF_trans; eauto.
Qed.
Lemma name_run l s r : cwf l -> rest l = s ++ r -> forallb nameByte s = true -> endName r ->
  exists l', nextName l = Ok l' /\ movesF l l' s.
Proof.
  intros H E N W. eapply name_run_fuel; eauto. pose proof (lfuel_rest l). rewrite E, app_length in H0. lia.
Qed.

(** * Tokens *)
Definition has (os : option bytes) (s : bytes) : Prop := match os with Some x => s = x | None => True end.
Definition facts (t : token) (os on : option bytes) (T : bytes) (l : lexer) : Prop :=
  cwf l /\ rest l = T /\ l_cur l = t /\ l_rcom l = false /\ has os (l_str l) /\ has on (l_num l).
(** The text [T] begins with the token [t] and goes on with [T'].  Text that
    begins with a line break is read only where white space is skipped. *)
Definition newline (T : bytes) : bool := firstByte T (fun c => bz c =? 10).
Definition room (T : bytes) (f : nat) (l : lexer) : Prop :=
  (length T <= f)%nat /\ (newline T = true -> l_rws l = false).
Definition Tok (T : bytes) (t : token) (os on : option bytes) (T' : bytes) : Prop :=
  forall f l0, cwf l0 -> rest l0 = T -> l_rcom l0 = false -> room T f l0 ->
  exists l, nextLoop (S f) l0 = Ok l /\ facts t os on T' l /\ l_rws l = l_rws l0.
Definition lexable (T : bytes) : Prop := exists t os on T', Tok T t os on T'.
(** The current token of [l] is the first one of [T]. *)
Definition is (T : bytes) (l : lexer) : Prop := forall t os on T', Tok T t os on T' -> facts t os on T' l.

Lemma tok_lexable T t os on T' : Tok T t os on T' -> lexable T.
Proof. intros H. exists t, os, on, T'. auto. Qed.
Lemma is_setRws T l b : is T l -> is T (setRws l b).
Proof. intros H t os on T' K. specialize (H _ _ _ _ K). exact H. Qed.

Lemma nextLoop_is f l T : cwf l -> rest l = T -> l_rcom l = false -> room T f l -> lexable T ->
  exists l', nextLoop (S f) l = Ok l' /\ is T l' /\ l_rws l' = l_rws l.
Proof.
  intros H E C Rm (t & os & on & T' & K). destruct (K f l H E C Rm) as (l' & E1 & F & W).
  exists l'. split; auto. split; auto. intros t2 os2 on2 T2 K2.
  destruct (K2 f l H E C Rm) as (l2 & E2 & F2 & _). rewrite E1 in E2. injection E2 as <-. auto.
Qed.
Lemma next_is l T : cwf l -> rest l = T -> l_rcom l = false -> (newline T = true -> l_rws l = false) -> lexable T ->
  exists l', next l = Ok l' /\ is T l' /\ l_rws l' = l_rws l.
Proof.
  intros H E C N L. unfold next. apply nextLoop_is; auto. split; auto.
  pose proof (lfuel_rest l) as X. rewrite E in X. unfold lfuel in *. lia.
Qed.

Definition sp : byte := " "%byte.
Definition unsp (T : bytes) : bytes := match T with c :: r => if Byte.eqb c sp then r else T | [] => [] end.
Lemma next_unsp l T : cwf l -> rest l = T -> l_rcom l = false -> l_rws l = false -> lexable (unsp T) ->
  exists l', next l = Ok l' /\ is (unsp T) l' /\ l_rws l' = false.
Proof.
  intros H E C W L. destruct T as [|c T]; simpl in *.
  - rewrite <- W. apply next_is; auto.
  - destruct (Byte.eqb c sp) eqn:Ec; [|rewrite <- W; apply next_is; auto].
    apply byte_eqb_eq in Ec. subst c. unfold next.
    assert (LT : (length T <= length (l_content l))%nat) by (pose proof (lfuel_rest l) as X; rewrite E in X; unfold lfuel in X; simpl in X; lia).
    unfold lfuel. revert LT. generalize (length (l_content l)). intros k LT.
    assert (A : ascii sp) by (split; vm_compute; congruence).
    set (l1 := setStart l (l_lastPos l)).
    assert (H1 : cwf l1) by exact H. assert (E1 : rest l1 = sp :: T) by exact E.
    destruct (step_at _ _ _ H1 E1 A) as [M R].
    destruct (nextLoop_is k (step l1) T) as (l' & X & Y & Z); auto.
    + eapply movesF_cwf; eauto.
    + destruct M as (_ & (_ & _ & _ & _ & _ & M)). rewrite M. exact C.
    + split; auto. intros _. destruct M as (_ & (_ & _ & _ & _ & M & _)). rewrite M. exact W.
    + exists l'. split; [|split; auto].
      * cbn [nextLoop]. fold l1. rewrite (ch_at _ _ _ H1 E1 A). change (bz sp) with 32. cbn [Z.eqb Pos.eqb orb isWhitespace].
        change (l_rws l1) with (l_rws l). rewrite W. cbn [negb]. cbn [nextLoop] in X. exact X.
      * rewrite Z. destruct M as (_ & (_ & _ & _ & _ & M & _)). rewrite M. exact W.
Qed.

(** ** End of text and single characters *)
Lemma facts_step l T c s t os on : cwf l -> rest l = c :: s -> ascii c -> l_rcom l = false -> s = T ->
  has os (l_str l) -> has on (l_num l) ->
  facts t os on T (step (setCur l t)) /\ l_rws (step (setCur l t)) = l_rws l.
Proof.
  intros H E A C <- S N. assert (H1 : cwf (setCur l t)) by exact H.
  destruct (step_at (setCur l t) c s H1 E A) as [M R].
  destruct M as (M1 & (F1 & F2 & F3 & F4 & F5 & F6)).
  split; [|rewrite F5; reflexivity]. split; [eapply moves_cwf; eauto|]. split; auto.
  split; [rewrite F2; reflexivity|]. split; [rewrite F6; exact C|]. split; [rewrite F3; exact S | rewrite F4; exact N].
Qed.

Lemma tok_eof : Tok [] EOF None None [].
Proof.
  intros f l0 H E C _. cbn [nextLoop]. set (l := setStart l0 (l_lastPos l0)).
  assert (H1 : cwf l) by exact H. assert (E1 : rest l = []) by exact E.
  rewrite (ch_nil _ H1 E1). cbn [Z.eqb Z.leb].
  exists (setCur l EOF). split; [reflexivity|]. split; [|reflexivity].
  repeat split; auto; apply H.
Qed.

Definition singles : list (byte * token) :=
  [(";"%byte, Semicolon); (":"%byte, Colon); (","%byte, Comma); ("("%byte, LParen); (")"%byte, RParen);
   ("["%byte, LBracket); ("]"%byte, RBracket); ("{"%byte, LCurly); ("}"%byte, RCurly)].
Lemma tok_single c t T : In (c, t) singles -> Tok (c :: T) t None None T.
Proof.
  intros I f l0 H E C _. cbn [nextLoop]. set (l := setStart l0 (l_lastPos l0)).
  assert (H1 : cwf l) by exact H. assert (E1 : rest l = c :: T) by exact E.
  assert (A : ascii c).
  { repeat (destruct I as [I|I]; [injection I as <- <-; split; vm_compute; congruence|]). destruct I. }
  rewrite (ch_at _ _ _ H1 E1 A).
  exists (step (setCur l t)). split.
  - repeat (destruct I as [I|I]; [injection I as <- <-; reflexivity|]). destruct I.
  - refine (facts_step l T c T t None None H1 E1 A C eq_refl Logic.I Logic.I).
Qed.

(** ** Words *)
Lemma ident_head f l0 T : cwf l0 -> rest l0 = T -> (exists s r, T = s ++ r /\ identifier s = true) ->
  nextLoop (S f) l0 = nextIdentLikeToken (setStart l0 (l_lastPos l0)).
Proof.
  intros H E (s & r & ET & I). cbn [nextLoop]. set (l := setStart l0 (l_lastPos l0)).
  assert (H1 : cwf l) by exact H. assert (E1 : rest l = T) by exact E.
  destruct s as [|c s]; [discriminate|]. simpl in I, ET. rewrite ET in E1. clear E ET.
  apply andb_true_iff in I as [N I]. apply orb_true_iff in I as [I|I].
  - pose proof (startByte_ascii _ I) as A. apply startByte_facts in I as F.
    rewrite (ch_at _ _ _ H1 E1 A).
    repeat match goal with |- context [bz c =? ?k] => destruct (Z.eqb_spec (bz c) k); [lia|] end.
    cbn [orb]. assert (X : isWhitespace (bz c) = false) by (unfold isWhitespace; zb). rewrite X.
    rewrite digit_no by lia. assert (Y : isNameStartCodePoint (bz c) = true).
    { unfold isNameStartCodePoint. zb. } rewrite Y. reflexivity.
  - apply andb_true_iff in I as [I J]. apply Z.eqb_eq in I.
    assert (A : ascii c) by (split; lia). rewrite (ch_at _ _ _ H1 E1 A).
    rewrite I. cbn [Z.eqb Pos.eqb].
    rewrite !(peek_at _ _ _ _ H1 E1 A). destruct s as [|d s]; [discriminate|].
    cbn [skipn]. simpl in E1. simpl app. cbn [skipn]. simpl in N. apply andb_true_iff in N as [Nd N].
    apply orb_true_iff in J as [J|J].
    + apply startByte_facts in J as F. rewrite chr_ascii by lia.
      assert (X : startsNumber 45 (bz d) (chr (s ++ r)) = false).
      { unfold startsNumber. cbn [Z.eqb Pos.eqb orb]. rewrite digit_no by lia.
        destruct (Z.eqb_spec (bz d) 46); [lia|]. reflexivity. }
      rewrite X. destruct (Z.eqb_spec (bz d) 45); [lia|]. cbn [andb].
      assert (Y : forall x y, startsIdentifier (bz d) x y = true).
      { intros. unfold startsIdentifier. destruct (Z.eqb_spec (bz d) 45); [lia|]. destruct (Z.eqb_spec (bz d) 10); [lia|].
        rewrite nameByte_name by lia. auto. }
      rewrite Y. reflexivity.
    + apply andb_true_iff in J as [J K]. apply Z.eqb_eq in J. rewrite chr_ascii, J by lia.
      destruct s as [|e s]; [discriminate|]. simpl app. simpl in N. apply andb_true_iff in N as [Ne N].
      assert (X : startsNumber 45 45 (chr (e :: s ++ r)) = false) by reflexivity.
      rewrite X. cbn [Z.eqb Pos.eqb andb].
      assert (C : (chr (e :: s ++ r) =? 62) = false /\ isNameCodePoint (chr (e :: s ++ r)) = true).
      { destruct (Z.ltb_spec (bz e) 128).
        - rewrite chr_ascii by auto. pose proof (nameByte_facts _ Ne H0). split; [zb|]. rewrite nameByte_name; auto.
        - pose proof (chr_high e (s ++ r) H0). split; [zb|]. apply name_high; auto. }
      destruct C as [C1 C2]. rewrite C1. cbn [andb].
      assert (Y : forall z, startsIdentifier 45 (chr (e :: s ++ r)) z = true).
      { intros z. unfold startsIdentifier. cbn [Z.eqb Pos.eqb]. rewrite C2, orb_true_r. reflexivity. }
      rewrite Y. reflexivity.
Qed.

Lemma identifier_name s : identifier s = true -> forallb nameByte s = true.
Proof.
  destruct s as [|c s]; [discriminate|]. cbn [identifier forallb]. rewrite !andb_true_iff.
  intros [N I]. split; auto. apply orb_true_iff in I as [I|I]; [apply startByte_name; auto|].
  apply andb_true_iff in I as [I _]. unfold nameByte. rewrite I, !orb_true_r. reflexivity.
Qed.

Lemma tok_ident s r : identifier s = true -> endWord r -> Tok (s ++ r) Ident (Some s) None r.
Proof.
  intros I W f l0 H E C _. rewrite (ident_head f l0 _ H E) by eauto.
  set (l := setStart l0 (l_lastPos l0)). assert (H1 : cwf l) by exact H. assert (E1 : rest l = s ++ r) by exact E.
  unfold nextIdentLikeToken. destruct (name_run l s r H1 E1 (identifier_name _ I) (endWord_name _ W)) as (l1 & N1 & M1).
  rewrite N1. cbn [bind]. rewrite (contentSlice_moves _ _ _ H1 (proj1 M1)). cbn [bind].
  pose proof (movesF_cwf _ _ _ M1) as H2. pose proof (moves_rest _ _ _ _ M1 E1) as R2.
  pose proof (endWord_ch l1 r H2 R2 W) as N40.
  change (l_ch (setStr l1 s)) with (l_ch l1). destruct (Z.eqb_spec (l_ch l1) 40); [contradiction|].
  rewrite andb_false_r. exists (setCur (setStr l1 s) Ident). split; [reflexivity|].
  destruct M1 as (_ & (F1 & F2 & F3 & F4 & F5 & F6)).
  split; [|exact F5]. repeat split; auto; try apply H2. cbn. rewrite F6. exact C.
Qed.

Lemma urlName_is s : isURLString s = urlName s. Proof. reflexivity. Qed.

Lemma tok_func s r : identifier s = true -> urlName s = false -> Tok (s ++ "("%byte :: r) FunctionStart (Some s) None r.
Proof.
  intros I Nu f l0 H E C _. rewrite (ident_head f l0 _ H E) by eauto.
  set (l := setStart l0 (l_lastPos l0)). assert (H1 : cwf l) by exact H. assert (E1 : rest l = s ++ "("%byte :: r) by exact E.
  unfold nextIdentLikeToken.
  pose proof (name_run l s _ H1 E1 (identifier_name _ I) (eq_refl true)) as X.
  destruct X as (l1 & N1 & M1).
  rewrite N1. cbn [bind]. rewrite (contentSlice_moves _ _ _ H1 (proj1 M1)). cbn [bind].
  pose proof (movesF_cwf _ _ _ M1) as H2. pose proof (moves_rest _ _ _ _ M1 E1) as R2.
  assert (A : ascii "("%byte) by (split; vm_compute; congruence).
  change (l_ch (setStr l1 s)) with (l_ch l1). rewrite (ch_at _ _ _ H2 R2 A).
  rewrite urlName_is, Nu. cbn [andb]. change (bz "(" =? 40) with true. cbv iota.
  assert (H3 : cwf (setStr l1 s)) by exact H2.
  destruct (step_at (setStr l1 s) _ _ H3 R2 A) as [M2 R3].
  exists (setCur (step (setStr l1 s)) FunctionStart). split; [reflexivity|].
  destruct M1 as (_ & (F1 & F2 & F3 & F4 & F5 & F6)). destruct M2 as (M2 & (G1 & G2 & G3 & G4 & G5 & G6)).
  split; [|cbn; rewrite G5; exact F5].
  split; [exact (moves_cwf _ _ _ M2)|]. split; [exact R3|]. split; [reflexivity|].
  split; [cbn; rewrite G6; cbn; rewrite F6; exact C|]. split; [cbn; rewrite G3; reflexivity | exact Logic.I].
Qed.

(** Building the state after a token. *)
Lemma facts_moves l0 l t s t' os on T' (l' : lexer) :
  movesF l0 l s -> rest l0 = s ++ T' -> l_rcom l0 = false ->
  l_ch l' = l_ch l -> l_pos l' = l_pos l -> l_lastPos l' = l_lastPos l -> l_content l' = l_content l ->
  l_rcom l' = l_rcom l -> l_rws l' = l_rws l -> l_cur l' = t' -> t' = t -> has os (l_str l') -> has on (l_num l') ->
  facts t os on T' l' /\ l_rws l' = l_rws l0.
Proof.
  intros M E C E1 E2 E3 E4 E5 E6 E7 -> S N. pose proof (movesF_cwf _ _ _ M) as W.
  pose proof (moves_rest _ _ _ _ M E) as R. destruct M as (_ & (F1 & F2 & F3 & F4 & F5 & F6)).
  split; [|congruence]. split; [|split; [|split; [|split; [|split]]]]; auto.
  - destruct W as (W1 & W2 & W3). unfold cwf, rest in *. rewrite E1, E2, E3, E4. auto.
  - unfold rest in *. rewrite E3, E4. auto.
  - congruence.
Qed.
Ltac fm M := eapply (facts_moves _ _ _ _ _ _ _ _ _ M); first [eassumption|reflexivity|exact Logic.I].

(** ** Numbers *)
Definition afterNum (r : bytes) : Prop :=
  match r with
  | [] => True
  | c :: r' => ascii c /\ ~ (48 <= bz c <= 57) /\ bz c <> 46 /\
    (bz c = 101 \/ bz c = 69 -> match r' with d :: _ => isLetter d = true | [] => False end)
  end.
Lemma endNum_after r : endNum r -> afterNum r.
Proof.
  destruct r as [|c r]; simpl; auto. intros (S & ? & ? & ?). apply stopName_facts in S as (A & _ & _ & _ & ? & ? & ? & _).
  split; auto. split; [lia|]. split; [lia|]. lia.
Qed.
Lemma percent_after r : afterNum ("%"%byte :: r).
Proof. simpl. split; [split; vm_compute; congruence|]. change (bz "%") with 37. repeat split; lia. Qed.
Lemma unit_after u r : unitName u = true -> afterNum (u ++ r).
Proof.
  destruct u as [|c u]; [discriminate|]. cbn [unitName app afterNum]. rewrite !andb_true_iff. intros ((S & N) & X).
  split; [apply startByte_ascii; auto|]. apply startByte_facts in S. split; [lia|]. split; [lia|].
  intros Hc. destruct ((bz c =? 101) || (bz c =? 69)) eqn:E; [|zb; lia].
  destruct u; [discriminate|]. exact X.
Qed.
Lemma isLetter_facts c : isLetter c = true -> 65 <= bz c <= 90 \/ 97 <= bz c <= 122.
Proof. unfold isLetter, isUpper, isLower. intros. zb. Qed.

Lemma digits_run f : forall l s r, cwf l -> rest l = s ++ r -> forallb isNumeric s = true ->
  match r with [] => True | c :: _ => ascii c /\ ~ (48 <= bz c <= 57) end -> (length s < f)%nat ->
  exists l', stepWhile isDigit f l = Ok l' /\ movesF l l' s.
Proof.
  induction f as [|f IH]; intros l s r H E N W L; [lia|]. cbn [stepWhile].
  destruct s as [|c s].
  - simpl in E. assert (D : isDigit (l_ch l) = false).
    { destruct r as [|c r]; [rewrite (ch_nil _ H E); reflexivity|].
      destruct W as [A W]. rewrite (ch_at _ _ _ H E A). destruct A. apply digit_no. lia. }
    rewrite D. exists l. split; auto. apply movesF_refl; auto.
  - simpl in N. apply andb_true_iff in N as [Nc N]. pose proof (isNumeric_ascii _ Nc) as A.
    apply isNumeric_facts in Nc. rewrite (ch_at _ _ _ H E A), digit_yes by lia.
    destruct (step_at _ _ _ H E A) as [M R].
    destruct (IH (step l) s r) as (l' & E1 & M1); auto; [eapply movesF_cwf; eauto | simpl in L; lia|].
    exists l'. split; auto. eapply (movesF_trans _ _ _ [c]); eauto.
Qed.

Lemma decimal_split s : decimal s = true -> exists a b, s = a ++ b /\ forallb isNumeric a = true /\
  ((b = [] /\ a <> []) \/ (exists d b', b = "."%byte :: d :: b' /\ forallb isNumeric (d :: b') = true)).
Proof.
  induction s as [|c s IH]; [discriminate|]. cbn [decimal]. destruct (Z.eqb_spec (bz c) 46).
  - unfold digits. rewrite andb_true_iff. intros [D N]. exists [], (c :: s). split; auto. split; auto. right.
    destruct s as [|d s]; [discriminate|]. exists d, s. split; auto.
    f_equal. apply bz_inj. exact e.
  - rewrite andb_true_iff. intros [N D]. apply orb_true_iff in D as [D|D].
    + destruct s; [|discriminate]. exists [c], []. simpl. rewrite N. repeat split; auto. left. split; congruence.
    + destruct (IH D) as (a & b & -> & Na & X). exists (c :: a), b. simpl. rewrite N. repeat split; auto.
      destruct X as [[-> X]|X]; auto. left. split; congruence.
Qed.

Lemma number_run l n r : cwf l -> rest l = n ++ r -> numeral n = true -> afterNum r ->
  exists l', nextNumber l = Ok l' /\ movesF l l' n.
Proof.
  intros H E N A. unfold nextNumber.
  assert (X : exists g d, n = g ++ d /\ decimal d = true /\
    exists l1, movesF l l1 g /\ (if (l_ch l =? 43) || (l_ch l =? 45) then step l else l) = l1).
  { destruct n as [|c n]; [discriminate|]. cbn [numeral] in N.
    destruct ((bz c =? 43) || (bz c =? 45)) eqn:Ec.
    - assert (Ac : ascii c) by (split; zb). exists [c], n. split; auto. split; auto.
      exists (step l). rewrite (ch_at _ _ _ H E Ac), Ec. destruct (step_at _ _ _ H E Ac). auto.
    - exists [], (c :: n). split; auto. split; auto. exists l. split; [apply movesF_refl; auto|].
      assert (Ac : ascii c).
      { cbn [decimal] in N. destruct (Z.eqb_spec (bz c) 46); [split; lia|].
        apply andb_true_iff in N as [N _]. apply isNumeric_ascii; auto. }
      rewrite (ch_at _ _ _ H E Ac), Ec. auto. }
  destruct X as (g & d & -> & D & l1 & M1 & ->). rewrite <- app_assoc in E.
  pose proof (movesF_cwf _ _ _ M1) as H1. pose proof (moves_rest _ _ _ _ M1 E) as E1.
  destruct (decimal_split _ D) as (a & b & -> & Na & X). rewrite <- app_assoc in E1.
  assert (Q : match b ++ r with [] => True | c :: _ => ascii c /\ ~ (48 <= bz c <= 57) end).
  { destruct X as [[-> _]|(x & b' & -> & _)].
    - simpl. destruct r; auto. destruct A as (A1 & A2 & _). auto.
    - simpl. split; [split; vm_compute; congruence|]. change (bz ".") with 46. lia. }
  destruct (digits_run (lfuel l1) l1 a (b ++ r) H1 E1 Na Q) as (l2 & E2 & M2).
  { pose proof (lfuel_rest l1) as F. rewrite E1, app_length in F. lia. }
  rewrite E2. cbn [bind]. pose proof (movesF_cwf _ _ _ M2) as H2. pose proof (moves_rest _ _ _ _ M2 E1) as R2.
  assert (Y : exists l3, (if (l_ch l2 =? 46) && isDigit (peek l2 0)
     then stepWhile isDigit (lfuel l2) (step (step l2)) else Ok l2) = Ok l3 /\ movesF l2 l3 b).
  { destruct X as [[-> _]|(x & b' & -> & Nb)].
    - simpl in R2. assert (C : (l_ch l2 =? 46) = false).
      { destruct r as [|c r]; [rewrite (ch_nil _ H2 R2); reflexivity|].
        destruct A as (A1 & A2 & A3 & _). rewrite (ch_at _ _ _ H2 R2 A1). apply Z.eqb_neq. auto. }
      rewrite C. exists l2. split; auto. apply movesF_refl; auto.
    - simpl in R2. assert (Ad : ascii "."%byte) by (split; vm_compute; congruence).
      rewrite (ch_at _ _ _ H2 R2 Ad), (peek_at _ _ _ _ H2 R2 Ad). cbn [skipn].
      simpl in Nb. apply andb_true_iff in Nb as [Nx Nb]. pose proof (isNumeric_ascii _ Nx) as Ax.
      apply isNumeric_facts in Nx. rewrite chr_ascii by (destruct Ax; auto). rewrite digit_yes by lia.
      change (bz "." =? 46) with true. cbn [andb].
      destruct (step_at _ _ _ H2 R2 Ad) as [M3 R3]. pose proof (movesF_cwf _ _ _ M3) as H3.
      destruct (step_at _ _ _ H3 R3 Ax) as [M4 R4]. pose proof (movesF_cwf _ _ _ M4) as H4.
      destruct (digits_run (lfuel l2) _ b' r H4 R4 Nb) as (l5 & E5 & M5).
      + destruct r; auto. destruct A as (A1 & A2 & _). auto.
      + pose proof (lfuel_rest l2) as F. rewrite R2 in F. cbn [length] in F. rewrite app_length in F. lia.
      + rewrite E5. exists l5. split; auto.
        change ("."%byte :: x :: b') with (["."%byte] ++ [x] ++ b').
        eapply movesF_trans; [exact M3|]. eapply movesF_trans; eauto. }
  destruct Y as (l3 & E3 & M3). rewrite E3. cbn [bind].
  pose proof (movesF_cwf _ _ _ M3) as H3. pose proof (moves_rest _ _ _ _ M3 R2) as R3.
  assert (Z : (((l_ch l3 =? 101) || (l_ch l3 =? 69)) &&
     (isDigit (peek l3 0) || (((peek l3 0 =? 43) || (peek l3 0 =? 45)) && isDigit (peek l3 1)))) = false).
  { destruct r as [|c r]; [rewrite (ch_nil _ H3 R3); reflexivity|]. destruct A as (A1 & A2 & A3 & A4).
    rewrite (ch_at _ _ _ H3 R3 A1). destruct ((bz c =? 101) || (bz c =? 69)) eqn:Ec; auto. cbn [andb].
    rewrite !(peek_at _ _ _ _ H3 R3 A1). destruct r as [|e r]; [exfalso; apply A4; zb|].
    assert (L : isLetter e = true) by (apply A4; zb). apply isLetter_facts in L. cbn [skipn].
    rewrite chr_ascii by lia. rewrite digit_no by lia. zb. }
  rewrite Z. exists l3. split; auto.
  eapply movesF_trans; [exact M1|]. eapply movesF_trans; eauto.
Qed.

Lemma numeric_head f l0 n r : cwf l0 -> rest l0 = n ++ r -> numeral n = true ->
  nextLoop (S f) l0 = nextNumericToken (setStart l0 (l_lastPos l0)).
Proof.
  intros H E N. cbn [nextLoop]. set (l := setStart l0 (l_lastPos l0)).
  assert (H1 : cwf l) by exact H. assert (E1 : rest l = n ++ r) by exact E. clearbody l. clear H E.
  destruct n as [|c n]; [discriminate|]. cbn [numeral] in N. simpl in E1.
  destruct ((bz c =? 43) || (bz c =? 45)) eqn:Ec.
  - assert (A : ascii c) by (split; zb). rewrite (ch_at _ _ _ H1 E1 A).
    assert (S : startsNumber (bz c) (peek l 0) (peek l 1) = true).
    { unfold startsNumber. rewrite Ec, !(peek_at _ _ _ _ H1 E1 A). cbn [skipn].
      destruct n as [|d n]; [discriminate|]. cbn [decimal] in N. simpl app. destruct (Z.eqb_spec (bz d) 46).
      - rewrite chr_ascii by lia. rewrite digit_no by lia. rewrite e. cbn [Z.eqb Pos.eqb skipn].
        unfold digits in N. destruct n as [|x n]; [discriminate|]. apply andb_true_iff in N as [N _].
        simpl in N. apply andb_true_iff in N as [N _]. apply isNumeric_facts in N. simpl app. rewrite chr_ascii by lia.
        rewrite digit_yes by lia. reflexivity.
      - apply andb_true_iff in N as [N _]. apply isNumeric_facts in N. rewrite chr_ascii by lia.
        rewrite digit_yes by lia. reflexivity. }
    assert (bz c = 43 \/ bz c = 45) as [X|X] by zb.
    + rewrite X in *. cbn [Z.eqb Pos.eqb]. rewrite S. reflexivity.
    + rewrite X in *. cbn [Z.eqb Pos.eqb]. rewrite S. reflexivity.
  - destruct (Z.eqb_spec (bz c) 46) as [X|X].
    + assert (A : ascii c) by (split; lia). rewrite (ch_at _ _ _ H1 E1 A), X. cbn [Z.eqb Pos.eqb].
      cbn [decimal] in N. rewrite X in N. cbn [Z.eqb Pos.eqb] in N. unfold digits in N.
      destruct n as [|d n]; [discriminate|]. apply andb_true_iff in N as [N _]. simpl in N.
      apply andb_true_iff in N as [N _]. apply isNumeric_facts in N.
      assert (S : startsNumber (peek l 0) (peek l 1) (peek l 2) = true).
      { unfold startsNumber. rewrite !(peek_at _ _ _ 0 H1 E1 A). cbn [skipn app]. rewrite chr_ascii by lia.
        destruct (Z.eqb_spec (bz d) 43); [lia|]. destruct (Z.eqb_spec (bz d) 45); [lia|].
        destruct (Z.eqb_spec (bz d) 46); [lia|]. cbn [orb andb]. apply digit_yes; lia. }
      rewrite S. reflexivity.
    + cbn [decimal] in N. destruct (Z.eqb_spec (bz c) 46); [lia|]. apply andb_true_iff in N as [N _].
      pose proof (isNumeric_ascii _ N) as A. apply isNumeric_facts in N. rewrite (ch_at _ _ _ H1 E1 A).
      repeat match goal with |- context [bz c =? ?k] => destruct (Z.eqb_spec (bz c) k); [lia|] end.
      cbn [orb]. assert (Y : isWhitespace (bz c) = false) by (unfold isWhitespace; zb). rewrite Y.
      rewrite digit_yes by lia. reflexivity.
Qed.
Lemma unit_name u : unitName u = true -> forallb nameByte u = true.
Proof.
  destruct u as [|c u]; [discriminate|]. cbn [unitName forallb]. rewrite !andb_true_iff. intros ((S & N) & _).
  rewrite (startByte_name _ S). auto.
Qed.

Lemma tok_number n r : numeral n = true -> endNum r -> Tok (n ++ r) Number None (Some n) r.
Proof.
  intros N W f l0 H E C _. rewrite (numeric_head f l0 n r H E N).
  set (l := setStart l0 (l_lastPos l0)). assert (H1 : cwf l) by exact H. assert (E1 : rest l = n ++ r) by exact E.
  unfold nextNumericToken. destruct (number_run l n r H1 E1 N (endNum_after _ W)) as (l1 & N1 & M1).
  rewrite N1. cbn [bind]. rewrite (contentSlice_moves _ _ _ H1 (proj1 M1)). cbn [bind].
  pose proof (movesF_cwf _ _ _ M1) as H2. pose proof (moves_rest _ _ _ _ M1 E1) as R2.
  change (l_ch (setNum l1 n)) with (l_ch l1).
  destruct (endName_ch l1 r H2 R2 (endWord_name _ (endNum_word _ W))) as (X1 & X2 & X3 & X4).
  assert (S : forall x y, startsIdentifier (l_ch l1) x y = false).
  { intros. unfold startsIdentifier. destruct (Z.eqb_spec (l_ch l1) 45); [contradiction|]. rewrite X1. destruct (l_ch l1 =? 10); auto. }
  rewrite S. assert (P : (l_ch l1 =? 37) = false).
  { apply Z.eqb_neq. destruct r as [|c r]; [rewrite (ch_nil _ H2 R2); lia|]. destruct W as (W & _ & _ & W2).
    apply stopName_facts in W as (A & _). rewrite (ch_at _ _ _ H2 R2 A). auto. }
  rewrite P. exists (setCur (setNum l1 n) Number). split; [reflexivity|].
  fm M1.
Qed.

Lemma tok_percent n r : numeral n = true -> Tok (n ++ "%"%byte :: r) Percentage None (Some n) r.
Proof.
  intros N f l0 H E C _. rewrite (numeric_head f l0 n _ H E N).
  set (l := setStart l0 (l_lastPos l0)). assert (H1 : cwf l) by exact H. assert (E1 : rest l = n ++ "%"%byte :: r) by exact E.
  unfold nextNumericToken. destruct (number_run l n _ H1 E1 N (percent_after _)) as (l1 & N1 & M1).
  rewrite N1. cbn [bind]. rewrite (contentSlice_moves _ _ _ H1 (proj1 M1)). cbn [bind].
  pose proof (movesF_cwf _ _ _ M1) as H2. pose proof (moves_rest _ _ _ _ M1 E1) as R2.
  change (l_ch (setNum l1 n)) with (l_ch l1).
  assert (A : ascii "%"%byte) by (split; vm_compute; congruence). rewrite (ch_at _ _ _ H2 R2 A).
  change (bz "%") with 37. cbn.
  exists (step (setCur (setNum l1 n) Percentage)). split; [reflexivity|].
  assert (H3 : cwf (setCur (setNum l1 n) Percentage)) by exact H2.
  destruct (facts_step (setNum l1 n) r "%"%byte r Percentage None (Some n) H2 R2 A) as [F1 F2];
    [destruct M1 as (_ & (_ & _ & _ & _ & _ & M)); cbn; rewrite M; exact C | reflexivity | exact Logic.I | reflexivity|].
  split; auto. rewrite F2. destruct M1 as (_ & (_ & _ & _ & _ & M & _)). exact M.
Qed.

Lemma tok_dimension n u r : numeral n = true -> unitName u = true -> endName r ->
  Tok (n ++ u ++ r) Dimension (Some u) (Some n) r.
Proof.
  intros N Nu W f l0 H E C _. rewrite (numeric_head f l0 n _ H E N).
  set (l := setStart l0 (l_lastPos l0)). assert (H1 : cwf l) by exact H. assert (E1 : rest l = n ++ u ++ r) by exact E.
  unfold nextNumericToken. destruct (number_run l n _ H1 E1 N (unit_after _ _ Nu)) as (l1 & N1 & M1).
  rewrite N1. cbn [bind]. rewrite (contentSlice_moves _ _ _ H1 (proj1 M1)). cbn [bind].
  pose proof (movesF_cwf _ _ _ M1) as H2. pose proof (moves_rest _ _ _ _ M1 E1) as R2.
  change (l_ch (setNum l1 n)) with (l_ch l1).
  assert (S : forall x y, startsIdentifier (l_ch l1) x y = true).
  { intros. destruct u as [|c u]; [discriminate|]. cbn [unitName] in Nu. apply andb_true_iff in Nu as [Nu _].
    apply andb_true_iff in Nu as [Nu _]. rewrite (ch_at _ _ _ H2 R2 (startByte_ascii _ Nu)).
    pose proof (startByte_name _ Nu) as Nn. apply startByte_facts in Nu.
    unfold startsIdentifier. destruct (Z.eqb_spec (bz c) 45); [lia|]. destruct (Z.eqb_spec (bz c) 10); [lia|].
    rewrite nameByte_name by lia. auto. }
  rewrite S. assert (H3 : cwf (setNum l1 n)) by exact H2.
  destruct (name_run (setNum l1 n) u r H3 R2 (unit_name _ Nu) W) as (l3 & N3 & M3).
  rewrite N3. cbn [bind]. rewrite (contentSlice_moves _ _ _ H3 (proj1 M3)). cbn [bind].
  exists (setCur (setStr l3 u) Dimension). split; [reflexivity|].
  assert (C3 : l_rcom (setNum l1 n) = false) by (destruct M1 as (_ & (_ & _ & _ & _ & _ & M)); cbn; rewrite M; exact C).
  destruct (facts_moves (setNum l1 n) l3 Dimension u Dimension (Some u) (Some n) r (setCur (setStr l3 u) Dimension) M3 R2 C3) as [F1 F2]; try reflexivity.
  { destruct M3 as (_ & (_ & _ & _ & M & _)). exact M. }
  split; auto. rewrite F2. destruct M1 as (_ & (_ & _ & _ & _ & M & _)). exact M.
Qed.

(** ** Strings and urls *)
Definition dq : byte := """"%byte.
Definition quotByte (b : byte) : bool := negb ((bz b =? 34) || (bz b =? 92) || (bz b =? 10) || (bz b =? 13)).
Lemma dq_ascii : ascii dq. Proof. split; vm_compute; congruence. Qed.

Lemma string_run f : forall l s r, cwf l -> rest l = s ++ dq :: r -> quotable s = true -> (length s < f)%nat ->
  exists l', stringLoop f 34 l = Ok (l_lastPos l', step l') /\ movesF l l' s.
Proof.
  induction f as [|f IH]; intros l s r H E N L; [lia|]. cbn [stringLoop].
  destruct s as [|c s].
  - rewrite (ch_at _ _ _ H E dq_ascii). change (bz dq =? 34) with true. cbv iota.
    exists l. split; auto. apply movesF_refl; auto.
  - unfold quotable in N. cbn [forallb] in N. apply andb_true_iff in N as [Nc N]. fold (quotByte c) in Nc.
    fold (quotable s) in N.
    destruct (Z.ltb_spec (bz c) 128).
    + assert (X : bz c <> 34 /\ bz c <> 92 /\ bz c <> 10 /\ bz c <> 13) by (unfold quotByte in Nc; zb).
      assert (A : ascii c) by (split; lia). rewrite (ch_at _ _ _ H E A).
      pose proof (bz_range c).
      repeat match goal with |- context [bz c =? ?k] => destruct (Z.eqb_spec (bz c) k); [lia|] end.
      destruct (step_at _ _ _ H E A) as [M R].
      destruct (IH (step l) s r) as (l' & E1 & M1); auto; [eapply movesF_cwf; eauto | simpl in L; lia|].
      exists l'. split; auto. eapply (movesF_trans _ _ _ [c]); eauto.
    + destruct (step_high _ _ _ H E) as (u & t & Eu & Nu & Fu & M & R & C); [lia|].
      destruct (high_prefix u (c :: s) (dq :: r) t Fu (eq_sym Eu) (eq_refl Lt)) as (s2 & E2 & E3).
      repeat match goal with |- context [l_ch l =? ?k] => destruct (Z.eqb_spec (l_ch l) k); [lia|] end.
      destruct (IH (step l) s2 r) as (l' & E1 & M1); auto.
      * eapply movesF_cwf; eauto.
      * rewrite R; auto.
      * assert (X : quotable (u ++ s2) = true).
        { rewrite <- E2. unfold quotable. cbn [forallb]. fold (quotByte c) (quotable s). rewrite Nc, N. auto. }
        unfold quotable in X. rewrite forallb_app in X. apply andb_true_iff in X as [_ X]. exact X.
      * rewrite E2, app_length in L. destruct u; [contradiction|]. simpl in L. lia.
      * exists l'. split; auto. rewrite E2. eapply movesF_trans; eauto.
Qed.

Lemma tok_string s r : quotable s = true -> Tok (dq :: s ++ dq :: r) TString (Some s) None r.
Proof.
  intros N f l0 H E C _. cbn [nextLoop]. set (l := setStart l0 (l_lastPos l0)).
  assert (H1 : cwf l) by exact H. assert (E1 : rest l = dq :: s ++ dq :: r) by exact E.
  rewrite (ch_at _ _ _ H1 E1 dq_ascii). change (bz dq) with 34. cbn [Z.eqb Pos.eqb orb].
  destruct (step_at _ _ _ H1 E1 dq_ascii) as [M1 R1]. pose proof (movesF_cwf _ _ _ M1) as H2.
  destruct (string_run (lfuel (step l)) (step l) s r H2 R1 N) as (l2 & E2 & M2).
  { pose proof (lfuel_rest (step l)) as F. rewrite R1, app_length in F. lia. }
  rewrite E2. cbn [bind]. pose proof (movesF_cwf _ _ _ M2) as H3. pose proof (moves_rest _ _ _ _ M2 R1) as R2.
  destruct (step_at _ _ _ H3 R2 dq_ascii) as [M3 R3].
  assert (S : contentSlice (setCur (step l2) TString) (l_lastPos (step l)) (l_lastPos l2) = Ok s).
  { pose proof (contentSlice_moves _ _ _ H2 (proj1 M2)) as X. unfold contentSlice in *.
    change (l_content (setCur (step l2) TString)) with (l_content (step l2)).
    destruct (proj1 M3) as (Y & _). rewrite Y.
    destruct (slice (l_content l2) (l_lastPos (step l)) (l_lastPos l2)); [injection X as ->; reflexivity|discriminate]. }
  rewrite S. cbn [bind]. exists (setStr (setCur (step l2) TString) s). split; [reflexivity|].
  pose proof (movesF_trans _ _ _ _ _ M1 (movesF_trans _ _ _ _ _ M2 M3)) as M.
  assert (EE : rest l = ([dq] ++ s ++ [dq]) ++ r) by (rewrite E1; simpl; rewrite <- app_assoc; reflexivity).
  assert (CC : l_rcom l = false) by exact C.
  eapply (facts_moves l _ TString _ TString (Some s) None r _ M EE CC); first [reflexivity | exact Logic.I].
Qed.

Lemma urlByte_facts c : urlByte c = true -> bz c < 128 ->
  32 < bz c /\ bz c <> 34 /\ bz c <> 39 /\ bz c <> 40 /\ bz c <> 41 /\ bz c <> 92 /\ bz c <> 127.
Proof. unfold urlByte. intros. zb. Qed.
Lemma url_run f : forall l0 l s t r, cwf l0 -> movesF l0 l t -> rest l = s ++ ")"%byte :: r -> forallb urlByte s = true -> (length s < f)%nat ->
  exists l', urlLoop f (l_lastPos l0) l = Ok (step (setStr l' (t ++ s))) /\ movesF l0 l' (t ++ s).
Proof.
  induction f as [|f IH]; intros l0 l s t r H0 M0 E N L; [lia|]. cbn [urlLoop].
  pose proof (movesF_cwf _ _ _ M0) as H.
  destruct s as [|c s].
  - assert (A : ascii ")"%byte) by (split; vm_compute; congruence).
    rewrite (ch_at _ _ _ H E A). change (bz ")" =? 41) with true. cbv iota.
    rewrite (contentSlice_moves _ _ _ H0 (proj1 M0)). cbn [bind]. rewrite app_nil_r. exists l. auto.
  - cbn [forallb] in N. apply andb_true_iff in N as [Nc N].
    destruct (Z.ltb_spec (bz c) 128).
    + pose proof (urlByte_facts _ Nc H1) as X.
      assert (A : ascii c) by (split; lia). rewrite (ch_at _ _ _ H E A).
      repeat match goal with |- context [bz c =? ?k] => destruct (Z.eqb_spec (bz c) k); [lia|] end. cbn [orb].
      assert (Y : isWhitespace (bz c) = false) by (unfold isWhitespace; zb). rewrite Y.
      assert (Y2 : isNonPrintable (bz c) = false) by (unfold isNonPrintable; zb). rewrite Y2.
      destruct (step_at _ _ _ H E A) as [M R].
      destruct (IH l0 (step l) s (t ++ [c]) r) as (l' & E1 & M1); auto; [eapply movesF_trans; eauto | simpl in L; lia|].
      rewrite <- app_assoc in E1, M1. exists l'. auto.
    + destruct (step_high _ _ _ H E) as (u & t' & Eu & Nu & Fu & M & R & C); [lia|].
      destruct (high_prefix u (c :: s) (")"%byte :: r) t' Fu (eq_sym Eu) (eq_refl Lt)) as (s2 & E2 & E3).
      repeat match goal with |- context [l_ch l =? ?k] => destruct (Z.eqb_spec (l_ch l) k); [lia|] end. cbn [orb].
      assert (Y : isWhitespace (l_ch l) = false) by (unfold isWhitespace; zb). rewrite Y.
      assert (Y2 : isNonPrintable (l_ch l) = false) by (unfold isNonPrintable; zb). rewrite Y2.
      destruct (IH l0 (step l) s2 (t ++ u) r) as (l' & E1 & M1); auto.
      * eapply movesF_trans; eauto.
      * rewrite R; auto.
      * assert (X : forallb urlByte (u ++ s2) = true).
        { rewrite <- E2. cbn [forallb]. rewrite Nc, N. auto. }
        rewrite forallb_app in X. apply andb_true_iff in X as [_ X]. exact X.
      * rewrite E2, app_length in L. destruct u; [contradiction|]. simpl in L. lia.
      * rewrite <- app_assoc, <- E2 in E1, M1. exists l'. auto.
Qed.

(** [url(], in any case, up to what follows the parenthesis. *)
Lemma url_open f l0 n r : cwf l0 -> rest l0 = n ++ "("%byte :: r -> urlName n = true ->
  match r with c :: _ => bz c > 32 | [] => False end ->
  exists l, movesF (setStart l0 (l_lastPos l0)) l (n ++ ["("%byte]) /\ rest l = r /\
    nextLoop (S f) l0 = let l4 := setStr l n in
    (if (l_ch l4 =? 39) || (l_ch l4 =? 34) then Ok (setCur l4 FunctionStart)
    else urlLoop (lfuel (setCur l4 URL)) (l_lastPos (setCur l4 URL)) (setCur l4 URL)).
Proof.
  intros H E N W.
  assert (I : identifier n = true).
  { destruct n as [|a [|b [|c [|? ?]]]]; try discriminate. cbn [urlName] in N.
    unfold identifier, startByte, isLetter, isUpper, isLower. cbn [forallb]. unfold nameByte, isLetter, isUpper, isLower.
    rewrite !andb_true_iff in *. destruct N as ((Na & Nb) & Nc).
    apply orb_true_iff in Na as [Na|Na]; apply orb_true_iff in Nb as [Nb|Nb]; apply orb_true_iff in Nc as [Nc|Nc];
    apply Z.eqb_eq in Na; apply Z.eqb_eq in Nb; apply Z.eqb_eq in Nc; rewrite Na, Nb, Nc; vm_compute; auto. }
  rewrite (ident_head f l0 _ H E) by eauto.
  set (l := setStart l0 (l_lastPos l0)). assert (H1 : cwf l) by exact H. assert (E1 : rest l = n ++ "("%byte :: r) by exact E.
  unfold nextIdentLikeToken. pose proof (name_run l n _ H1 E1 (identifier_name _ I) (eq_refl true)) as X.
  destruct X as (l1 & N1 & M1).
  rewrite N1. cbn [bind]. rewrite (contentSlice_moves _ _ _ H1 (proj1 M1)). cbn [bind].
  pose proof (movesF_cwf _ _ _ M1) as H2. pose proof (moves_rest _ _ _ _ M1 E1) as R2.
  assert (A : ascii "("%byte) by (split; vm_compute; congruence).
  change (l_ch (setStr l1 n)) with (l_ch l1). rewrite (ch_at _ _ _ H2 R2 A).
  rewrite urlName_is, N. change (bz "(" =? 40) with true. cbn [andb].
  destruct (step_at l1 _ _ H2 R2 A) as [M2 R3]. pose proof (movesF_cwf _ _ _ M2) as H3.
  assert (S : step (setStr l1 n) = setStr (step l1) n).
  { unfold step. change (l_pos (setStr l1 n)) with (l_pos l1). change (l_content (setStr l1 n)) with (l_content l1).
    change (l_lines (setStr l1 n)) with (l_lines l1).
    destruct (decodeRune (skipn (l_pos l1) (l_content l1))) as [cp sz].
    destruct (sz =? 0)%nat; [reflexivity|]. destruct (cp =? 13); [|reflexivity].
    destruct (decodeRune (skipn (l_pos l1 + sz) (l_content l1))); reflexivity. }
  rewrite S. exists (step l1). split; [eapply movesF_trans; eauto|]. split; auto.
  assert (Y : isWhitespace (l_ch (step l1)) = false).
  { destruct r as [|c r]; [contradiction|]. unfold isWhitespace. destruct (Z.ltb_spec (bz c) 128).
    - destruct (Z.eqb_spec (bz c) 13); [lia|]. assert (Ac : ascii c) by (split; auto).
      rewrite (ch_at _ _ _ H3 R3 Ac). zb.
    - destruct (step_high _ _ _ H3 R3) as (? & ? & _ & _ & _ & _ & _ & C); [lia|]. zb. }
  unfold lfuel at 1. cbn [urlSkipWs]. change (l_ch (setStr (step l1) n)) with (l_ch (step l1)).
  rewrite Y, andb_false_r. cbn [bind]. reflexivity.
Qed.

Lemma tok_url s r : forallb urlByte s = true -> Tok (B "url(" ++ s ++ ")"%byte :: r) URL (Some s) None r.
Proof.
  intros N f l0 H E C _.
  change (B "url(" ++ s ++ ")"%byte :: r) with (B "url" ++ "("%byte :: (s ++ ")"%byte :: r)) in E.
  destruct (url_open f l0 (B "url") (s ++ ")"%byte :: r) H E eq_refl) as (l & M & R & X).
  { destruct s as [|c s]; [vm_compute; congruence|]. simpl in N. apply andb_true_iff in N as [N _]. cbn [app].
    unfold urlByte in N. zb. }
  rewrite X. cbv zeta. change (l_ch (setStr l (B "url"))) with (l_ch l).
  pose proof (movesF_cwf _ _ _ M) as H1.
  assert (Q : ((l_ch l =? 39) || (l_ch l =? 34)) = false).
  { destruct s as [|c s]; cbn [app] in R.
    - rewrite (ch_at _ _ _ H1 R); [reflexivity | split; vm_compute; congruence].
    - simpl in N. apply andb_true_iff in N as [N _]. destruct (Z.ltb_spec (bz c) 128).
      + pose proof (urlByte_facts _ N H0). rewrite (ch_at _ _ _ H1 R); [zb | split; lia].
      + destruct (step_high _ _ _ H1 R) as (? & ? & _ & _ & _ & _ & _ & D); [lia|]. zb. }
  rewrite Q. set (l5 := setCur (setStr l (B "url")) URL). assert (H5 : cwf l5) by exact H1.
  destruct (url_run (lfuel l5) l5 l5 s [] r H5 (movesF_refl _ H5) R N) as (l6 & E6 & M6).
  { pose proof (lfuel_rest l5) as F. change (rest l5) with (rest l) in F. rewrite R, app_length in F. lia. }
  cbn [app] in E6, M6. rewrite E6. exists (step (setStr l6 s)). split; [reflexivity|].
  pose proof (movesF_cwf _ _ _ M6) as H6. pose proof (moves_rest _ _ _ _ M6 R) as R6.
  assert (A : ascii ")"%byte) by (split; vm_compute; congruence).
  assert (H7 : cwf (setStr l6 s)) by exact H6.
  destruct (step_at (setStr l6 s) _ _ H7 R6 A) as [M7 R7].
  destruct M as (_ & (_ & _ & _ & _ & F5 & F6)). destruct M6 as (_ & (_ & G2 & G3 & G4 & G5 & G6)).
  destruct M7 as (M7 & (_ & K2 & K3 & K4 & K5 & K6)).
  split; [|rewrite K5; cbn; rewrite G5; cbn; rewrite F5; reflexivity].
  split; [exact (moves_cwf _ _ _ M7)|]. split; [exact R7|]. split; [rewrite K2; cbn; rewrite G2; reflexivity|].
  split; [rewrite K6; cbn; rewrite G6; cbn; rewrite F6; exact C|]. split; [rewrite K3; reflexivity | exact Logic.I].
Qed.

Lemma tok_urlfunc n r : urlName n = true -> Tok (n ++ "("%byte :: dq :: r) FunctionStart (Some n) None (dq :: r).
Proof.
  intros N f l0 H E C _.
  destruct (url_open f l0 n (dq :: r) H E N) as (l & M & R & X); [vm_compute; reflexivity|].
  rewrite X. cbv zeta. change (l_ch (setStr l n)) with (l_ch l).
  pose proof (movesF_cwf _ _ _ M) as H1. rewrite (ch_at _ _ _ H1 R dq_ascii).
  change (bz dq) with 34. cbn [Z.eqb Pos.eqb orb].
  exists (setCur (setStr l n) FunctionStart). split; [reflexivity|].
  assert (EE : rest (setStart l0 (l_lastPos l0)) = (n ++ ["("%byte]) ++ dq :: r) by (rewrite <- app_assoc; exact E).
  assert (CC : l_rcom (setStart l0 (l_lastPos l0)) = false) by exact C.
  eapply (facts_moves _ _ FunctionStart _ FunctionStart (Some n) None (dq :: r) _ M EE CC); first [reflexivity | exact Logic.I].
Qed.

(** ** "@" and "#" *)
Lemma sigil_run t c l s r : cwf l -> rest l = c :: s ++ r -> ascii c -> forallb nameByte s = true -> endName r ->
  l_rcom l = false ->
  exists l', nextSigilName t l = Ok l' /\ facts t (Some s) None r l' /\ l_rws l' = l_rws l.
Proof.
  intros H E A N W C. unfold nextSigilName. destruct (step_at _ _ _ H E A) as [M R].
  pose proof (movesF_cwf _ _ _ M) as H1. set (l1 := setCur (step l) t).
  assert (H2 : cwf l1) by exact H1. assert (R1 : rest l1 = s ++ r) by exact R.
  destruct (name_run l1 s r H2 R1 N W) as (l2 & E2 & M2). rewrite E2. cbn [bind].
  rewrite (contentSlice_moves _ _ _ H2 (proj1 M2)). cbn [bind]. exists (setStr l2 s). split; [reflexivity|].
  destruct M as (_ & (_ & _ & _ & _ & F5 & F6)).
  assert (C1 : l_rcom l1 = false) by (unfold l1; cbn; rewrite F6; exact C).
  destruct (facts_moves l1 l2 t s t (Some s) None r (setStr l2 s) M2 R1 C1) as [G1 G2]; try reflexivity; try exact Logic.I.
  { destruct M2 as (_ & (_ & X & _)). exact X. }
  split; auto. rewrite G2. exact F5.
Qed.

(** The three characters peeked at before an identifier. *)
Lemma identifier_starts s r : identifier s = true ->
  startsIdentifier (chr (s ++ r)) (chr (skipn 1 (s ++ r))) (chr (skipn 2 (s ++ r))) = true.
Proof.
  destruct s as [|c s]; [discriminate|]. cbn [identifier]. rewrite andb_true_iff. intros [N I].
  cbn [app]. apply orb_true_iff in I as [I|I].
  - pose proof (startByte_name _ I) as Nn. apply startByte_facts in I. rewrite chr_ascii by lia. unfold startsIdentifier.
    destruct (Z.eqb_spec (bz c) 45); [lia|]. destruct (Z.eqb_spec (bz c) 10); [lia|]. rewrite nameByte_name by lia. auto.
  - apply andb_true_iff in I as [I J]. apply Z.eqb_eq in I. rewrite (chr_ascii c) by lia. rewrite I.
    unfold startsIdentifier. cbn [Z.eqb Pos.eqb]. destruct s as [|d s]; [discriminate|]. cbn [skipn app].
    simpl in N. apply andb_true_iff in N as [Nd _]. 
    assert (bz d < 128). { apply orb_true_iff in J as [J|J]; [apply startByte_facts in J; lia|]. apply andb_true_iff in J as [J _]. zb. }
    rewrite chr_ascii by auto. rewrite nameByte_name, Nd by auto. rewrite orb_true_r. reflexivity.
Qed.

Lemma tok_at s r : identifier s = true -> endName r -> Tok ("@"%byte :: s ++ r) At (Some s) None r.
Proof.
  intros I W f l0 H E C _. cbn [nextLoop]. set (l := setStart l0 (l_lastPos l0)).
  assert (H1 : cwf l) by exact H. assert (E1 : rest l = "@"%byte :: s ++ r) by exact E.
  assert (A : ascii "@"%byte) by (split; vm_compute; congruence).
  rewrite (ch_at _ _ _ H1 E1 A). change (bz "@") with 64. cbn [Z.eqb Pos.eqb].
  rewrite !(peek_at _ _ _ _ H1 E1 A). change (skipn 0 (s ++ r)) with (s ++ r). rewrite identifier_starts by auto.
  apply (sigil_run At "@"%byte l s r H1 E1 A (identifier_name _ I) W C).
Qed.

Lemma tok_hash s r : word s = true -> endName r -> Tok ("#"%byte :: s ++ r) Hash (Some s) None r.
Proof.
  unfold word. rewrite andb_true_iff. intros [N NE] W f l0 H E C _. cbn [nextLoop]. set (l := setStart l0 (l_lastPos l0)).
  assert (H1 : cwf l) by exact H. assert (E1 : rest l = "#"%byte :: s ++ r) by exact E.
  assert (A : ascii "#"%byte) by (split; vm_compute; congruence).
  rewrite (ch_at _ _ _ H1 E1 A). change (bz "#") with 35. cbn [Z.eqb Pos.eqb].
  rewrite !(peek_at _ _ _ _ H1 E1 A). change (skipn 0 (s ++ r)) with (s ++ r).
  assert (X : isNameCodePoint (chr (s ++ r)) = true).
  { destruct s as [|c s]; [discriminate|]. simpl in N. apply andb_true_iff in N as [N _]. cbn [app].
    destruct (Z.ltb_spec (bz c) 128).
    - rewrite chr_ascii, nameByte_name by auto. auto.
    - apply name_high, chr_high. lia. }
  rewrite X. cbn [orb].
  apply (sigil_run Hash "#"%byte l s r H1 E1 A N W C).
Qed.

(** ** Delimiters *)
Definition delimOk (c : byte) (r : bytes) : Prop :=
  (bz c = 43 -> startsNumber 43 (chr r) (chr (skipn 1 r)) = false) /\
  (bz c = 45 -> startsNumber 45 (chr r) (chr (skipn 1 r)) = false /\
     (chr r =? 45) && (chr (skipn 1 r) =? 62) = false /\
     startsIdentifier (chr r) (chr (skipn 1 r)) (chr (skipn 2 r)) = false) /\
  (bz c = 60 -> (chr r =? 33) && (chr (skipn 1 r) =? 45) && (chr (skipn 2 r) =? 45) = false) /\
  (bz c = 64 -> startsIdentifier (chr r) (chr (skipn 1 r)) (chr (skipn 2 r)) = false) /\
  (bz c = 35 -> isNameCodePoint (chr r) || startsEscape (chr r) (chr (skipn 1 r)) = false) /\
  (bz c = 46 -> startsNumber (chr r) (chr (skipn 1 r)) (chr (skipn 2 r)) = false) /\
  (bz c = 47 -> chr r <> 42).
Definition delims : bytes := B "/*+-><=~|^$&?%.#@!".
Lemma tok_delim c r : In c delims -> delimOk c r -> Tok (c :: r) Delim (Some [c]) None r.
Proof.
  intros I (D1 & D2 & D3 & D4 & D5 & D6 & D7) f l0 H E C _. cbn [nextLoop]. set (l := setStart l0 (l_lastPos l0)).
  assert (H1 : cwf l) by exact H. assert (E1 : rest l = c :: r) by exact E.
  assert (A : ascii c).
  { repeat (destruct I as [<-|I]; [split; vm_compute; congruence|]). destruct I. }
  rewrite (ch_at _ _ _ H1 E1 A), !(peek_at _ _ _ _ H1 E1 A). change (skipn 0 r) with r.
  assert (X : nextDelimToken l = Ok (setStr (setCur (step l) Delim) [c])).
  { unfold nextDelimToken. destruct (step_at _ _ _ H1 E1 A) as [M R].
    assert (Y : moves l (setCur (step l) Delim) [c]) by exact (proj1 M).
    rewrite (contentSlice_moves _ _ _ H1 Y). reflexivity. }
  exists (setStr (setCur (step l) Delim) [c]). split.
  - rewrite <- X. clear X.
    repeat (destruct I as [<-|I]; [first [reflexivity |
      match goal with |- context [bz ?k] => let z := eval vm_compute in (bz k) in change (bz k) with z in * end;
      cbn [Z.eqb Pos.eqb orb]; try (rewrite (D1 eq_refl)); try (destruct (D2 eq_refl) as (-> & -> & ->)); try (rewrite (D4 eq_refl));
      try (rewrite (D5 eq_refl)); try (rewrite (D6 eq_refl));
      try (rewrite (D3 eq_refl));
      try (specialize (D7 eq_refl); apply Z.eqb_neq in D7; rewrite D7); reflexivity ]|]). destruct I.
  - destruct (step_at _ _ _ H1 E1 A) as [M R].
    assert (CC : l_rcom l = false) by exact C.
    eapply (facts_moves l _ Delim [c] Delim (Some [c]) None r _ M E1 CC); first [reflexivity | exact Logic.I].
Qed.

(** ** White space, when it is kept *)
Definition isWs (T : bytes) (l : lexer) : Prop := cwf l /\ rest l = T /\ l_cur l = Whitespace /\ l_rcom l = false.
Lemma next_ws l T : cwf l -> rest l = sp :: T -> l_rcom l = false -> l_rws l = true ->
  match T with c :: _ => bz c > 32 | [] => False end ->
  exists l', next l = Ok l' /\ isWs T l' /\ l_rws l' = true.
Proof.
  intros H E C W N. unfold next. unfold lfuel. cbn [nextLoop]. set (l1 := setStart l (l_lastPos l)).
  assert (H1 : cwf l1) by exact H. assert (E1 : rest l1 = sp :: T) by exact E.
  assert (A : ascii sp) by (split; vm_compute; congruence).
  rewrite (ch_at _ _ _ H1 E1 A). change (bz sp) with 32. cbn [Z.eqb Pos.eqb orb isWhitespace].
  change (l_rws l1) with (l_rws l). rewrite W. cbn [negb].
  destruct (step_at _ _ _ H1 E1 A) as [M R]. pose proof (movesF_cwf _ _ _ M) as H2.
  assert (Y : isWhitespace (l_ch (step l1)) = false).
  { destruct T as [|c r]; [contradiction|]. unfold isWhitespace. destruct (Z.ltb_spec (bz c) 128).
    - destruct (Z.eqb_spec (bz c) 13); [lia|]. assert (Ac : ascii c) by (split; auto).
      rewrite (ch_at _ _ _ H2 R Ac). zb.
    - destruct (step_high _ _ _ H2 R) as (? & ? & _ & _ & _ & _ & _ & D); [lia|]. zb. }
  unfold lfuel. cbn [stepWhile]. rewrite (ch_at _ _ _ H1 E1 A). change (isWhitespace (bz sp)) with true. cbv iota.
  rewrite Y. cbn [bind]. exists (setCur (step l1) Whitespace). split; [reflexivity|].
  destruct M as (_ & (_ & _ & _ & _ & F5 & F6)).
  split; [|cbn; rewrite F5; exact W]. split; [exact H2|]. split; [exact R|]. split; [reflexivity|]. cbn. rewrite F6. exact C.
Qed.
End WithUnicode.
