(** The lexical grammar is unambiguous. *)
From Verif Require Import Bytes Utf8 Source Lexer BytesFacts LexSpec LexGrammar.

Section WithUnicode.
Context {U : UnicodeDigits}.

Lemma digit_range c : digit c -> fst c <= 255 -> 48 <= fst c <= 57.
Proof.
  unfold digit, isDigit. destruct (Z.leb_spec (fst c) 255); [|lia].
  rewrite andb_true_iff, !Z.leb_le. auto.
Qed.
Lemma starts_cons P (c : char) t : starts P (c :: t) -> P c.
Proof. intros (d & r & E & H). inversion E; subst; auto. Qed.

Lemma starts_first (P : char -> Prop) c t : P c -> starts P (c :: t).
Proof. intros; exists c, t; auto. Qed.
Lemma starts_none P : ~ starts P [].
Proof. intros (d & r & E & H). discriminate. Qed.

Lemma unsigned_no_cdc t : seesUnsigned t -> closesCDC t -> False.
Proof.
  intros H (a & b & r & -> & [Ha _] & _). unfold is in Ha. cbn in Ha.
  destruct H as [H|(p & d & t' & E & [Hp _] & _)].
  - apply starts_cons in H as [H _]. apply digit_range in H; lia.
  - inversion E; subst. unfold is in Hp. cbn in Hp. lia.
Qed.
Lemma name_no_cdc t : seesName t -> closesCDC t -> False.
Proof.
  intros [(c & t' & -> & H) _] (a & b & r & E & [Ha _] & [Hb _]). inversion E; subst.
  unfold is in *. cbn in Ha, Hb. destruct H as [[_ [H|H]]|[_ H]].
  - apply starts_cons in H as [H _]. unfold nameChar, nameStart, within, is in H. cbn in H. lia.
  - destruct H as [(d & u & X & Hd & _) _]. inversion X; subst. unfold is in Hd. cbn in Hd. lia.
  - apply H. exact Ha.
Qed.

Lemma single_code b k c : In (b, k) singles -> is b c ->
  (fst c = 59 /\ k = Semicolon) \/ (fst c = 58 /\ k = Colon) \/ (fst c = 44 /\ k = Comma) \/ (fst c = 40 /\ k = LParen) \/
  (fst c = 41 /\ k = RParen) \/ (fst c = 91 /\ k = LBracket) \/ (fst c = 93 /\ k = RBracket) \/
  (fst c = 123 /\ k = LCurly) \/ (fst c = 125 /\ k = RCurly).
Proof.
  unfold is. intros Hin Hb. cbn in Hin.
  repeat destruct Hin as [Hin|Hin]; try contradiction; inversion Hin; subst b k; cbn in Hb; rewrite Hb; auto 12.
Qed.

Ltac codes := unfold blank, quote, sign, nameStart, within, is, LF, SP, TAB in *; cbn [bz Byte.to_N Z.of_N] in *.
Ltac singleton := repeat match goal with
  | H : In (?b, ?k) singles, H' : is ?b ?c |- _ => pose proof (single_code _ _ _ H H'); clear H H'
  end.
Ltac dranges := repeat match goal with
  | H : digit ?c |- _ => pose proof (digit_range c H); revert H
  end; intros.

Lemma opens_fun i F G : opens i F -> opens i G -> F = G.
Proof.
  intros H1 H2.
  inversion H1; subst; inversion H2; subst; try reflexivity; try contradiction;
    try (exfalso; eauto using unsigned_no_cdc, name_no_cdc; fail);
    try match goal with
    | H : delimiter _ _ |- _ =>
      exfalso; destruct H as (D1 & D2 & D3 & D4 & D5 & D6 & D7 & D8 & D9 & D10 & D11 & D12 & D13);
      first [ contradiction | apply D1; eauto; fail | (apply D10; assumption) | (apply D7; assumption) | (apply D8; assumption) |
              (apply D9; assumption) | (apply D11; assumption) | (apply D12; assumption) | (apply D13; assumption) |
              (apply D3; match goal with H : _ = _ \/ _ = _ |- _ => destruct H; subst; [left|right]; assumption end) ]
    end;
    singleton;
    try match goal with
    | H : (_ = """" \/ _ = "'")%byte, H' : (_ = """" \/ _ = "'")%byte |- _ =>
       destruct H, H'; subst; try reflexivity; exfalso; codes; lia
    end;
    try match goal with
    | H : (_ = """" \/ _ = "'")%byte |- _ => destruct H; subst
    end;
    try (exfalso; dranges; codes; lia).
  all: try (match goal with H : _ \/ _, H' : _ \/ _ |- _ =>
      repeat (destruct H as [[? ->]|H]); try destruct H as [? ->]; repeat (destruct H' as [[? ->]|H']); try destruct H' as [? ->];
      try reflexivity; exfalso; lia end).
  all: exfalso; match goal with H : delimiter _ _ |- _ =>
    destruct H as (_ & _ & _ & _ & _ & _ & _ & _ & _ & D & _); destruct D; [assumption|contradiction] end.
Qed.

(** * Each piece is determined by the input *)
Lemma run_fun (P : char -> Prop) a r a' r' : Forall P a -> ~ starts P r -> Forall P a' -> ~ starts P r' ->
  a ++ r = a' ++ r' -> a = a' /\ r = r'.
Proof.
  intros Ha. revert a'. induction Ha as [|c a Hc Ha IH]; intros a' Hr Ha' Hr' E.
  - destruct Ha' as [|c' a' Hc' _]; [auto|]. cbn in E. subst r. elim Hr. exists c', (a' ++ r'). auto.
  - destruct Ha' as [|c' a' Hc' Ha']; cbn in E.
    + subst r'. elim Hr'. exists c, (a ++ r). auto.
    + inversion E; subst. destruct (IH a') as [-> ->]; auto.
Qed.
Lemma digits_fun a r a' r' : digits a r -> digits a' r' -> a ++ r = a' ++ r' -> a = a' /\ r = r'.
Proof. intros [A1 A2] [B1 B2]. apply (run_fun digit); auto. Qed.

Lemma hexRun_fun k h r : hexRun k h r -> forall h' r', hexRun k h' r' -> h ++ r = h' ++ r' -> h = h' /\ r = r'.
Proof.
  induction 1 as [r|k r Hr|k h t r Hh Hb H IH|k h b t r Hh Hb H IH]; intros h' r' H' E.
  - inversion H'; subst; auto.
  - inversion H' as [|k' r1 Hr1|k1 h1 t1 r1 Hh1 Hb1 H1|k1 h1 b1 t1 r1 Hh1 Hb1 H1]; subst; auto; cbn in E; subst r;
      elim Hr; eexists; eexists; split; eauto.
  - inversion H' as [|k' r1 Hr1|k1 h1 t1 r1 Hh1 Hb1 H1|k1 h1 b1 t1 r1 Hh1 Hb1 H1]; subst; cbn in E.
    + elim Hr1. subst r'. eexists; eexists; split; eauto.
    + inversion E; subst. destruct (IH _ _ H1) as [-> ->]; auto.
    + inversion E as [[E1 E2]]; subst. elim Hb. rewrite E2. eexists; eexists; split; eauto.
  - inversion H' as [|k' r1 Hr1|k1 h1 t1 r1 Hh1 Hb1 H1|k1 h1 b1 t1 r1 Hh1 Hb1 H1]; subst; cbn in E.
    + elim Hr1. subst r'. eexists; eexists; split; eauto.
    + inversion E as [[E1 E2]]; subst. elim Hb1. rewrite <- E2. eexists; eexists; split; eauto.
    + inversion E; subst. destruct (IH _ _ H1) as [-> ->]; auto.
Qed.
Lemma escape_fun e r e' r' : escape e r -> escape e' r' -> e ++ r = e' ++ r' -> e = e' /\ r = r'.
Proof.
  intros (c & h & -> & _ & _ & H) (c' & h' & -> & _ & _ & H') E. inversion E; subst.
  destruct (hexRun_fun _ _ _ H _ _ H') as [-> ->]; auto.
Qed.
Lemma escape_opens e r : escape e r -> opensEscape (e ++ r).
Proof. intros (c & h & -> & Hc & Hn & _). exists c, (h ++ r). auto. Qed.
Lemma backslash_no_name c : is "\" c -> nameChar c -> False.
Proof. unfold is, nameChar, nameStart, within, is. cbn. lia. Qed.
Lemma opensEscape_head c t : opensEscape (c :: t) -> is "\" c.
Proof. intros (d & r & E & H & _). inversion E; subst; auto. Qed.

Lemma word_fun n r : word n r -> forall n' r', word n' r' -> n ++ r = n' ++ r' -> n = n' /\ r = r'.
Proof.
  induction 1 as [r H1 H2|c n r Hc H IH|e n r He H IH]; intros n' r' H' E.
  - inversion H' as [r1 H3 H4|c1 n1 r1 Hc1 Hn1|e1 n1 r1 He1 Hn1]; subst; auto; cbn in E; subst r; exfalso.
    + apply H1. eexists; eexists; split; eauto.
    + apply H2. rewrite <- app_assoc. apply escape_opens; auto.
  - inversion H' as [r1 H3 H4|c1 n1 r1 Hc1 Hn1|e1 n1 r1 He1 Hn1]; subst.
    + exfalso. cbn in E. subst r'. apply H3. eexists; eexists; split; eauto.
    + inversion E; subst. destruct (IH _ _ Hn1) as [-> ->]; auto.
    + exfalso. rewrite <- app_assoc in E. apply escape_opens in He1. rewrite <- E in He1.
      cbn in He1. apply opensEscape_head in He1. eapply backslash_no_name; eauto.
  - inversion H' as [r1 H3 H4|c1 n1 r1 Hc1 Hn1|e1 n1 r1 He1 Hn1]; subst.
    + exfalso. cbn in E. apply H4. rewrite <- E, <- app_assoc. apply escape_opens; auto.
    + exfalso. rewrite <- app_assoc in E. apply escape_opens in He. rewrite E in He.
      cbn in He. apply opensEscape_head in He. eapply backslash_no_name; eauto.
    + rewrite <- !app_assoc in E. destruct (escape_fun _ _ _ _ He He1 E) as [-> E'].
      destruct (IH _ _ Hn1 E') as [-> ->]; auto.
Qed.

Lemma optSign_fun a r a' r' : optSign a r -> optSign a' r' -> a ++ r = a' ++ r' -> a = a' /\ r = r'.
Proof.
  intros [(c & -> & Hc)|[-> Hr]] [(c' & -> & Hc')|[-> Hr']] E; cbn in E.
  - inversion E; auto.
  - subst r'. elim Hr'. exists c, r; auto.
  - subst r. elim Hr. exists c', r'; auto.
  - auto.
Qed.
Lemma optFraction_fun a r a' r' : optFraction a r -> optFraction a' r' -> a ++ r = a' ++ r' -> a = a' /\ r = r'.
Proof.
  intros [(p & d & ds & -> & Hp & Hd & Hds)|[-> Hr]] [(p' & d' & ds' & -> & Hp' & Hd' & Hds')|[-> Hr']] E; cbn in E.
  - inversion E; subst. destruct (digits_fun _ _ _ _ Hds Hds') as [-> ->]; auto.
  - subst r'. elim Hr'. exists p, d, (ds ++ r); auto.
  - subst r. elim Hr. exists p', d', (ds' ++ r'); auto.
  - auto.
Qed.
Lemma optExponent_fun a r a' r' : optExponent a r -> optExponent a' r' -> a ++ r = a' ++ r' -> a = a' /\ r = r'.
Proof.
  intros [(m & s & ds & -> & Ho & Hs & Hds)|[-> Hr]] [(m' & s' & ds' & -> & Ho' & Hs' & Hds')|[-> Hr']] E.
  - cbn in E. rewrite <- !app_assoc in E. inversion E as [[E1 E2]]; subst.
    destruct (optSign_fun _ _ _ _ Hs Hs' E2) as [-> E3].
    destruct (digits_fun _ _ _ _ Hds Hds' E3) as [-> ->]; auto.
  - cbn [app] in E. subst r'. contradiction.
  - cbn [app] in E. subst r. contradiction.
  - auto.
Qed.
Lemma numeral_fun a r a' r' : numeral a r -> numeral a' r' -> a ++ r = a' ++ r' -> a = a' /\ r = r'.
Proof.
  intros (s & i & f & e & -> & Hs & Hi & Hf & He) (s' & i' & f' & e' & -> & Hs' & Hi' & Hf' & He') E.
  rewrite <- !app_assoc in E.
  destruct (optSign_fun _ _ _ _ Hs Hs' E) as [-> E1].
  destruct (digits_fun _ _ _ _ Hi Hi' E1) as [-> E2].
  destruct (optFraction_fun _ _ _ _ Hf Hf' E2) as [-> E3].
  destruct (optExponent_fun _ _ _ _ He He' E3) as [-> ->]; auto.
Qed.

(** Where the reading of a string stops. *)
Definition strEnds (q : byte) (r : list char) : Prop :=
  r = [] \/ starts (is q) r \/ starts (is LF) r \/ exists d, r = [d] /\ is "\" d.
Lemma slash_not_lf c : is "\" c -> is LF c -> False.
Proof. unfold is. cbn. lia. Qed.
Lemma slash_not_q q c : (q = """" \/ q = "'")%byte -> is "\" c -> is q c -> False.
Proof. unfold is. intros [-> | ->]; cbn; lia. Qed.
Lemma inString_head q b r c t : (q = """" \/ q = "'")%byte -> inString q b r -> b ++ r = c :: t -> b <> [] ->
  ~ is q c /\ ~ is LF c /\ (is "\" c -> t <> []).
Proof.
  intros Hq H E Nb. inversion H as [r1|c1 b1 r1 A1 A2 A3 A4|c1 d1 b1 r1 A1 A2 A3|c1 e1 b1 r1 A1 A2 A3|c1 b1 r1 A1 A2 A3 A4 A5]; subst.
  - congruence.
  - cbn in E. inversion E; subst. repeat split; auto; contradiction.
  - cbn in E. inversion E; subst. split; [intros X; eapply slash_not_q; eauto|]. split; [intros X; eapply slash_not_lf; eauto|].
    discriminate.
  - cbn in E. inversion E; subst. split; [intros X; eapply slash_not_q; eauto|]. split; [intros X; eapply slash_not_lf; eauto|].
    intros _ X. destruct A2 as (d & h & -> & _). discriminate.
  - cbn in E. inversion E; subst. split; [intros X; eapply slash_not_q; eauto|]. split; [intros X; eapply slash_not_lf; eauto|].
    auto.
Qed.
Lemma strEnds_nil q b r r' : (q = """" \/ q = "'")%byte -> inString q b r -> strEnds q r' -> r' = b ++ r -> b = [].
Proof.
  intros Hq H He E. destruct b as [|c b]; auto. exfalso.
  destruct (inString_head q _ r c (b ++ r) Hq H eq_refl) as (A1 & A2 & A3); [discriminate|].
  destruct He as [X|[X|[X|(d & X & Hd)]]]; rewrite E in X.
  - discriminate.
  - apply starts_cons in X. auto.
  - apply starts_cons in X. auto.
  - cbn in X. inversion X; subst. apply A3; auto.
Qed.
Lemma inString_fun q b r : (q = """" \/ q = "'")%byte -> inString q b r -> strEnds q r ->
  forall b' r', inString q b' r' -> strEnds q r' -> b ++ r = b' ++ r' -> b = b' /\ r = r'.
Proof.
  intros Hq H. induction H as [r|c b r A1 A2 A3 H IH|c d b r A1 A2 H IH|c e b r A1 A2 H IH|c b r A1 A2 A3 A4 H IH];
    intros He b' r' H' He' E.
  - assert (b' = []) as -> by exact (strEnds_nil q b' r' r Hq H' He E). auto.
  - inversion H' as [r1|c1 b1 r1 B1 B2 B3 B4|c1 d1 b1 r1 B1 B2 B3|c1 e1 b1 r1 B1 B2 B3|c1 b1 r1 B1 B2 B3 B4 B5]; subst.
    + assert (c :: b = []) as Z; [|discriminate Z]. eapply strEnds_nil; [exact Hq| |exact He'|symmetry; exact E]. apply isChar; auto.
    + inversion E; subst. destruct (IH He _ _ B4 He') as [-> ->]; auto.
    + inversion E; subst. contradiction.
    + inversion E; subst. contradiction.
    + inversion E; subst. contradiction.
  - inversion H' as [r1|c1 b1 r1 B1 B2 B3 B4|c1 d1 b1 r1 B1 B2 B3|c1 e1 b1 r1 B1 B2 B3|c1 b1 r1 B1 B2 B3 B4 B5]; subst.
    + assert (c :: d :: b = []) as Z; [|discriminate Z]. eapply strEnds_nil; [exact Hq| |exact He'|symmetry; exact E]. apply isBreak; auto.
    + inversion E; subst. contradiction.
    + inversion E; subst. destruct (IH He _ _ B3 He') as [-> ->]; auto.
    + exfalso. inversion E as [[E1 E2]]; subst. rewrite <- app_assoc in E2. apply escape_opens in B2. rewrite <- E2 in B2.
      cbn in B2. apply opensEscape_head in B2. exact (slash_not_lf _ B2 A2).
    + exfalso. inversion E as [[E1 E2]]; subst. apply B3. rewrite <- E2. exists d, (b ++ r). auto.
  - inversion H' as [r1|c1 b1 r1 B1 B2 B3 B4|c1 d1 b1 r1 B1 B2 B3|c1 e1 b1 r1 B1 B2 B3|c1 b1 r1 B1 B2 B3 B4 B5]; subst.
    + assert (c :: e ++ b = []) as Z; [|discriminate Z]. eapply strEnds_nil; [exact Hq| |exact He'|symmetry; exact E]. apply isEscape; auto.
    + inversion E; subst. contradiction.
    + exfalso. inversion E as [[E1 E2]]; subst. rewrite <- app_assoc in E2. apply escape_opens in A2. rewrite E2 in A2.
      cbn in A2. apply opensEscape_head in A2. exact (slash_not_lf _ A2 B2).
    + inversion E as [[E1 E2]]; subst. rewrite <- !app_assoc in E2.
      destruct (escape_fun _ _ _ _ A2 B2 E2) as [-> E3]. destruct (IH He _ _ B3 He' E3) as [-> ->]; auto.
    + exfalso. inversion E as [[E1 E2]]; subst. apply B4. rewrite <- E2, <- app_assoc. apply escape_opens; auto.
  - inversion H' as [r1|c1 b1 r1 B1 B2 B3 B4|c1 d1 b1 r1 B1 B2 B3|c1 e1 b1 r1 B1 B2 B3|c1 b1 r1 B1 B2 B3 B4 B5]; subst.
    + assert (c :: b = []) as Z; [|discriminate Z]. eapply strEnds_nil; [exact Hq| |exact He'|symmetry; exact E]. apply isSkip; auto.
    + inversion E; subst. contradiction.
    + exfalso. inversion E as [[E1 E2]]; subst. apply A3. rewrite E2. exists d1, (b1 ++ r'). auto.
    + exfalso. inversion E as [[E1 E2]]; subst. apply A4. rewrite E2, <- app_assoc. apply escape_opens; auto.
    + inversion E as [[E1 E2]]; subst. destruct (IH He _ _ B5 He' E2) as [-> ->]; auto.
Qed.

(** Where the reading of an unquoted url stops. *)
Definition urlBad (c : char) (t : list char) : Prop :=
  quote c \/ is "(" c \/ nonPrintable c \/ (is "\" c /\ starts (sees LF) t).
Definition urlEnds (r : list char) : Prop := r = [] \/ exists c t, r = c :: t /\ (is ")" c \/ urlBad c t).
Lemma inUrl_nil b r r' : inUrl b r -> urlEnds r' -> r' = b ++ r -> b = [].
Proof.
  intros H He E. destruct H as [r|c b r A1 A2 A3 A4 A5 H|e b r A1 H]; auto; exfalso.
  - cbn in E. subst r'. destruct He as [X|(d & t & X & Hd)]; [discriminate|]. inversion X; subst.
    unfold urlBad in Hd. tauto.
  - rewrite <- app_assoc in E. pose proof (escape_opens _ _ A1) as (d & t & X & Hd & Hn). rewrite X in E. subst r'.
    destruct He as [Y|(d' & t' & Y & Hd')]; [discriminate|]. inversion Y; subst d' t'.
    unfold urlBad, quote, nonPrintable, within, is in *. cbn in *. destruct Hd' as [Z|[Z|[Z|[Z|[_ Z]]]]]; try lia. contradiction.
Qed.
Lemma inUrl_fun b r : inUrl b r -> urlEnds r ->
  forall b' r', inUrl b' r' -> urlEnds r' -> b ++ r = b' ++ r' -> b = b' /\ r = r'.
Proof.
  intros H. induction H as [r|c b r A1 A2 A3 A4 A5 H IH|e b r A1 H IH]; intros He b' r' H' He' E.
  - assert (b' = []) as -> by exact (inUrl_nil b' r' r H' He E). auto.
  - inversion H' as [r1|c1 b1 r1 B1 B2 B3 B4 B5 B6|e1 b1 r1 B1 B2]; subst.
    + assert (c :: b = []) as Z; [|discriminate Z]. eapply inUrl_nil; [|exact He'|symmetry; exact E]. apply iuChar; auto.
    + inversion E; subst. destruct (IH He _ _ B6 He') as [-> ->]; auto.
    + exfalso. rewrite <- app_assoc in E. apply escape_opens in B1. rewrite <- E in B1.
      cbn in B1. apply opensEscape_head in B1. contradiction.
  - inversion H' as [r1|c1 b1 r1 B1 B2 B3 B4 B5 B6|e1 b1 r1 B1 B2]; subst.
    + assert (e ++ b = []) as Z by (eapply inUrl_nil; [apply iuEscape; eauto|exact He'|symmetry; exact E]).
      rewrite Z in *. auto.
    + exfalso. rewrite <- app_assoc in E. apply escape_opens in A1. rewrite E in A1.
      cbn in A1. apply opensEscape_head in A1. contradiction.
    + rewrite <- !app_assoc in E. destruct (escape_fun _ _ _ _ A1 B1 E) as [-> E3].
      destruct (IH He _ _ B2 He' E3) as [-> ->]; auto.
Qed.

(** The first closing pair. *)
Lemma closes_fun b x y r b' x' y' r' : is "*" x -> is "/" y -> ~ closes (b ++ [x]) ->
  is "*" x' -> is "/" y' -> ~ closes (b' ++ [x']) -> b ++ x :: y :: r = b' ++ x' :: y' :: r' ->
  b = b' /\ x = x' /\ y = y' /\ r = r'.
Proof.
  intros Hx Hy Hn Hx' Hy' Hn' E. revert b' Hn' E. induction b as [|c b IH]; intros b' Hn' E.
  - destruct b' as [|c' [|d' b']]; cbn in E; inversion E; subst; auto.
    + exfalso. unfold is in *. cbn in *. lia.
    + exfalso. apply Hn'. exists [], c', d', (b' ++ [x']). auto.
  - destruct b' as [|c' b']; cbn in E.
    + destruct b as [|d b]; inversion E; subst.
      * exfalso. unfold is in *. cbn in *. lia.
      * exfalso. apply Hn. exists [], x', y', (b ++ [x]). auto.
    + inversion E; subst. destruct (IH (fun X => Hn ltac:(destruct X as (u & v & w & z & X & Y); exists (c' :: u), v, w, z; cbn; rewrite X; auto)) b') as (-> & -> & -> & ->); auto.
      intros (u & v & w & z & X & Y). apply Hn'. exists (c' :: u), v, w, z. cbn. rewrite X. auto.
Qed.
Lemma closes_here b x y r : is "*" x -> is "/" y -> closes (b ++ x :: y :: r).
Proof. intros. exists b, x, y, r. auto. Qed.

(** * Tokens are determined by the input *)
Inductive outcome := Tok (k : token) (p : payload) | Err (m : bytes).
Inductive reading : list char -> list char -> outcome -> Prop :=
| rdTok t r k p : lexed t r k p -> reading t r (Tok k p)
| rdErr t r m : broken t r m -> reading t r (Err m).

Definition wordShape (n rest t r : list char) (o : outcome) : Prop :=
  (~ starts (is "(") rest /\ t = n /\ r = rest /\ o = Tok Ident (PlStr (flat n))) \/
  exists p rest', rest = p :: rest' /\ is "(" p /\
    ((~ urlName (flat n) /\ t = n ++ [p] /\ r = rest' /\ o = Tok FunctionStart (PlStr (flat n))) \/
     (urlName (flat n) /\ exists s rest'', rest' = s ++ rest'' /\ Forall blank s /\ ~ starts blank rest'' /\
        ((starts quote rest'' /\ t = n ++ p :: s /\ r = rest'' /\ o = Tok FunctionStart (PlStr (flat n))) \/
         (~ starts quote rest'' /\ exists b r2, rest'' = b ++ r2 /\ inUrl b r2 /\ urlEnds r2 /\
           ((exists e, r2 = e :: r /\ is ")" e /\ t = n ++ p :: s ++ b ++ [e] /\ o = Tok URL (PlStr (flat b))) \/
            (r2 = [] /\ r = [] /\ t = n ++ p :: s ++ b /\ o = Err (B "unexpected EOF")) \/
            (exists c u, r2 = c :: u /\ ~ is ")" c /\ r = r2 /\ t = n ++ p :: s ++ b /\
               o = Err (B "unexpected token: " ++ encodeRune (fst c)))))))).

Definition shape (F : family) (i t r : list char) (o : outcome) : Prop :=
  match F with
  | FEnd => t = [] /\ o = Tok EOF PlNone
  | FSingle k => (exists c, t = [c]) /\ o = Tok k PlNone
  | FBlank => Forall blank t /\ ~ starts blank r /\ o = Tok Whitespace PlNone
  | FComment => exists c d i', i = c :: d :: i' /\
      ((exists b x y, i' = b ++ x :: y :: r /\ is "*" x /\ is "/" y /\ ~ closes (b ++ [x]) /\
          t = c :: d :: b ++ [x; y] /\ o = Tok Comment (PlStr (flat b))) \/
       (~ closes i' /\ t = i /\ o = Err (B "unexpected EOF")))
  | FString q => (q = """" \/ q = "'")%byte /\ exists c b r2, i = c :: b ++ r2 /\ inString q b r2 /\ strEnds q r2 /\
      ((exists e, r2 = e :: r /\ is q e /\ t = c :: b ++ [e] /\ o = Tok TString (PlStr (flat b))) \/
       (starts (is LF) r2 /\ t = c :: b /\ o = Err (B "unclosed string: unexpected newline")) \/
       (r2 = [] /\ t = i /\ o = Err (B "unexpected EOF")) \/
       (exists d, r2 = [d] /\ is "\" d /\ t = i /\ o = Err (B "unexpected EOF")))
  | FNumber => exists n rest, i = n ++ rest /\ numeral n rest /\
      ((~ opensName rest /\ ~ starts (is "%") rest /\ t = n /\ o = Tok Number (PlNum (flat n))) \/
       (exists p, rest = p :: r /\ is "%" p /\ t = n ++ [p] /\ o = Tok Percentage (PlNum (flat n))) \/
       (opensName rest /\ exists u, rest = u ++ r /\ word u r /\ t = n ++ u /\ o = Tok Dimension (PlBoth (flat n) (flat u))))
  | FCDO => t = [] /\ o = Tok CDO PlNone
  | FCDC => t = [] /\ o = Tok CDC PlNone
  | FAt => exists c n, t = c :: n /\ word n r /\ o = Tok At (PlStr (flat n))
  | FHash => exists c n, t = c :: n /\ word n r /\ o = Tok Hash (PlStr (flat n))
  | FWord => exists n rest, i = n ++ rest /\ word n rest /\ wordShape n rest t r o
  | FDelim => exists c, t = [c] /\ o = Tok Delim (PlStr (snd c))
  | FBad => t = [] /\ o = Err (B "parse error")
  end.

Lemma opens_string i q : opens i (FString q) -> (q = """" \/ q = "'")%byte.
Proof. intros H. inversion H; auto. Qed.
Lemma blank_not_quote c : blank c -> quote c -> False.
Proof. unfold blank, quote, is. cbn. lia. Qed.

Ltac assoc := repeat (rewrite <- ?app_assoc || rewrite <- ?app_comm_cons); cbn [app].
Ltac sp := split; [solve [assumption|reflexivity|auto]|].
Lemma reading_shape t r o : reading t r o -> exists F, opens (t ++ r) F /\ shape F (t ++ r) t r o.
Proof.
  intros [t' r' k p H|t' r' m H]; clear t r o; destruct H; assoc.
  - exists FEnd. split; [constructor|]. cbn. auto.
  - exists (FSingle k). sp. cbn. eauto.
  - exists FBlank. sp. cbn. split; [|auto]. constructor; auto. inversion H; auto.
  - exists FComment. sp. cbn [shape].
    exists c, d, (b ++ x :: y :: r). sp. left. exists b, x, y. tauto.
  - exists (FString q). sp. cbn [shape]. split; [eapply opens_string; eauto|].
    exists c, b, (e :: r). sp. sp. split; [right; left; apply starts_first; auto|]. left. eauto 6.
  - exists FNumber. sp. cbn [shape]. exists n, r. sp. sp. left. auto.
  - exists FNumber. sp. cbn [shape]. exists n, (p :: r). sp. sp. right; left. eauto.
  - exists FNumber. sp. cbn [shape]. exists n, (u ++ r). sp. sp. right; right. eauto 6.
  - exists FCDO. cbn. auto.
  - exists FCDC. cbn. auto.
  - exists FAt. cbn. sp. eauto.
  - exists FHash. cbn. sp. eauto.
  - exists FWord. sp. cbn [shape]. exists n, r. sp. sp. left. auto.
  - exists FWord. sp. cbn [shape]. exists n, (p :: r). sp. sp. right. exists p, r. auto 10.
  - exists FWord. sp. cbn [shape]. exists n, (p :: s ++ r). sp. sp. right. exists p, (s ++ r).
    sp. sp. right. sp. exists s, r. sp. sp. split; [|auto].
    intros (c & u & -> & Hc). apply starts_cons in H4. eapply blank_not_quote; eauto.
  - exists FWord. sp. cbn [shape]. exists n, (p :: s ++ b ++ e :: r). sp. sp. right.
    exists p, (s ++ b ++ e :: r). sp. sp. right. sp. exists s, (b ++ e :: r).
    sp. sp. sp. right. sp. exists b, (e :: r). sp. sp.
    split; [right; eauto 6|]. left. exists e. auto.
  - exists FDelim. sp. cbn. eauto.
  - exists FBad. cbn. auto.
  - exists FComment. rewrite app_nil_r. sp. cbn [shape]. exists c, d, b. sp. right; auto.
  - exists (FString q). sp. cbn [shape]. split; [eapply opens_string; eauto|].
    exists c, b, r. sp. sp. split; [right; right; left; auto|]. right; left. auto.
  - exists (FString q). rewrite app_nil_r. sp. cbn [shape]. split; [eapply opens_string; eauto|].
    exists c, b, []. rewrite app_nil_r. sp. sp. split; [left; auto|]. right; right; left. auto.
  - exists (FString q). sp. cbn [shape]. split; [eapply opens_string; eauto|].
    exists c, b, [d]. sp. sp. split; [right; right; right; eauto|]. right; right; right. eauto.
  - exists FWord. rewrite app_nil_r. sp. cbn [shape]. exists n, (p :: s ++ b). sp. sp. right.
    exists p, (s ++ b). sp. sp. right. sp. exists s, b.
    sp. sp. sp. right. sp. exists b, []. rewrite app_nil_r. sp. sp.
    split; [left; auto|]. right; left. auto.
  - exists FWord. sp. cbn [shape]. exists n, (p :: s ++ b ++ c :: r). sp. sp. right.
    exists p, (s ++ b ++ c :: r). sp. sp. right. sp. exists s, (b ++ c :: r).
    sp. sp. sp. right. sp. exists b, (c :: r). sp. sp.
    split; [right; exists c, r; sp; right; exact H7|]. right; right. exists c, r. sp. split; [|auto].
    unfold quote, nonPrintable, within, is in *. cbn in *. lia.
Qed.

(** The rest is fixed by the text. *)
Lemma same_text (t r r' : list char) : t ++ r = t ++ r' -> r = r'.
Proof. apply app_inv_head. Qed.

Lemma wordShape_fun n rest t r o t' r' o' : t ++ r = t' ++ r' -> wordShape n rest t r o -> wordShape n rest t' r' o' ->
  t = t' /\ o = o'.
Proof.
  intros E H H'.
  destruct H as [(A1 & -> & -> & ->)|(p & rest1 & -> & Hp & H)].
  { destruct H' as [(B1 & -> & -> & ->)|(p & rest1 & -> & Hp & H')]; [auto|]. elim A1. apply starts_first; auto. }
  destruct H' as [(B1 & -> & -> & ->)|(p' & rest1' & E0 & Hp' & H')].
  { elim B1. apply starts_first; auto. }
  inversion E0; subst p' rest1'. clear E0 Hp'.
  destruct H as [(A1 & -> & -> & ->)|(A1 & s & r1 & -> & Hs & Hb & H)].
  { destruct H' as [(B1 & -> & -> & ->)|(B1 & _)]; [auto|contradiction]. }
  destruct H' as [(B1 & _)|(B1 & s' & r1' & E0 & Hs' & Hb' & H')]; [contradiction|].
  destruct (run_fun blank _ _ _ _ Hs Hb Hs' Hb' E0) as [<- <-]. clear E0 Hs' Hb'.
  destruct H as [(A2 & -> & -> & ->)|(A2 & b & r2 & -> & Hu & Hue & H)].
  { destruct H' as [(B2 & -> & -> & ->)|(B2 & _)]; [auto|contradiction]. }
  destruct H' as [(B2 & _)|(B2 & b' & r2' & E0 & Hu' & Hue' & H')]; [contradiction|].
  destruct (inUrl_fun _ _ Hu Hue _ _ Hu' Hue' E0) as [<- <-].
  destruct H as [(e & -> & He & -> & ->)|[(-> & -> & -> & ->)|(c & u & -> & Hc & -> & -> & ->)]];
    destruct H' as [(e' & E1 & He' & -> & ->)|[(E1 & -> & -> & ->)|(c' & u' & E1 & Hc' & -> & -> & ->)]];
    try discriminate E1; try (inversion E1; subst; clear E1); try contradiction; auto.
Qed.

Lemma shape_fun F t r o t' r' o' : t ++ r = t' ++ r' -> opens (t ++ r) F ->
  shape F (t ++ r) t r o -> shape F (t ++ r) t' r' o' -> t = t' /\ o = o'.
Proof.
  intros E Ho H H'. destruct F; cbn [shape] in H, H'.
  - destruct H as (-> & ->), H' as (-> & ->). auto.
  - destruct H as ((c & ->) & ->), H' as ((c' & ->) & ->). inversion E; auto.
  - destruct H as (A1 & A2 & ->), H' as (B1 & B2 & ->).
    destruct (run_fun blank _ _ _ _ A1 A2 B1 B2 E). auto.
  - destruct H as (c & d & i & E1 & H), H' as (c' & d' & i' & E2 & H'). rewrite E1 in E2. inversion E2; subst c' d' i'.
    destruct H as [(b & x & y & -> & Hx & Hy & Hn & -> & ->)|(Hn & -> & ->)].
    + destruct H' as [(b' & x' & y' & E3 & Hx' & Hy' & Hn' & -> & ->)|(Hn' & -> & ->)].
      * destruct (closes_fun _ _ _ _ _ _ _ _ Hx Hy Hn Hx' Hy' Hn' E3) as (-> & -> & -> & ->). auto.
      * elim Hn'. apply closes_here; auto.
    + destruct H' as [(b' & x' & y' & -> & Hx' & Hy' & Hn' & -> & ->)|(Hn' & -> & ->)]; [|auto].
      elim Hn. apply closes_here; auto.
  - destruct H as (Hq & c & b & r2 & E1 & Hs & He & H), H' as (_ & c' & b' & r2' & E2 & Hs' & He' & H').
    rewrite E1 in E2. inversion E2 as [[E3 E4]]. subst c'.
    destruct (inString_fun _ _ _ Hq Hs He _ _ Hs' He' E4) as [<- <-]. rewrite E1 in H, H'. clear Hs' He' E2 E4.
    assert (QLF : forall e, is q e -> is LF e -> False) by (intros e; unfold is; destruct Hq as [-> | ->]; cbn; lia).
    destruct H as [(e & -> & A & -> & ->)|[(A & -> & ->)|[(-> & -> & ->)|(d & -> & A & -> & ->)]]];
    destruct H' as [(e' & E2 & B & -> & ->)|[(B & -> & ->)|[(E2 & -> & ->)|(d' & E2 & B & -> & ->)]]];
      try discriminate E2; try subst r2; try (inversion E2; subst; clear E2); auto; exfalso;
      try (destruct (starts_none _ B)); try (destruct (starts_none _ A)); try (apply starts_cons in B); try (apply starts_cons in A); eauto using slash_not_lf, slash_not_q.
  - destruct H as (n & rest & E1 & Hn & H), H' as (n' & rest' & E2 & Hn' & H'). rewrite E1 in E2.
    destruct (numeral_fun _ _ _ _ Hn Hn' E2) as [<- <-].
    assert (Pn : forall p r, is "%" p -> opensName (p :: r) -> False).
    { intros p0 r0 X (c & u & Y & Z). inversion Y; subst. unfold nameChar, nameStart, within, is in *. cbn in *. lia. }
    destruct H as [(A1 & A2 & -> & ->)|[(p & -> & A & -> & ->)|(A1 & u & -> & A & -> & ->)]];
    destruct H' as [(B1 & B2 & -> & ->)|[(p' & E3 & B & -> & ->)|(B1 & u' & E3 & B & -> & ->)]]; auto.
    + elim A2. subst rest. apply starts_first; auto.
    + contradiction.
    + elim B2. apply starts_first; auto.
    + inversion E3; subst. auto.
    + exfalso. exact (Pn _ _ A B1).
    + contradiction.
    + exfalso. rewrite E3 in A1. exact (Pn _ _ B A1).
    + destruct (word_fun _ _ A _ _ B E3) as [-> _]. auto.
  - destruct H as (-> & ->), H' as (-> & ->). auto.
  - destruct H as (-> & ->), H' as (-> & ->). auto.
  - destruct H as (c & n & -> & A & ->), H' as (c' & n' & -> & B & ->). inversion E; subst.
    destruct (word_fun _ _ A _ _ B H1) as [-> _]. auto.
  - destruct H as (c & n & -> & A & ->), H' as (c' & n' & -> & B & ->). inversion E; subst.
    destruct (word_fun _ _ A _ _ B H1) as [-> _]. auto.
  - destruct H as (n & rest & E1 & Hn & H), H' as (n' & rest' & E2 & Hn' & H'). rewrite E1 in E2.
    destruct (word_fun _ _ Hn _ _ Hn' E2) as [<- <-]. eapply wordShape_fun; eauto.
  - destruct H as (c & -> & ->), H' as (c' & -> & ->). inversion E; subst. auto.
  - destruct H as (-> & ->), H' as (-> & ->). auto.
Qed.

Lemma reading_fun t r o t' r' o' : reading t r o -> reading t' r' o' -> t ++ r = t' ++ r' -> t = t' /\ r = r' /\ o = o'.
Proof.
  intros H H' E. destruct (reading_shape _ _ _ H) as (F & A & B), (reading_shape _ _ _ H') as (G & A' & B').
  rewrite <- E in A', B'. pose proof (opens_fun _ _ _ A A') as <-.
  destruct (shape_fun _ _ _ _ _ _ _ E A B B') as [-> ->]. split; auto. split; auto. eapply app_inv_head; eauto.
Qed.
Lemma lexed_fun t r k p t' r' k' p' : lexed t r k p -> lexed t' r' k' p' -> t ++ r = t' ++ r' ->
  t = t' /\ r = r' /\ k = k' /\ p = p'.
Proof.
  intros H H' E. destruct (reading_fun _ _ _ _ _ _ (rdTok _ _ _ _ H) (rdTok _ _ _ _ H') E) as (A & B & C).
  inversion C; auto.
Qed.
Lemma broken_fun t r m t' r' m' : broken t r m -> broken t' r' m' -> t ++ r = t' ++ r' ->
  t = t' /\ r = r' /\ m = m'.
Proof.
  intros H H' E. destruct (reading_fun _ _ _ _ _ _ (rdErr _ _ _ H) (rdErr _ _ _ H') E) as (A & B & C).
  inversion C; auto.
Qed.
Lemma lexed_broken t r k p t' r' m : lexed t r k p -> broken t' r' m -> t ++ r = t' ++ r' -> False.
Proof.
  intros H H' E. destruct (reading_fun _ _ _ _ _ _ (rdTok _ _ _ _ H) (rdErr _ _ _ H') E) as (A & B & C). discriminate C.
Qed.

(** What is skipped is determined too. *)
Lemma reading_blank c t u r o : blank c -> reading u r o -> u ++ r = c :: t -> exists p, o = Tok Whitespace p.
Proof.
  intros Hc H E. destruct (reading_shape _ _ _ H) as (F & A & B). rewrite E in *.
  rewrite (opens_fun _ _ _ A (opBlank _ _ Hc)) in B. destruct B as (_ & _ & ->). eauto.
Qed.
Lemma comment_not_blank c t u r p : blank c -> lexed u r Comment p -> u ++ r = c :: t -> False.
Proof. intros Hc H E. destruct (reading_blank _ _ _ _ _ Hc (rdTok _ _ _ _ H) E) as (q & X). discriminate X. Qed.

Definition kept (ws com : bool) (o : outcome) : Prop := match o with Tok k _ => delivered ws com k | Err _ => True end.
Lemma skips_fun ws com g t r o m : skips ws com g (t ++ r) m -> reading t r o -> kept ws com o ->
  forall g' t' r' o' m', skips ws com g' (t' ++ r') m' -> reading t' r' o' -> kept ws com o' ->
  g ++ t ++ r = g' ++ t' ++ r' -> g = g' /\ t = t' /\ r = r' /\ o = o' /\ m = m'.
Proof.
  intros H Hr Hk. remember (t ++ r) as tr eqn:Etr. revert Etr.
  induction H as [tr|c g tr m W Hc H IH|c p g tr m W Hc H IH]; intros Etr g' t' r' o' m' H' Hr' Hk' E.
  - inversion H' as [x1|c1 t1 x1 m1 W1 Hc1 H1|c1 p1 t1 x1 m1 W1 Hc1 H1]; subst.
    + cbn in E. destruct (reading_fun _ _ _ _ _ _ Hr Hr' E) as (-> & -> & ->). auto.
    + exfalso. cbn in E. destruct (reading_blank _ _ _ _ _ Hc1 Hr E) as (q & ->). destruct Hk as [X _]. discriminate (X eq_refl).
    + exfalso. assoc. cbn in E. rewrite <- app_assoc in E.
      destruct (reading_fun _ _ _ _ _ _ Hr (rdTok _ _ _ _ Hc1) E) as (_ & _ & ->). destruct Hk as [_ X]. discriminate (X eq_refl).
  - subst tr. inversion H' as [x1|c1 t1 x1 m1 W1 Hc1 H1|c1 p1 t1 x1 m1 W1 Hc1 H1]; subst.
    + exfalso. cbn in E. destruct (reading_blank _ _ _ _ _ Hc Hr' (eq_sym E)) as (q & ->). destruct Hk' as [X _]. discriminate (X eq_refl).
    + inversion E; subst. destruct (IH eq_refl _ _ _ _ _ H1 Hr' Hk') as (-> & -> & -> & -> & ->); auto.
    + exfalso. rewrite <- app_assoc in E. symmetry in E. eapply comment_not_blank; eauto.
  - subst tr. inversion H' as [x1|c1 t1 x1 m1 W1 Hc1 H1|c1 p1 t1 x1 m1 W1 Hc1 H1]; subst.
    + exfalso. cbn in E. rewrite <- app_assoc in E.
      destruct (reading_fun _ _ _ _ _ _ Hr' (rdTok _ _ _ _ Hc) (eq_sym E)) as (_ & _ & ->). destruct Hk' as [_ X]. discriminate (X eq_refl).
    + exfalso. rewrite <- app_assoc in E. cbn [app] in E. eapply comment_not_blank; eauto.
    + rewrite <- !app_assoc in E. destruct (lexed_fun _ _ _ _ _ _ _ _ Hc Hc1 E) as (-> & E1 & _ & Ep). inversion Ep; subst.
      destruct (IH eq_refl _ _ _ _ _ H1 Hr' Hk' E1) as (-> & -> & -> & -> & ->); auto.
Qed.
End WithUnicode.
