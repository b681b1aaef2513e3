(** C44: the source map is JSON. *)
From Verif Require Import Bytes BytesFacts Utf8 LexFacts Source LexSpec SourceSpec Ast Vlq VlqSpec VlqProofs Printer PrinterSpec PrinterProofs MapProofs JsonSpec.

(** * UTF-8 *)
Lemma bz_byteOf z : 0 <= z < 256 -> bz (byteOf z) = z.
Proof.
  intros H. unfold byteOf, bz. destruct (Byte.of_N (Z.to_N z)) as [b|] eqn:E.
  - apply Byte.to_of_N in E. rewrite E. lia.
  - apply Byte.of_N_None_iff in E. lia.
Qed.
Lemma scalarb r : scalar r -> (r <? 0) || (1114111 <? r) || ((55296 <=? r) && (r <=? 57343)) = false.
Proof.
  unfold scalar. intros H. destruct (Z.ltb_spec r 0), (Z.ltb_spec 1114111 r), (Z.leb_spec 55296 r), (Z.leb_spec r 57343); auto; lia.
Qed.
Lemma encode_cases r : scalar r ->
  (r < 128 /\ encodeRune r = [byteOf r]) \/
  (128 <= r < 2048 /\ encodeRune r = [byteOf (192 + r / 64); byteOf (128 + r mod 64)]) \/
  (2048 <= r < 65536 /\ encodeRune r = [byteOf (224 + r / 4096); byteOf (128 + (r / 64) mod 64); byteOf (128 + r mod 64)]) \/
  (65536 <= r /\ encodeRune r = [byteOf (240 + r / 262144); byteOf (128 + (r / 4096) mod 64);
     byteOf (128 + (r / 64) mod 64); byteOf (128 + r mod 64)]).
Proof.
  intros H. unfold encodeRune. rewrite (scalarb _ H).
  destruct (Z.ltb_spec r 128); [left; auto|]. destruct (Z.ltb_spec r 2048); [right; left; auto|].
  destruct (Z.ltb_spec r 65536); [right; right; left; auto|right; right; right; auto].
Qed.
Ltac bools := repeat match goal with
  | |- context [?a =? ?b] => destruct (Z.eqb_spec a b); try lia
  | |- context [?a <=? ?b] => destruct (Z.leb_spec a b); try lia
  | |- context [?a <? ?b] => destruct (Z.ltb_spec a b); try lia
  end; cbn [negb andb orb].
Lemma decode_encode r t : scalar r -> decodeRune (encodeRune r ++ t) = (r, length (encodeRune r)).
Proof.
  intros H. assert (0 <= r <= 1114111) by (unfold scalar in H; lia).
  destruct (encode_cases r H) as [(C & ->)|[(C & ->)|[(C & ->)|(C & ->)]]]; cbn [app length]; unfold decodeRune, isCont.
  - rewrite bz_byteOf by lia. bools. reflexivity.
  - pose proof (Z.div_mod r 64 ltac:(lia)). pose proof (Z.mod_pos_bound r 64 ltac:(lia)).
    assert (2 <= r / 64 < 32) by (split; [apply Z.div_le_lower_bound; lia|apply Z.div_lt_upper_bound; lia]).
    rewrite !bz_byteOf by lia. bools; f_equal; lia.
  - pose proof (Z.div_mod r 64 ltac:(lia)). pose proof (Z.mod_pos_bound r 64 ltac:(lia)).
    pose proof (Z.div_mod (r / 64) 64 ltac:(lia)). pose proof (Z.mod_pos_bound (r / 64) 64 ltac:(lia)).
    assert (E : r / 4096 = r / 64 / 64) by (rewrite Z.div_div by lia; reflexivity). rewrite E.
    set (q := r / 64) in *. set (p := q / 64) in *. set (a := q mod 64) in *. set (b := r mod 64) in *.
    assert (0 <= p < 16) by lia. rewrite !bz_byteOf by lia. unfold scalar in H. bools; f_equal; lia.
  - pose proof (Z.div_mod r 64 ltac:(lia)). pose proof (Z.mod_pos_bound r 64 ltac:(lia)).
    pose proof (Z.div_mod (r / 64) 64 ltac:(lia)). pose proof (Z.mod_pos_bound (r / 64) 64 ltac:(lia)).
    pose proof (Z.div_mod (r / 64 / 64) 64 ltac:(lia)). pose proof (Z.mod_pos_bound (r / 64 / 64) 64 ltac:(lia)).
    assert (E : r / 4096 = r / 64 / 64) by (rewrite Z.div_div by lia; reflexivity).
    assert (E2 : r / 262144 = r / 64 / 64 / 64) by (rewrite !Z.div_div by lia; reflexivity). rewrite E2, E.
    set (q := r / 64) in *. set (p := q / 64) in *. set (o := p / 64) in *. set (a := q mod 64) in *. set (b := r mod 64) in *. set (c := p mod 64) in *.
    assert (0 <= o < 5) by lia. rewrite !bz_byteOf by lia. bools; f_equal; lia.
Qed.

Lemma decode_valid s r n : s <> [] -> decodeRune s = (r, n) -> (r = runeError /\ n = 1%nat) \/ (scalar r /\ firstn n s = encodeRune r).
Proof.
  destruct s as [|c0 r0]; [congruence|]. intros _. unfold decodeRune.
  pose proof (bz_range c0). destruct (Z.ltb_spec (bz c0) 128).
  { intros E. injection E as <- <-. right. split; [left; lia|]. destruct (encode_cases (bz c0)) as [(C & ->)|[(C & _)|[(C & _)|(C & _)]]]; try lia.
    - left; lia.
    - cbn [firstn]. rewrite byteOf_bz. reflexivity. }
  destruct (Z.ltb_spec (bz c0) 194); [intros E; injection E as <- <-; auto|].
  destruct (Z.ltb_spec 244 (bz c0)); [intros E; injection E as <- <-; auto|]. cbn [orb].
  destruct r0 as [|c1 r1]; [intros E; injection E as <- <-; auto|]. cbv zeta. pose proof (bz_range c1).
  assert (Hc : forall b, isCont b = true -> 128 <= b <= 191) by (unfold isCont; intros b; destruct (Z.leb_spec 128 b), (Z.leb_spec b 191); intros; try discriminate; lia).
  assert (Hb : forall b z, bz b = z -> byteOf z = b) by (intros b z <-; apply byteOf_bz).
  destruct (Z.ltb_spec (bz c0) 224).
  { destruct (isCont (bz c1)) eqn:E1; [|intros E; injection E as <- <-; auto]. apply Hc in E1. intros E. injection E as <- <-. right.
    assert (S : scalar ((bz c0 - 192) * 64 + (bz c1 - 128))) by (left; lia). split; [exact S|].
    destruct (encode_cases _ S) as [(C & _)|[(C & ->)|[(C & _)|(C & _)]]]; try lia. cbn [firstn].
    destruct (divmod ((bz c0 - 192) * 64 + (bz c1 - 128)) 64 (bz c0 - 192) (bz c1 - 128)) as [-> ->]; [lia|lia|].
    f_equal; [symmetry; apply Hb; lia|]. f_equal. symmetry. apply Hb. lia. }
  set (lo := if bz c0 =? 224 then 160 else if bz c0 =? 240 then 144 else 128).
  set (hi := if bz c0 =? 237 then 159 else if bz c0 =? 244 then 143 else 191).
  destruct (Z.leb_spec lo (bz c1)); [|intros E; injection E as <- <-; auto].
  destruct (Z.leb_spec (bz c1) hi); [|intros E; injection E as <- <-; auto]. cbn [andb negb].
  destruct r1 as [|c2 r2]; [intros E; injection E as <- <-; auto|]. cbv zeta.
  destruct (isCont (bz c2)) eqn:E2; [|intros E; injection E as <- <-; auto]. apply Hc in E2. cbn [negb].
  assert (L1 : 128 <= bz c1 <= 191) by (unfold lo, hi in *; destruct (bz c0 =? 224), (bz c0 =? 240), (bz c0 =? 237), (bz c0 =? 244); lia).
  destruct (Z.ltb_spec (bz c0) 240).
  { intros E. injection E as <- <-. right. set (v := (bz c0 - 224) * 4096 + (bz c1 - 128) * 64 + (bz c2 - 128)).
    assert (V : 2048 <= v < 65536 /\ scalar v).
    { unfold scalar, v, lo, hi in *. destruct (Z.eqb_spec (bz c0) 224), (Z.eqb_spec (bz c0) 237); try lia;
        (destruct (Z.eqb_spec (bz c0) 240); try lia; destruct (Z.eqb_spec (bz c0) 244); lia). }
    destruct V as [V S]. split; [exact S|].
    destruct (encode_cases _ S) as [(C & _)|[(C & _)|[(C & ->)|(C & _)]]]; try lia. cbn [firstn].
    destruct (divmod v 64 ((bz c0 - 224) * 64 + (bz c1 - 128)) (bz c2 - 128)) as [D1 D2]; [lia|unfold v; lia|].
    destruct (divmod v 4096 (bz c0 - 224) ((bz c1 - 128) * 64 + (bz c2 - 128))) as [D3 _]; [lia|unfold v; lia|].
    destruct (divmod ((bz c0 - 224) * 64 + (bz c1 - 128)) 64 (bz c0 - 224) (bz c1 - 128)) as [_ D4]; [lia|lia|].
    rewrite D1, D2, D3, D4. repeat (f_equal; try (symmetry; apply Hb; lia)). }
  destruct r2 as [|c3 r3]; [intros E; injection E as <- <-; auto|]. cbv zeta.
  destruct (isCont (bz c3)) eqn:E3; [|intros E; injection E as <- <-; auto]. apply Hc in E3. cbn [negb].
  intros E. injection E as <- <-. right. set (v := (bz c0 - 240) * 262144 + (bz c1 - 128) * 4096 + (bz c2 - 128) * 64 + (bz c3 - 128)).
  assert (V : 65536 <= v /\ scalar v).
  { unfold scalar, v, lo, hi in *. destruct (Z.eqb_spec (bz c0) 224), (Z.eqb_spec (bz c0) 237), (Z.eqb_spec (bz c0) 240), (Z.eqb_spec (bz c0) 244); lia. }
  destruct V as [V S]. split; [exact S|].
  destruct (encode_cases _ S) as [(C & _)|[(C & _)|[(C & _)|(C & ->)]]]; try lia. cbn [firstn].
  destruct (divmod v 64 ((bz c0 - 240) * 4096 + (bz c1 - 128) * 64 + (bz c2 - 128)) (bz c3 - 128)) as [D1 D2]; [lia|unfold v; lia|].
  destruct (divmod v 4096 ((bz c0 - 240) * 64 + (bz c1 - 128)) ((bz c2 - 128) * 64 + (bz c3 - 128))) as [D3 _]; [lia|unfold v; lia|].
  destruct (divmod v 262144 (bz c0 - 240) ((bz c1 - 128) * 4096 + (bz c2 - 128) * 64 + (bz c3 - 128))) as [D4 _]; [lia|unfold v; lia|].
  destruct (divmod ((bz c0 - 240) * 4096 + (bz c1 - 128) * 64 + (bz c2 - 128)) 64 ((bz c0 - 240) * 64 + (bz c1 - 128)) (bz c2 - 128)) as [_ D5]; [lia|lia|].
  destruct (divmod ((bz c0 - 240) * 64 + (bz c1 - 128)) 64 (bz c0 - 240) (bz c1 - 128)) as [_ D6]; [lia|lia|].
  rewrite D1, D2, D3, D4, D5, D6. repeat (f_equal; try (symmetry; apply Hb; lia)).
Qed.

Lemma encode_nonempty r : encodeRune r <> [].
Proof. unfold encodeRune. repeat match goal with |- context [if ?b then _ else _] => destruct b end; discriminate. Qed.
Lemma repaired_utf8 s : utf8 s -> repaired s = s.
Proof.
  unfold repaired. induction 1 as [|r t S U IH]; [reflexivity|].
  rewrite runes_step by (pose proof (encode_nonempty r); destruct (encodeRune r); [congruence|discriminate]).
  rewrite (decode_encode r t S). cbn [fst snd flat_map]. rewrite skipn_app, skipn_all, Nat.sub_diag, skipn_O. cbn [app].
  f_equal. exact IH.
Qed.
Lemma utf8_app s t : utf8 s -> utf8 t -> utf8 (s ++ t).
Proof. induction 1; intros; [auto|]. rewrite <- app_assoc. constructor; auto. Qed.
Lemma utf8_ascii s : Forall (fun b => bz b < 128) s -> utf8 s.
Proof.
  induction 1 as [|b s H _ IH]; [constructor|]. pose proof (bz_range b).
  assert (S : scalar (bz b)) by (left; lia). pose proof (utf8Cons (bz b) s S IH) as X.
  destruct (encode_cases _ S) as [(C & E)|[(C & _)|[(C & _)|(C & _)]]]; try lia. rewrite E, byteOf_bz in X. exact X.
Qed.

(** * Strings *)
Definition isPlain (b : byte) : Prop := 32 <= bz b /\ bz b <> 34 /\ bz b <> 92.
Lemma before_app a b r : before a (before b r) = before (a ++ b) r.
Proof. destruct r as [[s t]|]; cbn; [rewrite app_assoc|]; reflexivity. Qed.
Lemma before_nil r : before [] r = r.
Proof. destruct r as [[s t]|]; reflexivity. Qed.
Lemma readChars_plain s : Forall isPlain s -> forall t, readChars (s ++ t) = before s (readChars t).
Proof.
  induction 1 as [|b s (H1 & H2 & H3) _ IH]; intros t; [rewrite before_nil; reflexivity|].
  cbn [app readChars]. destruct (Z.eqb_spec (bz b) 34); [lia|]. destruct (Z.ltb_spec (bz b) 32); [lia|].
  destruct (Z.eqb_spec (bz b) 92); [lia|]. rewrite IH, before_app. reflexivity.
Qed.
Lemma readChars_u h1 h2 h3 h4 a b c d t :
  hexValue h1 = Some a -> hexValue h2 = Some b -> hexValue h3 = Some c -> hexValue h4 = Some d ->
  let v := a * 4096 + b * 256 + c * 16 + d in (55296 <=? v) && (v <=? 57343) = false ->
  readChars (B "\u" ++ h1 :: h2 :: h3 :: h4 :: t) = before (encodeRune v) (readChars t).
Proof.
  intros H1 H2 H3 H4 v Hv. change (B "\u" ++ h1 :: h2 :: h3 :: h4 :: t) with ("\"%byte :: "u"%byte :: h1 :: h2 :: h3 :: h4 :: t).
  cbn [readChars]. change (bz "\"%byte =? 34) with false. change (bz "\"%byte <? 32) with false. change (bz "\"%byte =? 92) with true.
  change (bz "u"%byte =? 117) with true. cbn beta iota. rewrite H1, H2, H3, H4. fold v. rewrite Hv. reflexivity.
Qed.
Lemma hex_digit z : 0 <= z < 16 -> hexValue (hexDigit z) = Some z.
Proof.
  intros H. assert (X : In z [0;1;2;3;4;5;6;7;8;9;10;11;12;13;14;15]) by (cbn; lia).
  repeat (destruct X as [<-|X]; [reflexivity|]). destruct X.
Qed.
Lemma encode_plain r : scalar r -> 32 <= r -> r <> 34 -> r <> 92 -> Forall isPlain (encodeRune r).
Proof.
  intros S H1 H2 H3. assert (0 <= r <= 1114111) by (unfold scalar in S; lia). unfold isPlain.
  pose proof (Z.mod_pos_bound r 64 ltac:(lia)). pose proof (Z.mod_pos_bound (r / 64) 64 ltac:(lia)).
  pose proof (Z.mod_pos_bound (r / 4096) 64 ltac:(lia)).
  assert (0 <= r / 262144 < 5) by (split; [apply Z.div_pos; lia|apply Z.div_lt_upper_bound; lia]).
  destruct (encode_cases r S) as [(C & ->)|[(C & ->)|[(C & ->)|(C & ->)]]].
  - repeat constructor; rewrite bz_byteOf; lia.
  - assert (0 <= r / 64 < 32) by (split; [apply Z.div_pos; lia|apply Z.div_lt_upper_bound; lia]).
    repeat constructor; rewrite bz_byteOf; lia.
  - assert (0 <= r / 4096 < 16) by (split; [apply Z.div_pos; lia|apply Z.div_lt_upper_bound; lia]).
    repeat constructor; rewrite bz_byteOf; lia.
  - repeat constructor; rewrite bz_byteOf; lia.
Qed.
Lemma scalar_error : scalar runeError. Proof. right. unfold runeError. lia. Qed.
Lemma jsonRune_read s r n t : s <> [] -> decodeRune s = (r, n) ->
  readChars (jsonRune r n (firstn n s) ++ t) = before (encodeRune r) (readChars t) /\ utf8 (jsonRune r n (firstn n s)).
Proof.
  intros N E. pose proof (decode_valid s r n N E) as V. unfold jsonRune.
  assert (A : forall s, forallb (fun b => bz b <? 128) s = true -> utf8 s).
  { clear. intros s H. apply utf8_ascii. apply Forall_forall. rewrite forallb_forall in H. intros b Hb. specialize (H b Hb). lia. }
  destruct (Z.eqb_spec r 34) as [->|N1]; [split; [reflexivity|apply A; reflexivity]|].
  destruct (Z.eqb_spec r 92) as [->|N2]; [split; [reflexivity|apply A; reflexivity]|].
  destruct (Z.eqb_spec r 10) as [->|N3]; [split; [reflexivity|apply A; reflexivity]|].
  destruct (Z.eqb_spec r 13) as [->|N4]; [split; [reflexivity|apply A; reflexivity]|].
  destruct (Z.eqb_spec r 9) as [->|N5]; [split; [reflexivity|apply A; reflexivity]|].
  assert (R : 0 <= r) by (destruct V as [[-> _]|[V _]]; [unfold runeError; lia|unfold scalar in V; lia]).
  destruct ((r <? 32) || (r =? 60) || (r =? 62) || (r =? 38)) eqn:Eb.
  { assert (Hr : 0 <= r < 63) by (destruct (Z.ltb_spec r 32); [lia|]; destruct (Z.eqb_spec r 60); [lia|]; destruct (Z.eqb_spec r 62); [lia|]; destruct (Z.eqb_spec r 38); [lia|discriminate Eb]).
    clear - Hr A. pose proof (Z.div_mod r 16 ltac:(lia)). pose proof (Z.mod_pos_bound r 16 ltac:(lia)).
    assert (0 <= r / 16 < 4) by (split; [apply Z.div_pos; lia|apply Z.div_lt_upper_bound; lia]).
    split.
    - change ((B "\u00" ++ [hexDigit (r / 16); hexDigit (r mod 16)]) ++ t) with (B "\u" ++ "0"%byte :: "0"%byte :: hexDigit (r / 16) :: hexDigit (r mod 16) :: t).
      rewrite (readChars_u _ _ _ _ 0 0 (r / 16) (r mod 16)); try reflexivity; try (apply hex_digit; lia).
      + f_equal. f_equal. lia.
      + destruct (Z.leb_spec 55296 (0 * 4096 + 0 * 256 + r / 16 * 16 + r mod 16)); [lia|reflexivity].
    - apply A. assert (X : forall z, 0 <= z < 16 -> bz (hexDigit z) <? 128 = true).
      { intros z Hz. assert (Y : In z [0;1;2;3;4;5;6;7;8;9;10;11;12;13;14;15]) by (cbn; lia).
        repeat (destruct Y as [<-|Y]; [reflexivity|]). destruct Y. }
      rewrite forallb_app. cbn [forallb]. rewrite !X by lia. reflexivity. }
  destruct ((r =? runeError) && (n =? 1)%nat) eqn:Ee.
  { apply andb_prop in Ee as [Ee _]. apply Z.eqb_eq in Ee. subst r. split; [reflexivity|apply A; reflexivity]. }
  destruct V as [[-> ->]|[S V]]; [discriminate Ee|].
  destruct ((r =? 8232) || (r =? 8233)) eqn:El.
  { apply Bool.orb_prop in El as [El|El]; apply Z.eqb_eq in El; subst r; (split; [reflexivity|apply A; reflexivity]). }
  rewrite V. split.
  - apply readChars_plain. apply encode_plain; auto. destruct (Z.ltb_spec r 32); [discriminate Eb|lia].
  - pose proof (utf8Cons r [] S utf8Nil) as X. rewrite app_nil_r in X. exact X.
Qed.
Lemma jsonBody_read f : forall s t, (length s <= f)%nat ->
  readChars (jsonBody f s ++ t) = before (repaired s) (readChars t) /\ utf8 (jsonBody f s).
Proof.
  induction f as [|f IH]; intros s t H.
  - destruct s; [|cbn in H; lia]. cbn [jsonBody]. split; [|constructor]. change (repaired []) with (@nil byte). rewrite before_nil. reflexivity.
  - destruct s as [|c s]; [cbn [jsonBody]; split; [change (repaired []) with (@nil byte); rewrite before_nil; reflexivity|constructor]|].
    cbn [jsonBody]. destruct (decodeRune (c :: s)) as [r n] eqn:E. pose proof (decode_width (c :: s) ltac:(discriminate)) as W.
    rewrite E in W. cbn [snd] in W. destruct (IH (skipn n (c :: s)) t) as [I1 I2]; [rewrite skipn_length; lia|].
    rewrite <- app_assoc. destruct (jsonRune_read (c :: s) r n (jsonBody f (skipn n (c :: s)) ++ t)) as [R1 R2]; [discriminate|exact E|].
    split; [|apply utf8_app; auto]. rewrite R1, I1, before_app. f_equal.
    unfold repaired. rewrite (runes_step (c :: s)) by discriminate. rewrite E. reflexivity.
Qed.

(** * The object *)
Definition dq : byte := Byte.x22.
Lemma plain_end k t : Forall isPlain k -> readChars (k ++ dq :: t) = Some (k, t).
Proof. intros H. rewrite readChars_plain by exact H. cbn. rewrite app_nil_r. reflexivity. Qed.
Lemma members_key n k t : Forall isPlain k -> readMembers (S n) (dq :: k ++ dq :: ":"%byte :: t) =
  match readValue n t with
  | None => None
  | Some (v, s3) =>
    match skipSpaces s3 with
    | b :: r =>
      if bz b =? 125 then Some ([(k, v)], r)
      else if bz b =? 44 then match readMembers n r with Some (ms, rest) => Some ((k, v) :: ms, rest) | None => None end
      else None
    | [] => None
    end
  end.
Proof.
  intros H. cbn [readMembers]. change (skipSpaces (dq :: k ++ dq :: ":"%byte :: t)) with (dq :: k ++ dq :: ":"%byte :: t).
  change (startsWith 34 (dq :: k ++ dq :: ":"%byte :: t)) with (Some (k ++ dq :: ":"%byte :: t)). cbv iota beta.
  rewrite (plain_end k _ H). reflexivity.
Qed.
Lemma members_more n k t v r : Forall isPlain k -> readValue n t = Some (v, ","%byte :: r) ->
  readMembers (S n) (dq :: k ++ dq :: ":"%byte :: t) =
    match readMembers n r with Some (ms, rest) => Some ((k, v) :: ms, rest) | None => None end.
Proof. intros H E. rewrite members_key by exact H. rewrite E. reflexivity. Qed.
Lemma members_last n k t v r : Forall isPlain k -> readValue n t = Some (v, "}"%byte :: r) ->
  readMembers (S n) (dq :: k ++ dq :: ":"%byte :: t) = Some ([(k, v)], r).
Proof. intros H E. rewrite members_key by exact H. rewrite E. reflexivity. Qed.
Lemma members_space n t : readMembers n (" "%byte :: t) = readMembers n t.
Proof. destruct n; reflexivity. Qed.
Lemma value_string n s t r : readChars s = Some (t, r) -> readValue (S n) (dq :: s) = Some (JStr t, r).
Proof. intros H. cbn [readValue]. change (skipSpaces (dq :: s)) with (dq :: s). cbv iota. change (bz dq =? 34) with true. cbv iota. rewrite H. reflexivity. Qed.
Lemma value_array1 n s t r : readChars s = Some (t, "]"%byte :: r) -> readValue (S (S (S n))) ("["%byte :: dq :: s) = Some (JArr [JStr t], r).
Proof.
  intros H. change (readValue (S (S (S n))) ("["%byte :: dq :: s)) with
    (match readItems (S (S n)) (dq :: s) with Some (vs, rest) => Some (JArr vs, rest) | None => None end).
  change (readItems (S (S n)) (dq :: s)) with
    (match readValue (S n) (dq :: s) with
    | Some (v, s1) =>
      match skipSpaces s1 with
      | b :: r =>
        if bz b =? 93 then Some ([v], r)
        else if bz b =? 44 then match readItems (S n) r with Some (vs, rest) => Some (v :: vs, rest) | None => None end
        else None
      | [] => None
      end
    | None => None
    end).
  rewrite (value_string n s t _ H). reflexivity.
Qed.
Lemma value_object n t : readValue (S n) ("{"%byte :: dq :: t) =
  match readMembers n (dq :: t) with Some (ms, rest) => Some (JObj ms, rest) | None => None end.
Proof. reflexivity. Qed.
Lemma plainb k : forallb (fun b => (32 <=? bz b) && negb (bz b =? 34) && negb (bz b =? 92)) k = true -> Forall isPlain k.
Proof.
  rewrite forallb_forall. intros H. apply Forall_forall. intros b Hb. specialize (H b Hb). unfold isPlain.
  destruct (Z.leb_spec 32 (bz b)), (Z.eqb_spec (bz b) 34), (Z.eqb_spec (bz b) 92); cbn in H; try discriminate; auto.
Qed.
Lemma mapping_read n s m : Forall isPlain (src_path s) -> Forall isPlain m ->
  readValue (20 + n) (mappingJson s m) = Some (sourceMap (src_path s) (repaired (src_content s)) m, []).
Proof.
  intros Hp Hm. unfold mappingJson, jsonString.
  set (c := src_content s). set (p := src_path s) in *.
  replace (B "{""version"": 3,""file"":""" ++ p ++ B """,""sourceRoot"":"""", ""sources"": [""source.css""], ""sourcesContent"":["
    ++ (B """" ++ jsonBody (length c) c ++ B """") ++ B "],""names"":[],""mappings"":""" ++ m ++ B """}")
  with ("{"%byte :: dq :: B "version" ++ dq :: ":"%byte :: B " 3,""file"":""" ++ p ++ dq :: B ",""sourceRoot"":"""", ""sources"": [""source.css""], ""sourcesContent"":["""
    ++ jsonBody (length c) c ++ dq :: B "],""names"":[],""mappings"":""" ++ m ++ dq :: B "}")
  by (rewrite <- !app_assoc; reflexivity).
  set (t1 := B " 3,""file"":""" ++ _).
  change (20 + n)%nat with (S (19 + n)). rewrite value_object.
  assert (E1 : readMembers (19 + n) (dq :: B "version" ++ dq :: ":"%byte :: t1) = Some ([(B "version", JNum 3); (B "file", JStr p); (B "sourceRoot", JStr []);
        (B "sources", JArr [JStr (B "source.css")]); (B "sourcesContent", JArr [JStr (repaired c)]);
        (B "names", JArr []); (B "mappings", JStr m)], [])).
  2:{ rewrite E1. reflexivity. }
  subst t1. change (19 + n)%nat with (S (18 + n)).
  rewrite (members_more (18 + n) (B "version") _ (JNum 3)
    (dq :: B "file" ++ dq :: ":"%byte :: dq :: p ++ dq :: B ",""sourceRoot"":"""", ""sources"": [""source.css""], ""sourcesContent"":["""
    ++ jsonBody (length c) c ++ dq :: B "],""names"":[],""mappings"":""" ++ m ++ dq :: B "}")); [|apply plainb; reflexivity|reflexivity].
  change (18 + n)%nat with (S (17 + n)).
  rewrite (members_more (17 + n) (B "file") _ (JStr p)
    (dq :: B "sourceRoot" ++ dq :: ":"%byte :: B """"", ""sources"": [""source.css""], ""sourcesContent"":["""
    ++ jsonBody (length c) c ++ dq :: B "],""names"":[],""mappings"":""" ++ m ++ dq :: B "}")); [|apply plainb; reflexivity|].
  2:{ change (17 + n)%nat with (S (16 + n)). apply value_string. apply plain_end. exact Hp. }
  change (17 + n)%nat with (S (16 + n)).
  rewrite (members_more (16 + n) (B "sourceRoot") _ (JStr [])
    (" "%byte :: dq :: B "sources" ++ dq :: ":"%byte :: B " [""source.css""], ""sourcesContent"":["""
    ++ jsonBody (length c) c ++ dq :: B "],""names"":[],""mappings"":""" ++ m ++ dq :: B "}")); [|apply plainb; reflexivity|reflexivity].
  rewrite members_space. change (16 + n)%nat with (S (15 + n)).
  rewrite (members_more (15 + n) (B "sources") _ (JArr [JStr (B "source.css")])
    (" "%byte :: dq :: B "sourcesContent" ++ dq :: ":"%byte :: B "["""
    ++ jsonBody (length c) c ++ dq :: B "],""names"":[],""mappings"":""" ++ m ++ dq :: B "}")); [|apply plainb; reflexivity|reflexivity].
  rewrite members_space. change (15 + n)%nat with (S (14 + n)).
  rewrite (members_more (14 + n) (B "sourcesContent") _ (JArr [JStr (repaired c)])
    (dq :: B "names" ++ dq :: ":"%byte :: B "[],""mappings"":""" ++ m ++ dq :: B "}")); [|apply plainb; reflexivity|].
  2:{ change (14 + n)%nat with (S (S (S (11 + n)))).
      change (B "[""" ++ jsonBody (length c) c ++ dq :: B "],""names"":[],""mappings"":""" ++ m ++ dq :: B "}") with
        ("["%byte :: dq :: jsonBody (length c) c ++ dq :: B "],""names"":[],""mappings"":""" ++ m ++ dq :: B "}").
      apply value_array1. destruct (jsonBody_read (length c) c (dq :: B "],""names"":[],""mappings"":""" ++ m ++ dq :: B "}") (Nat.le_refl _)) as [-> _].
      cbn [readChars]. change (bz dq =? 34) with true. cbv iota. cbn [before]. rewrite app_nil_r. reflexivity. }
  change (14 + n)%nat with (S (13 + n)).
  rewrite (members_more (13 + n) (B "names") _ (JArr []) (dq :: B "mappings" ++ dq :: ":"%byte :: dq :: m ++ dq :: B "}"));
    [|apply plainb; reflexivity|reflexivity].
  change (13 + n)%nat with (S (12 + n)).
  rewrite (members_last (12 + n) (B "mappings") _ (JStr m) []); [reflexivity|apply plainb; reflexivity|].
  change (12 + n)%nat with (S (11 + n)). apply value_string. apply plain_end. exact Hm.
Qed.
Lemma mapping_json s m : Forall isPlain (src_path s) -> Forall isPlain m ->
  readJson (mappingJson s m) = Some (sourceMap (src_path s) (repaired (src_content s)) m).
Proof.
  intros Hp Hm. unfold readJson. assert (L : (20 <= length (mappingJson s m))%nat) by (unfold mappingJson; rewrite app_length; apply Nat.le_trans with (length (B "{""version"": 3,""file"":""")); [vm_compute; lia|apply Nat.le_add_r]).
  replace (length (mappingJson s m)) with (20 + (length (mappingJson s m) - 20))%nat by lia. rewrite (mapping_read _ s m Hp Hm). reflexivity.
Qed.

(** * The letters of the mappings *)
Definition mapByte (b : byte) : Prop := isPlain b /\ bz b < 128.
Lemma b64at_mapByte i : 0 <= i < 64 -> mapByte (b64at i).
Proof.
  intros H. assert (X : In (b64at i) base64Forward).
  { unfold b64at. apply nth_In. change (length base64Forward) with 64%nat. apply (Z2Nat.inj_lt i 64); lia. }
  revert X. generalize (b64at i). intros b X. assert (F : forallb (fun b => (32 <=? bz b) && negb (bz b =? 34) && negb (bz b =? 92) && (bz b <? 128)) base64Forward = true) by reflexivity.
  rewrite forallb_forall in F. specialize (F b X). unfold mapByte, isPlain.
  destruct (Z.leb_spec 32 (bz b)), (Z.eqb_spec (bz b) 34), (Z.eqb_spec (bz b) 92), (Z.ltb_spec (bz b) 128); cbn in F; try discriminate; auto.
Qed.
Lemma vlq_mapByte v : Forall mapByte (vlqEncode v).
Proof. apply Forall_forall. intros b H. apply vlqEncode_alpha in H as (i & Hi & ->). apply b64at_mapByte. exact Hi. Qed.
Lemma mapLoop_mapByte rs : forall a b, Forall mapByte (snd (mapLoop a b rs)).
Proof.
  induction rs as [|r rs IH]; intros a b; cbn [mapLoop]; [constructor|]. destruct (r =? 10); [|apply IH].
  specialize (IH 0 0). destruct (mapLoop 0 0 rs) as [[x y] m]. cbn [snd] in *. constructor; [|exact IH]. repeat split; discriminate.
Qed.
Lemma addMapping_mapByte src p sp p' : addMapping src p sp = Some p' -> Forall mapByte (p_map p) -> Forall mapByte (p_map p').
Proof.
  unfold addMapping. destruct src as [s|]; [|intro H; injection H as <-; auto].
  destruct (lineAndCol s sp) as [[ln c]|]; [|discriminate].
  pose proof (mapLoop_mapByte (runes (skipn (p_lastWritten p) (p_s p))) (p_gc p) (p_gc p)) as L.
  destruct (mapLoop _ _ _) as [[a b] m]. cbn [snd] in L.
  match goal with |- match ?x with _ => _ end = _ -> _ => destruct x as [m2|] eqn:E end; [|discriminate].
  intros H F. injection H as <-. cbn [p_map].
  apply Forall_app. split; [|apply Forall_app; split; [apply vlq_mapByte|]; constructor; [apply b64at_mapByte; lia|]; apply Forall_app; split; apply vlq_mapByte].
  assert (F1 : Forall mapByte (p_map p ++ m)) by (apply Forall_app; auto).
  destruct (0 <? length (p_s p))%nat; [|injection E as <-; exact F1].
  destruct (rev (p_map p ++ m)) as [|x ?]; [discriminate|]. injection E as <-. destruct (Byte.eqb x ";"%byte); [exact F1|].
  apply Forall_app. split; [exact F1|]. repeat constructor; discriminate.
Qed.
Lemma runOps_mapByte src l : forall p p', runOps src p l = Some p' -> Forall mapByte (p_map p) -> Forall mapByte (p_map p').
Proof.
  induction l as [|[t|sp] l IH]; intros p p' H F; cbn [runOps] in H.
  - injection H as <-. exact F.
  - apply IH in H; auto.
  - destruct (addMapping src p sp) as [p1|] eqn:A; [|discriminate]. apply IH in H; auto. eapply addMapping_mapByte; eauto.
Qed.

Lemma print_map_bytes s ns out : print (Some s) ns = Some out ->
  exists css mappings, print None ns = Some css /\ out = css ++ mapComment (base64Std (mappingJson s mappings)) /\ Forall mapByte mappings.
Proof.
  unfold print at 1. destruct (printNodes ns) as [l|] eqn:H; [|discriminate].
  destruct (runOps (Some s) p0 l) as [p|] eqn:R; [|discriminate].
  intro Q. apply some_inj in Q. subst out. pose proof (runOps_mapByte _ _ _ _ R (Forall_nil _)) as F. apply runOps_text in R.
  exists (textOf l), (p_map p). split; [apply print_none; auto|]. rewrite R. auto.
Qed.
Lemma base64Std_inj a b : base64Std a = base64Std b -> a = b.
Proof.
  intros E. pose proof (proj1 (base64_spec (length a) a (Nat.le_refl _))) as X. rewrite E in X.
  rewrite (proj1 (base64_spec (length b) b (Nat.le_refl _))) in X. injection X as ->. reflexivity.
Qed.
Lemma mappingJson_utf8 s m : utf8 (src_path s) -> Forall mapByte m -> utf8 (mappingJson s m).
Proof.
  intros Hp Hm. assert (A : forall s, forallb (fun b => bz b <? 128) s = true -> utf8 s).
  { clear. intros s H. apply utf8_ascii. apply Forall_forall. rewrite forallb_forall in H. intros b Hb. specialize (H b Hb). lia. }
  unfold mappingJson, jsonString. destruct (jsonBody_read (length (src_content s)) (src_content s) [] (Nat.le_refl _)) as [_ U].
  repeat apply utf8_app; auto; try (apply A; reflexivity). apply utf8_ascii. eapply Forall_impl; [|exact Hm]. intros b Hb. apply Hb.
Qed.
Lemma mappingJson_inj s m m' : mappingJson s m = mappingJson s m' -> m = m'.
Proof. unfold mappingJson. intros E. repeat apply app_inv_head in E. apply app_inv_tail in E. exact E. Qed.
Lemma C44_lemma s ns out : print (Some s) ns = Some out -> plainPath (src_path s) ->
  exists css payload text mappings,
    print None ns = Some css /\ out = css ++ mapComment payload /\ base64Read payload = Some text /\ utf8 text /\
    readJson text = Some (sourceMap (src_path s) (repaired (src_content s)) mappings) /\
    (utf8 (src_content s) -> repaired (src_content s) = src_content s) /\
    (tableOk s -> textOk css -> Forall (fun m => spanOk (snd m)) (starts [] ns) ->
     readMappings mappings = Some (map (expected s) (starts [] ns))).
Proof.
  intros H [Pu Pp]. pose proof H as H0. apply print_map_bytes in H as (css & m & H & E & F).
  exists css, (base64Std (mappingJson s m)), (mappingJson s m), m. split; auto. split; auto.
  split; [apply (base64_spec (length (mappingJson s m)) (mappingJson s m) (Nat.le_refl _))|].
  split; [apply mappingJson_utf8; auto|]. split; [apply mapping_json; [exact Pp|eapply Forall_impl; [|exact F]; intros b Hb; apply Hb]|].
  split; [apply repaired_utf8|]. intros T X S. destruct (C22_lemma s ns css T H X S) as (m' & E' & R).
  rewrite E', E in H0. apply some_inj in H0. apply app_inv_head in H0. unfold mapComment in H0.
  apply app_inv_head in H0. apply app_inv_head in H0. apply app_inv_tail in H0. apply base64Std_inj in H0. apply mappingJson_inj in H0. subst m'. exact R.
Qed.
(** A path with a quotation mark, one with a backslash. *)
Definition quotedSource (path : bytes) : source := mkSource path (B "a{}") [0%nat].
Lemma C44_refuted_lemma :
  (exists out css payload text, print (Some (quotedSource (B "a""b.css"))) [] = Some out /\ print None [] = Some css /\
     out = css ++ mapComment payload /\ base64Read payload = Some text /\ readJson text = None) /\
  (exists out css payload text, print (Some (quotedSource (B "a\b.css"))) [] = Some out /\ print None [] = Some css /\
     out = css ++ mapComment payload /\ base64Read payload = Some text /\
     readJson text = Some (sourceMap (B "a" ++ [Byte.x08] ++ B ".css") (B "a{}") [])).
Proof.
  split.
  - eexists. exists [], (base64Std (mappingJson (quotedSource (B "a""b.css")) [])), (mappingJson (quotedSource (B "a""b.css")) []).
    split; [reflexivity|]. split; [reflexivity|]. split; [reflexivity|].
    split; [apply (base64_spec _ _ (Nat.le_refl _))|vm_compute; reflexivity].
  - eexists. exists [], (base64Std (mappingJson (quotedSource (B "a\b.css")) [])), (mappingJson (quotedSource (B "a\b.css")) []).
    split; [reflexivity|]. split; [reflexivity|]. split; [reflexivity|].
    split; [apply (base64_spec _ _ (Nat.le_refl _))|vm_compute; reflexivity].
Qed.
(** Quotes, a line feed, a character that JSON does not need to escape but Go
    does, one of two bytes, and a byte that is none. *)
Definition source44 : source :=
  mkSource (B "/x/a.css") (B "a{b:""c<"";}" ++ [Byte.x0a; Byte.xc3; Byte.xa9; Byte.xff]) [0; 12]%nat.
Lemma C44_sample_lemma : plainPath (src_path source44) /\
  mappingJson source44 (B "AAAA") =
    B "{""version"": 3,""file"":""/x/a.css"",""sourceRoot"":"""", ""sources"": [""source.css""], ""sourcesContent"":[""a{b:\""c\u003c\"";}\n"
    ++ [Byte.xc3; Byte.xa9] ++ B "\ufffd""],""names"":[],""mappings"":""AAAA""}" /\
  readJson (mappingJson source44 (B "AAAA")) =
    Some (sourceMap (B "/x/a.css") (B "a{b:""c<"";}" ++ [Byte.x0a; Byte.xc3; Byte.xa9; Byte.xef; Byte.xbf; Byte.xbd]) (B "AAAA")).
Proof.
  split; [|split; vm_compute; reflexivity]. split; [apply utf8_ascii; repeat constructor|].
  apply plainb. reflexivity.
Qed.
