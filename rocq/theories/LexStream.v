(** The lexer delivers the tokens of the lexical grammar. *)
From Verif Require Import Bytes Utf8 Source Lexer BytesFacts LexSpec LexFacts LexNext LexProps LexGrammar LexCut LexWords LexFun LexReads.
From Verif Require Import Ast Parser ParserSpec ParseInv ReadSpec ReadProofs FullSheet LexStreamSpec.

Section WithUnicode.
Context {U : UnicodeDigits}.

Definition calls (content : bytes) (ws com : bool) (a : nat) (s n : bytes) (r : res lexer) : Prop :=
  match r with
  | Ok l' => exists p o, tokenAt content ws com a (l_cur l') p (l_start l') (l_lastPos l') o /\
      l_str l' = strAfter p (heard o s) /\ l_num l' = numAfter p n
  | Panic e _ => exists m b e', e = PLex (mkSpan b e') m /\ errorAt content ws com a m b e'
  | Timeout => False
  end.
Lemma call_grammar content l : l_content l = content -> cwf l ->
  calls content (l_rws l) (l_rcom l) (l_lastPos l) (l_str l) (l_num l) (next l).
Proof.
  intros Hc W. pose proof (next_reads l W) as H. unfold nextReads in H. unfold calls.
  assert (Ec : cuts (skipn (l_lastPos l) content) (todo l)) by (subst content; apply cuts_chars).
  destruct (next l) as [l'|[sp m|] ln|]; try contradiction.
  - destruct H as (g & t & p & lm & o & Hs & Mg & Mt & Hst & T & HL & C1 & C2 & D). exists p, o. split; [|auto].
    exists g, t, (todo l'). rewrite <- T. split; auto. split; auto. split; auto. split; auto.
    destruct Mg as (_ & _ & P1 & _), Mt as (_ & _ & P2 & _). rewrite Hst. lia.
  - destruct H as (g & t & r & o & Hs & T & HB & ->). exists m, (l_lastPos l + length (flat g))%nat, (l_lastPos l + length (flat g) + length (flat t))%nat.
    split; auto. exists g, t, r, o. rewrite <- T. auto.
Qed.

(** * Uniqueness *)
Inductive readAt (content : bytes) (ws com : bool) (a : nat) : outcome -> nat -> nat -> option bytes -> Prop :=
| raTok k p b e o : tokenAt content ws com a k p b e o -> readAt content ws com a (Tok k p) b e o
| raErr m b e : errorAt content ws com a m b e -> readAt content ws com a (Err m) b e None.
Lemma readAt_fun content ws com a x b e o x' b' e' o' : readAt content ws com a x b e o -> readAt content ws com a x' b' e' o' ->
  x = x' /\ b = b' /\ e = e' /\ o = o'.
Proof.
  assert (N : forall x b e o, readAt content ws com a x b e o -> exists g t r oc, cuts (skipn a content) (g ++ t ++ r) /\
    skips ws com g (t ++ r) oc /\ reading t r x /\ kept ws com x /\ b = (a + length (flat g))%nat /\ e = (b + length (flat t))%nat /\
    o = (match x with Tok _ _ => oc | Err _ => None end)).
  { clear. intros x b e o [k p b1 e1 o1 (g & t & r & H1 & H2 & H3 & H4 & H5 & H6)|m b1 e1 (g & t & r & o1 & H1 & H2 & H3 & H5 & H6)];
      exists g, t, r, o1; repeat split; auto; try (constructor; auto); apply H4. }
  intros H H'. apply N in H as (g & t & r & oc & H1 & H2 & H3 & H4 & H5 & H6 & H7).
  apply N in H' as (g' & t' & r' & oc' & K1 & K2 & K3 & K4 & K5 & K6 & K7).
  destruct (skips_fun _ _ _ _ _ _ _ H2 H3 H4 _ _ _ _ _ K2 K3 K4) as (<- & <- & <- & <- & <-).
  { rewrite (cuts_fun _ _ H1), (cuts_fun _ _ K1). reflexivity. }
  subst. auto.
Qed.
Lemma tokenAt_fun content ws com a k p b e o k' p' b' e' o' : tokenAt content ws com a k p b e o ->
  tokenAt content ws com a k' p' b' e' o' -> k = k' /\ p = p' /\ b = b' /\ e = e' /\ o = o'.
Proof.
  intros H H'. destruct (readAt_fun _ _ _ _ _ _ _ _ _ _ _ _ (raTok _ _ _ _ _ _ _ _ _ H) (raTok _ _ _ _ _ _ _ _ _ H')) as (X & Y).
  inversion X; auto.
Qed.
Lemma errorAt_fun content ws com a m b e m' b' e' : errorAt content ws com a m b e ->
  errorAt content ws com a m' b' e' -> m = m' /\ b = b' /\ e = e'.
Proof.
  intros H H'. destruct (readAt_fun _ _ _ _ _ _ _ _ _ _ _ _ (raErr _ _ _ _ _ _ _ H) (raErr _ _ _ _ _ _ _ H')) as (X & Y & Z & _).
  inversion X; auto.
Qed.
Lemma token_or_error content ws com a k p b e o m b' e' : tokenAt content ws com a k p b e o ->
  errorAt content ws com a m b' e' -> False.
Proof.
  intros H H'. destruct (readAt_fun _ _ _ _ _ _ _ _ _ _ _ _ (raTok _ _ _ _ _ _ _ _ _ H) (raErr _ _ _ _ _ _ _ H')) as (X & Y).
  discriminate X.
Qed.

Lemma call_token content l k p b e o : l_content l = content -> cwf l ->
  tokenAt content (l_rws l) (l_rcom l) (l_lastPos l) k p b e o ->
  exists l', next l = Ok l' /\ l_cur l' = k /\ l_str l' = strAfter p (heard o (l_str l)) /\ l_num l' = numAfter p (l_num l) /\
    l_start l' = b /\ l_lastPos l' = e.
Proof.
  intros Hc W H. pose proof (call_grammar content l Hc W) as C. unfold calls in C.
  destruct (next l) as [l'|x ln|]; [| |contradiction].
  - destruct C as (p' & o' & H' & C1 & C2). destruct (tokenAt_fun _ _ _ _ _ _ _ _ _ _ _ _ _ _ H H') as (-> & -> & -> & -> & ->).
    exists l'. auto 10.
  - destruct C as (m & b' & e' & _ & H'). destruct (token_or_error _ _ _ _ _ _ _ _ _ _ _ _ H H').
Qed.
Lemma call_error content l m b e : l_content l = content -> cwf l ->
  errorAt content (l_rws l) (l_rcom l) (l_lastPos l) m b e -> exists ln, next l = Panic (PLex (mkSpan b e) m) ln.
Proof.
  intros Hc W H. pose proof (call_grammar content l Hc W) as C. unfold calls in C.
  destruct (next l) as [l'|x ln|]; [| |contradiction].
  - destruct C as (p' & o' & H' & C). destruct (token_or_error _ _ _ _ _ _ _ _ _ _ _ _ H' H).
  - destruct C as (m' & b' & e' & -> & H'). destruct (errorAt_fun _ _ _ _ _ _ _ _ _ _ H H') as (-> & -> & ->). eauto.
Qed.

(** * Sessions *)
Lemma C50_next_lemma content l ws com : session content l ->
  calls content ws com (l_lastPos l) (l_str l) (l_num l) (next (withFlags l ws com)).
Proof.
  intros H. destruct (session_inv _ _ H) as (I1 & I2 & _).
  exact (call_grammar content (withFlags l ws com) I1 (flags_cwf _ _ _ I2)).
Qed.
Lemma step_fields l0 : l_rws (step l0) = l_rws l0 /\ l_rcom (step l0) = l_rcom l0 /\ l_str (step l0) = l_str l0 /\ l_num (step l0) = l_num l0.
Proof.
  unfold step. repeat match goal with |- context [if ?b then _ else _] => destruct b | |- context [let '(_, _) := ?x in _] => destruct x end; repeat split; reflexivity.
Qed.
Lemma C50_first_lemma content : calls content false false 0 [] [] (newLexer content []).
Proof.
  destruct (first_step content) as (F1 & F2 & F3 & _). pose proof (call_grammar content _ F1 F2) as C.
  destruct (step_fields (zeroLexer content [])) as (X & Y & Z & W). rewrite X, Y, Z, W, F3 in C. exact C.
Qed.
Lemma C50_token_lemma content l ws com k p b e o : session content l ->
  tokenAt content ws com (l_lastPos l) k p b e o ->
  exists l', next (withFlags l ws com) = Ok l' /\ l_cur l' = k /\ l_str l' = strAfter p (heard o (l_str l)) /\
    l_num l' = numAfter p (l_num l) /\ l_start l' = b /\ l_lastPos l' = e.
Proof.
  intros H. destruct (session_inv _ _ H) as (I1 & I2 & _).
  exact (call_token content (withFlags l ws com) k p b e o I1 (flags_cwf _ _ _ I2)).
Qed.
Lemma C50_error_lemma content l ws com m b e : session content l ->
  errorAt content ws com (l_lastPos l) m b e ->
  exists ln, next (withFlags l ws com) = Panic (PLex (mkSpan b e) m) ln.
Proof.
  intros H. destruct (session_inv _ _ H) as (I1 & I2 & _).
  exact (call_error content (withFlags l ws com) m b e I1 (flags_cwf _ _ _ I2)).
Qed.
Lemma C50_unique_lemma content ws com a :
  (forall k p b e o k' p' b' e' o', tokenAt content ws com a k p b e o -> tokenAt content ws com a k' p' b' e' o' ->
     k = k' /\ p = p' /\ b = b' /\ e = e' /\ o = o') /\
  (forall m b e m' b' e', errorAt content ws com a m b e -> errorAt content ws com a m' b' e' -> m = m' /\ b = b' /\ e = e') /\
  (forall k p b e o m b' e', tokenAt content ws com a k p b e o -> errorAt content ws com a m b' e' -> False).
Proof.
  split; [intros; eapply tokenAt_fun; eauto|]. split; [intros; eapply errorAt_fun; eauto|intros; eapply token_or_error; eauto].
Qed.

(** * Whole files *)
Lemma path_scanned content k l ts k1 l1 : path k l ts k1 l1 -> pstate content l -> l_rcom l = false -> l_cur l1 = EOF ->
  k1 = false -> forall a s n p o, tokenAt content k false a (l_cur l) p (l_start l) (l_lastPos l) o ->
  l_str l = strAfter p (heard o s) -> l_num l = numAfter p n ->
  scanned content a s n ts /\ match ts with x :: _ => k_kept x = k | [] => True end.
Proof.
  intros P. induction P as [k l|k l b ts k1 l1 P IH|k l ls ts k1 l1 P IH|k l l1 ts k1 l2 E P IH]; intros Hp Hc He Hk a s n p o Ht Hs Hn.
  - split; auto. rewrite Hk, He in Ht. assert (p = PlNone) as ->.
    { destruct Ht as (g & t & r & _ & _ & HL & _). remember EOF as k0. destruct HL; auto; discriminate. }
    eapply scEnd; eauto.
  - apply (IH (pFlags content l b (l_rcom l) Hp) Hc He Hk a s n p o); auto.
  - apply (IH (pLines content l ls Hp) Hc He Hk a s n p o); auto.
  - split; [|reflexivity]. pose proof (pstate_call _ _ Hp) as G. rewrite E in G. destruct G as (_ & G1 & _ & G2).
    destruct (pstate_wfl _ _ Hp) as (W1 & W2 & _).
    apply scTok with p o; auto.
    pose proof (call_grammar content l W1 W2) as C. rewrite E, Hc in C. destruct C as (p' & o' & Ht' & Hs' & Hn').
    destruct (IH (pNext _ _ _ Hp E)) with (a := l_lastPos l) (s := l_str l) (n := l_num l) (p := p') (o := o') as [X _]; auto. congruence.
Qed.
Lemma C50_tokens_lemma content ts : tokensOf content ts -> tokenized content ts.
Proof.
  intros (l & l1 & E & P & C). destruct (new_here _ _ E) as [[Hp _] Hc].
  pose proof (C50_first_lemma content) as F. rewrite E in F. destruct F as (p & o & F1 & F2 & F3).
  exact (path_scanned content _ _ _ _ _ P Hp Hc C eq_refl 0%nat [] [] p o F1 F2 F3).
Qed.

(** The other way round. *)
Definition ready (content : bytes) (a : nat) (s n : bytes) (l : lexer) : Prop :=
  l_content l = content /\ cwf l /\ l_rcom l = false /\ l_lastPos l = a /\ l_str l = s /\ l_num l = n.
Lemma ready_next content a s n l l' : ready content a s n l -> next l = Ok l' ->
  ready content (l_lastPos l') (l_str l') (l_num l') l'.
Proof.
  intros (R1 & R2 & R3 & R4 & R5 & R6) E. pose proof (call_go content l R1 R2) as G. rewrite E in G.
  destruct G as (G0 & G1 & G2 & G3). destruct G0 as (W1 & W2 & _). split; auto. split; auto. split; [congruence|auto].
Qed.
(** From just before a token: what calling Next does. *)
Lemma scanned_path content a s n ts : scanned content a s n ts -> forall l, ready content a s n l ->
  l_rws l = match ts with x :: _ => k_kept x | [] => false end ->
  exists l1 l2, next l = Ok l1 /\ path (l_rws l) l1 ts false l2 /\ l_cur l2 = EOF.
Proof.
  induction 1 as [a s n b e o H|a s n x ts p o H Hs Hn Hr IH]; intros l R Hf; pose proof R as (R1 & R2 & R3 & R4 & R5 & R6).
  - rewrite <- Hf, <- R3, <- R4 in H at 1. destruct (call_token content l _ _ _ _ _ R1 R2 H) as (l1 & E & C & _).
    exists l1, l1. rewrite Hf. split; auto. split; [constructor|]. auto.
  - pose proof H as H'. rewrite <- Hf, <- R3, <- R4 in H' at 1.
    destruct (call_token content l _ _ _ _ _ R1 R2 H') as (l1 & E & C1 & C2 & C3 & C4 & C5).
    pose proof (ready_next content a s n l l1 R E) as R'. rewrite R5 in C2. rewrite R6 in C3.
    set (f := match ts with y :: _ => k_kept y | [] => false end).
    destruct (IH (setRws l1 f)) as (l2 & l3 & E2 & P & C).
    { rewrite <- C5, Hs, Hn, <- C2, <- C3. exact R'. }
    { reflexivity. }
    exists l1, l3. split; auto. split; auto.
    apply (pathFlag _ _ f).
    assert (X : x = tkOf (l_rws l) (setRws l1 f)).
    { unfold tkOf, tokenSpan. cbn [setRws l_cur l_str l_num l_start l_lastPos]. rewrite C1, C2, C3, C4, C5, Hf, <- Hs, <- Hn.
      unfold from, upto. destruct x as [k1 s1 n1 [b1 e1] f1]. reflexivity. }
    rewrite X. eapply pathTok; eauto.
Qed.
Lemma C50_stream_lemma content ts : tokenized content ts -> tokensOf content ts.
Proof.
  intros [H Hf]. destruct (first_step content) as (F1 & F2 & F3 & _).
  destruct (step_fields (zeroLexer content [])) as (X & Y & Z & W).
  destruct (scanned_path content 0 [] [] ts H (step (zeroLexer content []))) as (l1 & l2 & E & P & C).
  - split; auto.
  - rewrite X. destruct ts; auto.
  - rewrite X in P. exists l1, l2. auto.
Qed.
Lemma C50_same_tokens_lemma content ts : tokensOf content ts <-> tokenized content ts.
Proof. split; [apply C50_tokens_lemma|apply C50_stream_lemma]. Qed.

Lemma scanned_fun content a s n ts : scanned content a s n ts -> forall ts', scanned content a s n ts' ->
  map k_kept ts = map k_kept ts' -> ts = ts'.
Proof.
  induction 1 as [a s n b e o H|a s n x ts p o H Hs Hn Hr IH]; intros ts' H' E.
  - destruct ts'; [auto|discriminate E].
  - inversion H' as [|a1 s1 n1 x' ts1 p' o' K Ks Kn Kr]; subst; [discriminate E|]. cbn in E. inversion E as [[E1 E2]].
    rewrite <- E1 in K. destruct (tokenAt_fun _ _ _ _ _ _ _ _ _ _ _ _ _ _ H K) as (A1 & <- & A2 & A3 & <-).
    assert (x = x') as <-.
    { unfold from, upto in *. destruct x as [k1 s1 n1 [b1 e1] f1], x' as [k2 s2 n2 [b2 e2] f2]; cbn in *; congruence. }
    f_equal. apply IH; auto.
Qed.
Lemma C50_flags_lemma content ts ts' : tokenized content ts -> tokenized content ts' ->
  map k_kept ts = map k_kept ts' -> ts = ts'.
Proof. intros [H _] [H' _]. eapply scanned_fun; eauto. Qed.

(** * Trees *)
Lemma C50_reads_lemma run content nds : reads run content nds <-> readsBytes run content nds.
Proof. split; intros (ts & T & G); exists ts; split; auto; apply C50_same_tokens_lemma; auto. Qed.
Lemma C50_parse_lemma run n content ss lines : parse run n content = ParseOk ss lines ->
  readsBytes run content (ss_nodes ss).
Proof. intros H. apply C50_reads_lemma. eapply C47_lemma; eauto. Qed.
Lemma C50_accept_lemma run content nds : readsBytesPlainly run content nds ->
  exists imps lines n0, forall n, (n0 <= n)%nat -> parse run n content = ParseOk (mkSheet nds imps) lines.
Proof. intros (ts & T & G). apply C49_lemma. exists ts. split; auto. apply C50_same_tokens_lemma; auto. Qed.
Lemma C50_one_tree_lemma run content nds nds' : readsBytesPlainly run content nds -> readsBytesPlainly run content nds' -> nds = nds'.
Proof.
  intros (ts & T & G) (ts' & T' & G'). apply (C49_unique_lemma run content); [exists ts|exists ts']; split; auto; apply C50_same_tokens_lemma; auto.
Qed.
End WithUnicode.
