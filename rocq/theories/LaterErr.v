(** Errors of the parser point at or behind the token it is given. *)
From Verif Require Import Bytes Utf8 Source Lexer BytesFacts LexSpec LexFacts LexNext Ast Parser ParserSpec ParseMono LaterLex LaterParse.

Section One.
Context {U : UnicodeDigits}.
Variable c : bytes.
Notation onw := (LaterLex.onw c).
Notation fwd := (LaterLex.fwd c).

Definition behind {T} (l : lexer) (r : res T) : Prop := forall sp msg ln, r = Panic (PLex sp msg) ln -> (l_start l <= sp_start sp)%nat.
Definition PL (l : lexer) (r : res lexer) : Prop := (forall l1, r = Ok l1 -> fwd l l1) /\ behind l r.
Definition PA {T} (l : lexer) (r : res (T * lexer)) : Prop := (forall x l1, r = Ok (x, l1) -> fwd l l1) /\ behind l r.

Lemma fwd_start a b : onw a -> fwd a b -> (l_start a <= l_start b)%nat.
Proof. intros (_ & H) (_ & _ & [[X _]|X]); lia. Qed.
Lemma PA_pair {A D} l (m : res (A * lexer)) (f : A * lexer -> res (D * lexer)) :
  onw l -> PA l m -> (forall x l1, onw l1 -> PA l1 (f (x, l1))) -> PA l (bind m f).
Proof.
  intros W [H1 H2] K. destruct m as [[x l1]|p ln|]; cbn [bind].
  - pose proof (H1 _ _ eq_refl) as F1. destruct (K x l1 (proj1 F1)) as [K1 K2]. split.
    + intros y l2 E. eapply fwd_trans; [apply F1|exact F1|exact (K1 _ _ E)].
    + intros sp msg ln E. pose proof (K2 _ _ _ E). pose proof (fwd_start _ _ W F1). lia.
  - split; [intros ? ? E; discriminate E|]. intros sp msg ln' E. injection E as -> ->. exact (H2 _ _ _ eq_refl).
  - split; [intros ? ? E; discriminate E|intros ? ? ? E; discriminate E].
Qed.
Lemma PA_lex {D} l (m : res lexer) (f : lexer -> res (D * lexer)) : onw l -> PL l m -> (forall l1, onw l1 -> PA l1 (f l1)) -> PA l (bind m f).
Proof.
  intros W [H1 H2] K. destruct m as [l1|p ln|]; cbn [bind].
  - pose proof (H1 _ eq_refl) as F1. destruct (K l1 (proj1 F1)) as [K1 K2]. split.
    + intros y l2 E. eapply fwd_trans; [apply F1|exact F1|exact (K1 _ _ E)].
    + intros sp msg ln E. pose proof (K2 _ _ _ E). pose proof (fwd_start _ _ W F1). lia.
  - split; [intros ? ? E; discriminate E|]. intros sp msg ln' E. injection E as -> ->. exact (H2 _ _ _ eq_refl).
  - split; [intros ? ? E; discriminate E|intros ? ? ? E; discriminate E].
Qed.
Lemma PL_lex l (m : res lexer) (f : lexer -> res lexer) : onw l -> PL l m -> (forall l1, onw l1 -> PL l1 (f l1)) -> PL l (bind m f).
Proof.
  intros W [H1 H2] K. destruct m as [l1|p ln|]; cbn [bind].
  - pose proof (H1 _ eq_refl) as F1. destruct (K l1 (proj1 F1)) as [K1 K2]. split.
    + intros l2 E. eapply fwd_trans; [apply F1|exact F1|exact (K1 _ E)].
    + intros sp msg ln E. pose proof (K2 _ _ _ E). pose proof (fwd_start _ _ W F1). lia.
  - split; [intros ? E; discriminate E|]. intros sp msg ln' E. injection E as -> ->. exact (H2 _ _ _ eq_refl).
  - split; [intros ? E; discriminate E|intros ? ? ? E; discriminate E].
Qed.
Lemma PA_any {A D} l (m : res A) (f : A -> res (D * lexer)) : behind l m -> (forall x, PA l (f x)) -> PA l (bind m f).
Proof.
  intros H K. destruct m as [x|p ln|]; cbn [bind]; [apply K| |].
  - split; [intros ? ? E; discriminate E|]. intros sp msg ln' E. injection E as -> ->. exact (H _ _ _ eq_refl).
  - split; [intros ? ? E; discriminate E|intros ? ? ? E; discriminate E].
Qed.
Lemma PA_ok {T} (x : T) l l1 : fwd l l1 -> PA l (Ok (x, l1)).
Proof. intros F. split; [intros y l2 E; injection E as <- <-; exact F|intros ? ? ? E; discriminate E]. Qed.
Lemma PL_ok l l1 : fwd l l1 -> PL l (Ok l1).
Proof. intros F. split; [intros l2 E; injection E as <-; exact F|intros ? ? ? E; discriminate E]. Qed.
Lemma err_behind {T} l l0 s : onw l -> fwd l l0 -> behind l (@errorf T l0 s).
Proof. intros W F sp msg ln E. injection E as <- _ _. exact (fwd_start _ _ W F). Qed.
Lemma PA_err {T} l l0 s : onw l -> fwd l l0 -> PA l (@errorf (T * lexer) l0 s).
Proof. intros W F. split; [intros ? ? E; discriminate E|apply err_behind; assumption]. Qed.
Lemma PL_err l l0 s : onw l -> fwd l l0 -> PL l (errorf l0 s).
Proof. intros W F. split; [intros ? E; discriminate E|apply err_behind; assumption]. Qed.
Lemma PA_crash {T} l l0 : PA l (@crash (T * lexer) l0).
Proof. split; [intros ? ? E; discriminate E|intros ? ? ? E; discriminate E]. Qed.
Lemma PA_timeout {T} l : PA l (@Timeout (T * lexer)).
Proof. split; [intros ? ? E; discriminate E|intros ? ? ? E; discriminate E]. Qed.
Lemma ok_behind {T} l (x : T) : behind l (Ok x). Proof. intros ? ? ? E; discriminate E. Qed.
Lemma join_behind l l0 a b : behind l (joinSpan l0 a b).
Proof. unfold joinSpan. destruct (valueSpan a); [destruct (valueSpan b)|]; intros ? ? ? E; discriminate E. Qed.
Lemma slice_behind l l0 a b : behind l (contentSlice l0 a b).
Proof. unfold contentSlice. destruct (slice _ _ _); intros ? ? ? E; discriminate E. Qed.
(** An error in a token points behind the token before. *)
Lemma next_err l sp msg ln : onw l -> next l = Panic (PLex sp msg) ln -> (l_lastPos l <= sp_start sp)%nat.
Proof.
  intros W E. pose proof (nextLoop_spec _ l (proj2 (proj1 W)) (lfuel_rest l)) as S. unfold next in E. rewrite E in S.
  destruct S as (g & lm & l2 & t & _ & M & St & (M2 & Fr) & -> & _). destruct M as (_ & _ & Q & _). destruct Fr as (St2 & _). cbn. lia.
Qed.
Lemma PL_next l0 l : onw l0 -> fwd l0 l -> PL l0 (next l).
Proof.
  intros W F. split.
  - intros l1 E. destruct (next_fwd _ _ _ (proj1 (proj1 F)) E) as (A & D & G). eapply fwd_trans; [apply F|exact F|]. split; [exact A|]. split; [exact D|right; exact G].
  - intros sp msg ln E. pose proof (next_err _ _ _ _ (proj1 F) E). pose proof (fwd_start _ _ W F). destruct (proj1 F) as [_ X]. lia.
Qed.
Lemma PL_expect t l0 l : onw l0 -> fwd l0 l -> PL l0 (expect t l).
Proof. intros W F. unfold expect. destruct (negb _); [apply PL_err; assumption|apply PL_next; assumption]. Qed.
Lemma PA_from {T} l l0 (r : res (T * lexer)) : onw l -> fwd l l0 -> PA l0 r -> PA l r.
Proof.
  intros W F [H1 H2]. split; [intros x l1 E; eapply fwd_trans; [apply F|exact F|eauto]|]. intros sp msg ln E. pose proof (H2 _ _ _ E). pose proof (fwd_start _ _ W F). lia.
Qed.
Lemma onw_rws l b : onw l -> onw (setRws l b). Proof. exact (fun H => H). Qed.
Lemma fwd_rws a l b : fwd a l -> fwd a (setRws l b). Proof. exact (fun H => H). Qed.

Ltac ands := repeat match goal with |- _ /\ _ => split end.
Ltac fw := repeat first [assumption | apply onw_rws | apply fwd_rws | apply fwd_refl].
Ltac err :=
  repeat (cbv zeta; cbn beta iota; first
    [ solve [apply PA_err; fw | apply PA_crash | apply PA_timeout | apply ok_behind | apply err_behind; fw | apply join_behind
            | apply PA_ok; fw | apply PL_ok; fw | apply PL_next; fw | apply PL_expect; fw]
    | match goal with
      | |- PA _ (bind _ _) => first [ apply PA_lex; [fw| |intros] | apply PA_pair; [fw| |intros] | apply PA_any; [|intros] ]
      | H : forall _, _ |- PA _ _ => eapply PA_from; [| |apply H; solve [fw]]; solve [fw]
      | |- PL _ (bind _ _) => apply PL_lex; [fw| |intros]
      | p : (_ * _)%type |- _ => destruct p
      | |- PA _ (match ?x with _ => _ end) => destruct x
      | |- PL _ (match ?x with _ => _ end) => destruct x
      | |- behind _ (match ?x with _ => _ end) => destruct x
      end ]).

Lemma value_err n :
  (forall l, onw l -> PA l (parseValue n l)) /\
  (forall l, onw l -> PA l (bracketLoop n l)) /\
  (forall f l, onw l -> PA l (argsLoop n f l)) /\
  (forall l, onw l -> PA l (mathSum n l)) /\
  (forall v l, onw l -> PA l (mathSumLoop n v l)) /\
  (forall l, onw l -> PA l (mathProduct n l)) /\
  (forall v l, onw l -> PA l (mathProductLoop n v l)) /\
  (forall l, onw l -> PA l (mathParen n l)).
Proof.
  induction n as [|n (I1 & I2 & I3 & I4 & I5 & I6 & I7 & I8)]; [ands; intros; apply PA_timeout|].
  ands; intros;
    cbn [parseValue bracketLoop argsLoop mathSum mathSumLoop mathProduct mathProductLoop mathParen]; err.
Qed.
Lemma parseValue_err n l : onw l -> PA l (parseValue n l). Proof. apply (value_err n). Qed.
Lemma declLoop_err n : forall le de imp l, onw l -> PA l (declLoop n le de imp l).
Proof. induction n as [|n IH]; intros; [apply PA_timeout|]. pose proof (parseValue_err n). cbn [declLoop]. err. Qed.
Lemma parseDeclaration_err n l : onw l -> PA l (parseDeclaration n l).
Proof. intros. pose proof (declLoop_err n). unfold parseDeclaration. err. Qed.
Lemma keyLoop_err n : forall l, onw l -> PA l (keyLoop n l).
Proof. induction n as [|n IH]; intros; [apply PA_timeout|]. cbn [keyLoop]. err. Qed.
Lemma parseKey_err n l : onw l -> PA l (parseKeyframeSelectorList n l).
Proof. intros. pose proof (keyLoop_err n). unfold parseKeyframeSelectorList. err. Qed.
Lemma parseAttr_err n l : onw l -> PA l (parseAttributeSelector n l).
Proof. intros. pose proof (parseValue_err n). unfold parseAttributeSelector. err. Qed.
Lemma anb_err l : onw l -> PA l (parseANPlusB l).
Proof. intros. unfold parseANPlusB. err. Qed.
Lemma sel_err n :
  (forall l, onw l -> PA l (parseSelectorList n l)) /\
  (forall l, onw l -> PA l (selListLoop n l)) /\
  (forall l, onw l -> PA l (parseSelector n l)) /\
  (forall e l, onw l -> PA l (partsLoop n e l)).
Proof.
  induction n as [|n (I1 & I2 & I3 & I4)]; [ands; intros; apply PA_timeout|]. pose proof (parseAttr_err n). pose proof anb_err.
  ands; intros; cbn [parseSelectorList selListLoop parseSelector partsLoop]; err.
Qed.
Lemma selectors_err n l : onw l -> PA l (parseSelectorList n l). Proof. apply (sel_err n). Qed.
Lemma range_err l : onw l -> PA l (parseMediaRangeOperator l).
Proof. intros. unfold parseMediaRangeOperator. err. Qed.
Lemma feature_err n l : onw l -> PA l (parseMediaFeature n l).
Proof. intros. pose proof (parseValue_err n). pose proof range_err. unfold parseMediaFeature. err. Qed.
Lemma mqParts_err n : forall l, onw l -> PA l (mqPartsLoop n l).
Proof. induction n as [|n IH]; intros; [apply PA_timeout|]. pose proof (feature_err n). cbn [mqPartsLoop]. err. Qed.
Lemma mqLoop_err n : forall l, onw l -> PA l (mqListLoop n l).
Proof. induction n as [|n IH]; intros; [apply PA_timeout|]. pose proof (mqParts_err n). cbn [mqListLoop]. err. Qed.
Lemma mq_err n l : onw l -> PA l (parseMediaQueryList n l).
Proof. intros. pose proof (mqLoop_err n). unfold parseMediaQueryList. err. Qed.
Lemma import_err run n l : onw l -> PA l (parseImportAtRule run n l).
Proof. intros. pose proof (mq_err n). unfold parseImportAtRule. err. Qed.
Lemma custom_err run n l : onw l -> PA l (parseCustomMediaAtRule run n l).
Proof. intros. pose proof (mq_err n). pose proof (parseValue_err n). unfold parseCustomMediaAtRule. err. Qed.

Section Run.
Variable run : nat.
Lemma rawLoop_err n : forall l, onw l -> PL l (rawLoop n l).
Proof. induction n as [|n IH]; intros l W; [split; [intros ? E; discriminate E|intros ? ? ? E; discriminate E]|]. cbn [rawLoop]. destruct (teq _ _); [apply PL_ok; fw|]. apply PL_lex; [exact W|apply PL_next; fw|exact IH]. Qed.
Lemma fallback_err n l : onw l -> PA l (parseDeclarationOrFallback n l).
Proof.
  intros W. unfold parseDeclarationOrFallback. destruct (parseDeclaration_err n l W) as [H1 H2]. destruct (parseDeclaration n l) as [[d l1]|p ln|]; [apply PA_ok; eauto| |apply PA_timeout].
  unfold parseRaw. cbv zeta. enough (G : PA (setLines l ln) (l1 <- rawLoop n (setLines l ln);; l2 <- next l1;; s <- contentSlice l2 (sp_start (tokenSpan (setLines l ln))) (tokenEnd l1);; Ok (DRaw (mkSpan (sp_start (tokenSpan (setLines l ln))) (tokenEnd l1)) s, l2))) by exact G.
  assert (W2 : onw (setLines l ln)) by exact W. apply PA_lex; [exact W2|apply rawLoop_err; exact W2|]. intros l1 W1. apply PA_lex; [exact W1|apply PL_next; fw|]. intros l2 W3. apply PA_any; [apply slice_behind|]. intros s. apply PA_ok; fw.
Qed.
Lemma block_err n : forall l, onw l -> PA l (declBlockLoop n l).
Proof. induction n as [|n IH]; intros; [apply PA_timeout|]. pose proof (fallback_err n). cbn [declBlockLoop]. err. Qed.
Lemma body_err n l : onw l -> PA l (parseDeclarationBlock n l).
Proof. intros. pose proof (block_err n). unfold parseDeclarationBlock. err. Qed.
Lemma qrule_err n : forall b st pr l, onw l -> PA l (qruleLoop run n b st pr l).
Proof. induction n as [|n IH]; intros; [apply PA_timeout|]. pose proof (body_err n). pose proof (parseKey_err n). pose proof (selectors_err n). cbn [qruleLoop]. err. Qed.
Lemma rules_err n b : forall l, onw l -> PA l (rulesLoop run n b l).
Proof. induction n as [|n IH]; intros; [apply PA_timeout|]. pose proof (qrule_err n b). cbn [rulesLoop]. unfold parseQualifiedRule. err. Qed.
Lemma at_err n l : onw l -> PA l (parseAtRule run n l).
Proof.
  intros. pose proof (import_err run n). pose proof (custom_err run n). pose proof (mq_err n). pose proof (rules_err n). pose proof (body_err n).
  unfold parseAtRule, parseMediaAtRule, parseKeyframes, parseGenericAtRule. err.
Qed.
Lemma loop_err n : forall l, onw l -> PA l (parseLoop run n l).
Proof. induction n as [|n IH]; intros; [apply PA_timeout|]. pose proof (at_err n). pose proof (qrule_err n). cbn [parseLoop]. unfold parseQualifiedRule. err. Qed.
End Run.
End One.
