(** Two parses of one file build the same stylesheet, up to which parse the
    nodes belong to. *)
From Verif Require Import Bytes Utf8 Source Lexer Ast Parser ParserSpec ParseSound.

(** The same stylesheet, allocated by parse [k]. *)
Definition ruleOfRun (k : nat) (r : qrule) : qrule := mkRule k (r_sp r) (r_prelude r) (r_bsp r) (r_decls r).
Definition blockOfRun (k : nat) (b : block) : block :=
  match b with BDecls sp ds => BDecls sp ds | BRules sp rs => BRules sp (map (ruleOfRun k) rs) end.
Definition atOfRun (k : nat) (a : atrule) : atrule :=
  mkAt k (ar_sp a) (ar_name a) (ar_preludes a) (option_map (blockOfRun k) (ar_block a)).
Definition nodeOfRun (k : nat) (n : node) : node :=
  match n with NRule r => NRule (ruleOfRun k r) | NAt a => NAt (atOfRun k a) end.
Definition importOfRun (k : nat) (i : bytes * ptr) : bytes * ptr := (fst i, (k, snd (snd i))).
Definition sheetOfRun (k : nat) (ss : stylesheet) : stylesheet :=
  mkSheet (map (nodeOfRun k) (ss_nodes ss)) (map (importOfRun k) (ss_imports ss)).
Definition outcomeOfRun (k : nat) (o : parseOutcome) : parseOutcome :=
  match o with ParseOk ss lines => ParseOk (sheetOfRun k ss) lines | o => o end.

Section WithUnicode.
Context {U : UnicodeDigits}.
Variables r k : nat.
Definition mapR {A C} (f : A -> C) (m : res A) : res C :=
  match m with Ok a => Ok (f a) | Panic p ls => Panic p ls | Timeout => Timeout end.
Definition fq (x : qrule * lexer) := (ruleOfRun k (fst x), snd x).
Definition fr (x : list qrule * nat * lexer) := (map (ruleOfRun k) (fst (fst x)), snd (fst x), snd x).
Definition fa (x : atrule * lexer) := (atOfRun k (fst x), snd x).
Definition fi (x : atrule * (bytes * ptr) * lexer) := (atOfRun k (fst (fst x)), importOfRun k (snd (fst x)), snd x).
Definition fn (x : node * list (bytes * ptr) * lexer) := (nodeOfRun k (fst (fst x)), map (importOfRun k) (snd (fst x)), snd x).
Definition fl (x : list node * list (bytes * ptr) * lexer) := (map (nodeOfRun k) (fst (fst x)), map (importOfRun k) (snd (fst x)), snd x).

Ltac rr := repeat (cbn [bind mapR fq fr fa fi fn fl fst snd]; try reflexivity;
  match goal with
  | |- context [bind ?m _] => match m with bind _ _ => fail 1 | _ => destruct m end
  | p : (_ * _)%type |- _ => destruct p
  | |- context [match ?x with _ => _ end] => destruct x
  end).

Lemma qrule_rerun n : forall b st pr l, qruleLoop k n b st pr l = mapR fq (qruleLoop r n b st pr l).
Proof.
  induction n as [|n IH]; intros b st pr l; [reflexivity|]. cbn [qruleLoop].
  assert (Hdef : (if b then '(pr1, l1) <- parseKeyframeSelectorList n l ;; qruleLoop k n b st pr1 l1
      else '(sl, l1) <- parseSelectorList n l ;; qruleLoop k n b st (PrSel sl) l1) =
    mapR fq (if b then '(pr1, l1) <- parseKeyframeSelectorList n l ;; qruleLoop r n b st pr1 l1
      else '(sl, l1) <- parseSelectorList n l ;; qruleLoop r n b st (PrSel sl) l1)).
  { destruct b.
    - destruct (parseKeyframeSelectorList n l) as [[x l1]|p ls|]; cbn [bind]; auto.
    - destruct (parseSelectorList n l) as [[x l1]|p ls|]; cbn [bind]; auto. }
  destruct (l_cur l); try exact Hdef; try reflexivity.
  destruct (parseDeclarationBlock n l) as [[[bsp ds] l1]|p ls|]; reflexivity.
Qed.
Lemma rules_rerun n : forall b l, rulesLoop k n b l = mapR fr (rulesLoop r n b l).
Proof.
  induction n as [|n IH]; intros b l; [reflexivity|]. cbn [rulesLoop].
  assert (Hdef : ('(x, l1) <- parseQualifiedRule k n b l ;; '(rs, e, l2) <- rulesLoop k n b l1 ;; Ok (x :: rs, e, l2)) =
    mapR fr ('(x, l1) <- parseQualifiedRule r n b l ;; '(rs, e, l2) <- rulesLoop r n b l1 ;; Ok (x :: rs, e, l2))).
  { unfold parseQualifiedRule. rewrite qrule_rerun. destruct (qruleLoop r n b _ PrNil l) as [[x l1]|p ls|]; cbn [bind mapR fq fst snd]; auto.
    rewrite IH. destruct (rulesLoop r n b l1) as [[[rs e] l2]|p ls|]; reflexivity. }
  destruct (l_cur l); try exact Hdef; try reflexivity. destruct (next l); reflexivity.
Qed.
Lemma import_rerun n l : parseImportAtRule k n l = mapR fi (parseImportAtRule r n l).
Proof. unfold parseImportAtRule. cbv zeta. rr. Qed.
Lemma custom_rerun n l : parseCustomMediaAtRule k n l = mapR fa (parseCustomMediaAtRule r n l).
Proof. unfold parseCustomMediaAtRule. cbv zeta. rr. Qed.
Lemma generic_rerun n l : parseGenericAtRule k n l = mapR fa (parseGenericAtRule r n l).
Proof. unfold parseGenericAtRule. cbv zeta. rr. Qed.
Lemma media_rerun n l : parseMediaAtRule k n l = mapR fa (parseMediaAtRule r n l).
Proof.
  unfold parseMediaAtRule. cbv zeta. destruct (next l) as [l1|p ls|]; cbn [bind]; auto.
  destruct (parseMediaQueryList n l1) as [[q l2]|p ls|]; cbn [bind]; auto.
  destruct (expect LCurly l2) as [l3|p ls|]; cbn [bind]; auto. rewrite rules_rerun.
  destruct (rulesLoop r n _ l3) as [[[rs e] l4]|p ls|]; reflexivity.
Qed.
Lemma keyframes_rerun n l : parseKeyframes k n l = mapR fa (parseKeyframes r n l).
Proof.
  unfold parseKeyframes. cbv zeta. destruct (next l) as [l1|p ls|]; cbn [bind]; auto.
  match goal with |- context [bind ?m _] => destruct m as [pr|p ls|] end; cbn [bind]; auto.
  destruct (next l1) as [l2|p ls|]; cbn [bind]; auto.
  destruct (expect LCurly l2) as [l3|p ls|]; cbn [bind]; auto. rewrite rules_rerun.
  destruct (rulesLoop r n _ l3) as [[[rs e] l4]|p ls|]; reflexivity.
Qed.
Lemma at_rerun n l : parseAtRule k n l = mapR fn (parseAtRule r n l).
Proof.
  unfold parseAtRule. rewrite import_rerun, media_rerun, keyframes_rerun, custom_rerun, generic_rerun.
  destruct (beq (l_str l) (B "import")); [destruct (parseImportAtRule r n l) as [[[a i] l1]|p ls|]; reflexivity|].
  destruct (beq (l_str l) (B "media")); [destruct (parseMediaAtRule r n l) as [[a l1]|p ls|]; reflexivity|].
  destruct (bmem (l_str l) _); [destruct (parseKeyframes r n l) as [[a l1]|p ls|]; reflexivity|].
  destruct (beq (l_str l) (B "custom-media")); [destruct (parseCustomMediaAtRule r n l) as [[a l1]|p ls|]; reflexivity|].
  destruct (parseGenericAtRule r n l) as [[a l1]|p ls|]; reflexivity.
Qed.
Lemma loop_rerun n : forall l, parseLoop k n l = mapR fl (parseLoop r n l).
Proof.
  induction n as [|n IH]; intros l; [reflexivity|]. cbn [parseLoop].
  assert (Hdef : ('(x, l1) <- parseQualifiedRule k n false l ;; '(nds, iss, l2) <- parseLoop k n l1 ;; Ok (NRule x :: nds, iss, l2)) =
    mapR fl ('(x, l1) <- parseQualifiedRule r n false l ;; '(nds, iss, l2) <- parseLoop r n l1 ;; Ok (NRule x :: nds, iss, l2))).
  { unfold parseQualifiedRule. rewrite qrule_rerun. destruct (qruleLoop r n false _ PrNil l) as [[x l1]|p ls|]; cbn [bind mapR fq fst snd]; auto.
    rewrite IH. destruct (parseLoop r n l1) as [[[rs e] l2]|p ls|]; reflexivity. }
  assert (Hskip : (l1 <- next l ;; parseLoop k n l1) = mapR fl (l1 <- next l ;; parseLoop r n l1)).
  { destruct (next l) as [l1|p ls|]; cbn [bind]; auto. }
  destruct (l_cur l); try exact Hdef; try exact Hskip; try reflexivity.
  rewrite at_rerun. destruct (parseAtRule r n l) as [[[nd is] l1]|p ls|]; cbn [bind mapR fn fst snd]; auto.
  rewrite IH. destruct (parseLoop r n l1) as [[[rs e] l2]|p ls|]; cbn [bind mapR]; auto. unfold fl. cbn [fst snd]. rewrite map_app. reflexivity.
Qed.
Lemma C12_rerun_lemma n content : parse k n content = outcomeOfRun k (parse r n content).
Proof.
  unfold parse. destruct (newLexer content []) as [l|p ls|]; auto. rewrite loop_rerun.
  destruct (parseLoop r n l) as [[[nds is] l1]|[sp m|] ls|]; reflexivity.
Qed.
End WithUnicode.
