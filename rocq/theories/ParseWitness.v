(** Concrete runs of the parser: the refutations and the non-vacuity samples. *)
From Coq Require Import Sorting.Sorted.
From Verif Require Import Bytes Utf8 Source BytesFacts Ast Strip Printer PrinterProofs Lexer LexSpec LexFacts LexNext LexProps Parser ParserSpec ParseMono ParseInv ParseSound ParserProofs ParseResults ParseLines ParseMark ParseRerun Samples.

(** Outcome of a parse at some budget, hence at every larger one. *)
Lemma settled {U : UnicodeDigits} run n content r : parse run n content = r -> r <> ParseTimeout ->
  forall m, (n <= m)%nat -> parse run m content = r.
Proof. intros H Hr m Hm. rewrite <- H. apply parse_stable; congruence. Qed.

(** * C08 *)
Definition text08 := B "a{b c" ++ [LF] ++ B "d;}".
Lemma C08_refuted_lemma : forall (U : UnicodeDigits), exists content ss lines,
  (forall n, (100 <= n)%nat -> parse 0 n content = ParseOk ss lines) /\ lines <> lineStarts content.
Proof.
  intros U. assert (X : exists ss, parse 0 100 text08 = ParseOk ss [0; 6; 6]%nat) by (eexists; vm_compute; reflexivity).
  destruct X as [ss X]. exists text08, ss, [0; 6; 6]%nat. split; [|vm_compute; discriminate].
  intros n Hn. eapply settled; [exact X|discriminate|exact Hn].
Qed.

(** * C10 *)
Definition text10a := B "a{b}".
Definition text10b := B "a{b:calc(;}".
Definition text10c := B "a{b:c} -->".
Definition dummy : lexer := mkLexer 0 0 0 0 [] [] EOF [] [] false false.
Definition get {A} (d : A) (m : res A) : A := match m with Ok a => a | _ => d end.
Lemma visit_block {U : UnicodeDigits} run content l2 :
  let l := get dummy (newLexer content []) in
  let sl := get ((mkSpan 0 0, []), dummy) (parseSelectorList 20 l) in
  newLexer content [] = Ok l -> plainTop (l_cur l) = true ->
  l_cur l <> LCurly -> parseSelectorList 20 l = Ok sl -> l_cur (snd sl) = LCurly -> next (snd sl) = Ok l2 ->
  visits run content InDecls l2.
Proof.
  intros l sl E Hp Hc Es Hl En. eapply vBlock; [|exact Hl|exact En]. rewrite (surjective_pairing sl) in Es.
  eapply vSelectors; [|exact Hc|exact Es].
  apply vTopPrelude; auto. apply vStart; auto.
Qed.
Lemma C10_refuted_lemma : forall (U : UnicodeDigits) run n,
  parse run n (B "a{b}") = ParseTimeout /\ parse run n (B "a{b:calc(;}") = ParseTimeout /\
  parse run n (B "a{b:c} -->") = ParseTimeout.
Proof.
  intros U run n. split; [|split].
  - change (B "a{b}") with text10a.
    set (l2 := mkLexer 125 4 3 2 text10a [0%nat] Ident (B "b") [] false false).
    set (l3 := mkLexer (-1) 4 4 3 text10a [0%nat] RCurly (B "b") [] false false).
    set (l4 := mkLexer (-1) 4 4 4 text10a [0%nat] EOF (B "b") [] false false).
    apply (C10_lost_lemma run _ l2).
    + apply (visit_block run text10a); vm_compute; congruence.
    + split; [discriminate|].
      exists 10%nat, (PLex (mkSpan 3 4) (B "expected :, but got } instead")), [0%nat]. split; [vm_compute; reflexivity|].
      apply (nsNext _ l3); [discriminate|vm_compute; reflexivity|].
      apply (nsNext _ l4); [discriminate|vm_compute; reflexivity|]. apply nsEnd. reflexivity.
  - change (B "a{b:calc(;}") with text10b.
    set (l := mkLexer 58 4 3 2 text10b [0%nat] Ident (B "b") [] false false).
    set (l1 := mkLexer 99 5 4 3 text10b [0%nat] Colon (B "b") [] false false).
    set (l2 := mkLexer 59 10 9 4 text10b [0%nat] FunctionStart (B "calc") [] false false).
    set (l3 := mkLexer 125 11 10 9 text10b [0%nat] Semicolon (B "calc") [] false false).
    apply (C10_stray_lemma run _ l l1 l2 l3); try (vm_compute; reflexivity).
    + apply (visit_block run text10b); vm_compute; congruence.
    + repeat split; try discriminate. intros [H _]. discriminate.
  - change (B "a{b:c} -->") with text10c.
    set (l := mkLexer 45 8 7 7 text10c [0%nat] CDC (B "c") [] false false).
    set (l0 := mkLexer 123 2 1 0 text10c [0%nat] Ident (B "a") [] false false).
    set (r := get (mkRule 0 (mkSpan 0 0) PrNil (mkSpan 0 0) [], dummy) (parseQualifiedRule run 20 false l0)).
    apply (C10_marker_lemma run _ l); [|right; left; reflexivity].
    apply (vRule _ _ l0 20 (fst r) l); [apply vStart; vm_compute; reflexivity|reflexivity|vm_compute; reflexivity].
Qed.

(** All states of the lexer on one file, up to line table and flags. *)
Definition core : Type := Z * (nat * nat * nat) * token * bytes * bytes.
Definition coreOf (l : lexer) : core := (l_ch l, (l_pos l, l_lastPos l, l_start l), l_cur l, l_str l, l_num l).
Definition text10 := B "a{b:min(1px);c}d{e:f;}".
Definition cores10 : list core :=
  [ (123, (2, 1, 0)%nat, Ident, B "a", []);
    (98, (3, 2, 1)%nat, LCurly, B "a", []);
    (58, (4, 3, 2)%nat, Ident, B "b", []);
    (109, (5, 4, 3)%nat, Colon, B "b", []);
    (49, (9, 8, 4)%nat, FunctionStart, B "min", []);
    (41, (12, 11, 8)%nat, Dimension, B "px", B "1");
    (59, (13, 12, 11)%nat, RParen, B "px", B "1");
    (99, (14, 13, 12)%nat, Semicolon, B "px", B "1");
    (125, (15, 14, 13)%nat, Ident, B "c", B "1");
    (100, (16, 15, 14)%nat, RCurly, B "c", B "1");
    (123, (17, 16, 15)%nat, Ident, B "d", B "1");
    (101, (18, 17, 16)%nat, LCurly, B "d", B "1");
    (58, (19, 18, 17)%nat, Ident, B "e", B "1");
    (102, (20, 19, 18)%nat, Colon, B "e", B "1");
    (59, (21, 20, 19)%nat, Ident, B "f", B "1");
    (125, (22, 21, 20)%nat, Semicolon, B "f", B "1");
    (-1, (22, 22, 21)%nat, RCurly, B "f", B "1");
    (-1, (22, 22, 22)%nat, EOF, B "f", B "1") ].
Definition at10 (i : nat) (l : lexer) : Prop := l_content l = text10 /\ nth_error cores10 i = Some (coreOf l).
Lemma next10 i l l1 : at10 i l -> @next asciiOnly l = Ok l1 -> at10 (Nat.min (S i) 17) l1.
Proof.
  intros [Hc Hi] E. destruct l as [ch pos lp st cont lines cur str num rw rc]. unfold coreOf in Hi. cbn in Hc, Hi. subst cont.
  do 18 (destruct i as [|i]; [cbn [nth_error cores10] in Hi; inversion Hi; subst; clear Hi; destruct rw, rc; vm_compute in E;
    inversion E; subst; (split; [reflexivity|vm_compute; reflexivity])|]).
  destruct i; discriminate Hi.
Qed.
Lemma states10 l : @pstate asciiOnly text10 l -> exists i, at10 i l.
Proof.
  induction 1 as [l E|l ws com H [i IH]|l ls H [i IH]|l l1 H [i IH] E].
  - exists 0%nat. vm_compute in E. inversion E; subst. split; [reflexivity|vm_compute; reflexivity].
  - exists i. exact IH.
  - exists i. exact IH.
  - eexists. eapply next10; eauto.
Qed.
Lemma call10 l0 d l : at10 4 l0 -> @inCall asciiOnly l0 d l -> d = 1%nat /\ (at10 5 l \/ at10 6 l).
Proof.
  intros H0. induction 1 as [l1 E|d l l1 H [-> [IH|IH]] E Hd].
  - split; auto. left. exact (next10 _ _ _ H0 E).
  - destruct IH as [I1 I2]. assert (Hcur : l_cur l = Dimension) by (vm_compute in I2; unfold coreOf in I2; injection I2; auto).
    rewrite Hcur. split; auto. right. apply (next10 5 l l1); auto. split; auto.
  - destruct IH as [I1 I2]. assert (Hcur : l_cur l = RParen) by (vm_compute in I2; unfold coreOf in I2; injection I2; auto).
    rewrite Hcur in Hd. cbn in Hd. lia.
Qed.
Lemma cur10 i l c : at10 i l -> nth_error cores10 i = Some c -> l_cur l = snd (fst (fst c)).
Proof. intros [_ H] E. rewrite H in E. inversion E. reflexivity. Qed.
Lemma good10 : ~ @badMath asciiOnly text10.
Proof.
  assert (Hfun : forall l, @pstate asciiOnly text10 l -> l_cur l = FunctionStart -> at10 4 l).
  { intros l Hp Hc. destruct (states10 l Hp) as [i Hi]. pose proof Hi as [_ Hn].
    do 18 (destruct i as [|i]; [cbn [nth_error cores10] in Hn; first [exact Hi|
      exfalso; unfold coreOf in Hn; inversion Hn; congruence]|]).
    destruct i; discriminate Hn. }
  assert (Hdang : forall i l l', at10 i l -> In i [4; 5; 6]%nat -> ~ @danglingOperator asciiOnly l l').
  { intros i l l' Hi Hn (E & H). pose proof (next10 _ _ _ Hi E) as Hi'.
    assert (X : l_cur l <> Delim /\ l_cur l' <> Delim).
    { cbn [In] in Hn. destruct Hn as [Hn|[Hn|[Hn|[]]]]; subst i; cbn [Nat.min] in Hi';
        rewrite (cur10 _ _ _ Hi eq_refl), (cur10 _ _ _ Hi' eq_refl); split; discriminate. }
    destruct H as [[[H _] _]|[[H _] _]]; tauto. }
  intros (l & [[(l0 & d & Hp & Hf & Hm & Hic) H]|(l' & Hp & Hf & Hm & H)]).
  - destruct (call10 _ _ _ (Hfun _ Hp Hf) Hic) as [_ Hi]. destruct H as [H|[l' H]].
    + destruct H as (H1 & H2 & _). destruct Hi as [Hi|Hi]; pose proof (cur10 _ _ _ Hi eq_refl) as Hcur; cbn in Hcur; rewrite Hcur in *; [discriminate|congruence].
    + destruct Hi as [Hi|Hi]; (eapply Hdang; [exact Hi| |exact H]; cbn; tauto).
  - eapply Hdang; [apply Hfun; eauto| |exact H]. cbn; tauto.
Qed.
Lemma stuck10 : forall i, ~ @stuck asciiOnly (skipn i text10).
Proof.
  intros i. do 22 (destruct i as [|i]; [eapply noDot_notStuck; [reflexivity| | | |]; discriminate|]).
  rewrite skipn_all2 by (cbn; lia). apply nil_notStuck.
Qed.
Lemma parse10 : exists ss lines, @parse asciiOnly 0 100 text10 = ParseOk ss lines /\ print None (ss_nodes ss) = Some (B "a{b:min(1px);c}d{e:f;}").
Proof. eexists. eexists. split; [vm_compute; reflexivity|vm_compute; reflexivity]. Qed.
Lemma C10_sample_lemma : let content := B "a{b:min(1px);c}d{e:f;}" in
  (forall i, ~ @stuck asciiOnly (skipn i content)) /\ ~ @badMath asciiOnly content /\
  (forall l, @visits asciiOnly 0 content InDecls l -> ~ @lostDeclaration asciiOnly l).
Proof.
  change (B "a{b:min(1px);c}d{e:f;}") with text10. cbv zeta. split; [exact stuck10|]. split; [exact good10|].
  intros l Hv Hl. destruct parse10 as (ss & lines & E & _). rewrite (C10_lost_lemma 0 text10 l Hv Hl 100) in E. discriminate.
Qed.

(** * C11 *)
Lemma C11_refuted_lemma : forall (U : UnicodeDigits) run n, (100 <= n)%nat ->
  parse run n (B "@custom-media --x;") = ParseCrash /\ parse run n (B "/*") = ParseCrash /\
  parse run n (B "a[b=calc(+)]{}") = ParseCrash.
Proof.
  intros U run n Hn. repeat split; (eapply settled; [|discriminate|exact Hn]; vm_compute; reflexivity).
Qed.
Lemma C11_sample_lemma : let content := B "a{b:min(1px);c}d{e:f;}" in
  (exists l, @newLexer asciiOnly content [] = Ok l) /\ ~ @badMath asciiOnly content /\ ~ @badCustomMedia asciiOnly content.
Proof.
  change (B "a{b:min(1px);c}d{e:f;}") with text10. cbv zeta. split; [eexists; vm_compute; reflexivity|]. split; [exact good10|].
  intros (l & l1 & l2 & Hp & Hc & _). destruct (states10 l Hp) as [i Hi]. pose proof Hi as [_ Hn].
  do 18 (destruct i as [|i]; [cbn [nth_error cores10] in Hn; unfold coreOf in Hn; inversion Hn; congruence|]).
  destruct i; discriminate Hn.
Qed.
(** A reported error, with its place. *)
Lemma C11_error_lemma : @parse asciiOnly 0 100 (B "a,{}") = ParseErr (mkSpan 2 3) (B "expected selector") [0%nat].
Proof. vm_compute. reflexivity. Qed.

(** * C13 *)
(** The text of the two rules after the broken declaration ends up in it. *)
Lemma C13_neighbours_refuted_lemma : forall (U : UnicodeDigits), exists ss lines sp lsp sels bsp dsp,
  (forall n, (100 <= n)%nat -> parse 0 n (B "a{b}c{d:e;}") = ParseOk ss lines) /\
  ss_nodes ss = [NRule (mkRule 0 sp (PrSel (lsp, sels)) bsp [DRaw dsp (B "b}c{d:e;")])].
Proof.
  intros U. assert (X : exists sp lsp sels bsp dsp, parse 0 100 (B "a{b}c{d:e;}") =
    ParseOk (mkSheet [NRule (mkRule 0 sp (PrSel (lsp, sels)) bsp [DRaw dsp (B "b}c{d:e;")])] []) [0%nat]).
  { exists (mkSpan 0 11), (mkSpan 0 1), [(mkSpan 0 1, [SType (mkSpan 0 1) (B "a")])], (mkSpan 1 11), (mkSpan 2 10). vm_compute. reflexivity. }
  destruct X as (sp & lsp & sels & bsp & dsp & X).
  exists (mkSheet [NRule (mkRule 0 sp (PrSel (lsp, sels)) bsp [DRaw dsp (B "b}c{d:e;")])] []), [0%nat], sp, lsp, sels, bsp, dsp.
  split; [|reflexivity]. intros n Hn. eapply settled; [exact X|discriminate|exact Hn].
Qed.
Definition text13 := B "a{b c;d:e}".
Definition l13 := mkLexer 32 4 3 2 text13 [0%nat] Ident (B "b") [] false false.
Definition ls13 := mkLexer 100 7 6 5 text13 [0%nat] Semicolon (B "c") [] false false.
Lemma C13_sample_lemma : exists l n p lines ls l2, @visits asciiOnly 0 (B "a{b c;d:e}") InDecls l /\
  @parseDeclaration asciiOnly n l = Panic p lines /\ @toSemicolon asciiOnly (setLines l lines) ls /\ @next asciiOnly ls = Ok l2 /\
  sub (B "a{b c;d:e}") (l_start l) (l_lastPos ls) = B "b c;" /\ l_str l2 = B "d".
Proof.
  change (B "a{b c;d:e}") with text13.
  exists l13, 20%nat, (PLex (mkSpan 4 5) (B "expected :, but got IDENT instead")), [0%nat], ls13,
    (mkLexer 58 8 7 6 text13 [0%nat] Ident (B "d") [] false false).
  split; [|split; [|split; [|split; [|split]]]]; try (vm_compute; reflexivity).
  - apply (@visit_block asciiOnly 0 text13); vm_compute; congruence.
  - apply (tsNext _ (mkLexer 59 6 5 4 text13 [0%nat] Ident (B "c") [] false false)); [discriminate|vm_compute; reflexivity|].
    apply (tsNext _ ls13); [discriminate|vm_compute; reflexivity|]. apply tsHere. reflexivity.
Qed.

(** * C14, C15, C31 *)
Definition text15b := B "@import ""x"" screen;a>b:not(.c)[d='e'],*{f:calc(1px+(2*3px)) !important}@import url(y);@media (1px<width<2px){}h{i:j;k:l}@keyframes m{from,50%{n:o}}".
Lemma C15_sample_lemma : exists ss lines, @parse asciiOnly 0 200 text15b = ParseOk ss lines /\
  length (ss_nodes ss) = 6%nat /\ map fst (ss_imports ss) = [B "x"; B "y"] /\ ~ Exists unprintable (ss_nodes ss).
Proof.
  destruct (@parse asciiOnly 0 200 text15b) as [ss lines| | |] eqn:E; try (vm_compute in E; discriminate).
  exists ss, lines. split; auto. pose proof (C18_lemma 0 200 text15b ss lines E) as P.
  vm_compute in E. inversion E; subst. clear E. split; [reflexivity|]. split; [reflexivity|].
  rewrite <- P. vm_compute. discriminate.
Qed.

(** * C16, C17 *)
(** A file that parses, and whose printed form does not parse to the same
    stylesheet. *)
Definition lossy (content : bytes) : Prop :=
  exists ss lines text, @parse asciiOnly 0 100 content = ParseOk ss lines /\ print None (ss_nodes ss) = Some text /\
    forall n ss' lines', (100 <= n)%nat -> @parse asciiOnly 0 n text = ParseOk ss' lines' -> strip (ss_nodes ss') <> strip (ss_nodes ss).
Lemma lossy_intro content ss lines text r : @parse asciiOnly 0 100 content = ParseOk ss lines -> print None (ss_nodes ss) = Some text ->
  @parse asciiOnly 0 100 text = r -> r <> ParseTimeout ->
  match r with ParseOk ss' _ => strip (ss_nodes ss') <> strip (ss_nodes ss) | _ => True end -> lossy content.
Proof.
  intros H1 H2 H3 H4 H5. exists ss, lines, text. split; auto. split; auto. intros n ss' lines' Hn E.
  pose proof (@settled asciiOnly 0 100 text r H3 H4 n Hn) as X. rewrite E in X. subst r. rewrite <- X in H5. exact H5.
Qed.
Ltac lose := eapply lossy_intro; [vm_compute; reflexivity|vm_compute; reflexivity|vm_compute; reflexivity|discriminate|
  cbv beta iota; first [exact I|intros X; vm_compute in X; discriminate X]].
Lemma C16_refuted_lemma :
  lossy (B "a[b^=c]{d:e}") /\ lossy (B "a[b=c i]{d:e}") /\ lossy (B "@keyframes a{1%,2%{b:c}}") /\
  lossy (B "@keyframes a{from,to{b:c}}") /\ lossy (B "a{b:c(d e)}") /\ lossy (B "a{b:'""'}") /\ lossy (B "a{b:calc(1px + 2px)}").
Proof.
  split; [lose|]. split; [lose|]. split; [lose|]. split; [lose|]. split; [lose|]. split; [lose|]. lose.
Qed.
(** Two files that parse to different trees and print the same. *)
Definition confused (c1 c2 : bytes) : Prop :=
  exists s1 l1 s2 l2 text, @parse asciiOnly 0 100 c1 = ParseOk s1 l1 /\ @parse asciiOnly 0 100 c2 = ParseOk s2 l2 /\
    strip (ss_nodes s1) <> strip (ss_nodes s2) /\ print None (ss_nodes s1) = Some text /\ print None (ss_nodes s2) = Some text.
Ltac confuse := unfold confused; do 5 eexists; split; [vm_compute; reflexivity|]; split; [vm_compute; reflexivity|];
  split; [vm_compute; discriminate|]; split; vm_compute; reflexivity.
Lemma C17_refuted_lemma :
  confused (B "a[b^=c]{d:e}") (B "a[b=c]{d:e}") /\
  confused (B "a[b=c i]{d:e}") (B "a[b=c]{d:e}") /\
  confused (B "a{b:c(d e)}") (B "a{b:c(de)}") /\
  confused (B "a{b:'"" ""'}") (B "a{b:"""" """"}").
Proof. split; [confuse|]. split; [confuse|]. split; confuse. Qed.

(** * C18 *)
Lemma C18_refuted_lemma : forall (U : UnicodeDigits), 
  Forall (fun content => exists ss lines, (forall n, (100 <= n)%nat -> parse 0 n content = ParseOk ss lines) /\ print None (ss_nodes ss) = None)
    [B "{a:b}"; B "@media {a{b:c}}"; B "a{b:calc(())}"].
Proof.
  intros U. assert (X : forall content ss lines, parse 0 100 content = ParseOk ss lines -> print None (ss_nodes ss) = None ->
    exists ss lines, (forall n, (100 <= n)%nat -> parse 0 n content = ParseOk ss lines) /\ print None (ss_nodes ss) = None).
  { intros content ss lines H1 H2. exists ss, lines. split; auto. intros n Hn. eapply settled; [exact H1|discriminate|exact Hn]. }
  repeat constructor; (eapply X; [vm_compute; reflexivity|vm_compute; reflexivity]).
Qed.

(** * C12, C13, C31 *)
Lemma C12_lemma {U : UnicodeDigits} run run' content n m : parse run n content <> ParseTimeout -> parse run' m content <> ParseTimeout ->
  parse run' m content = outcomeOfRun run' (parse run n content).
Proof.
  intros H1 H2. rewrite <- C12_rerun_lemma. apply parse_agree; auto. rewrite (C12_rerun_lemma run run').
  destruct (parse run n content); auto; discriminate.
Qed.
Definition sheet13 := match @parse asciiOnly 0 100 text13 with ParseOk ss _ => ss | _ => mkSheet [] [] end.
Lemma C13_verbatim_sample_lemma : exists ss lines nd, @parse asciiOnly 0 100 (B "a{b c;d:e}") = ParseOk ss lines /\
  print None (ss_nodes ss) = Some (B "a{b c;;d:e}") /\ In nd (ss_nodes ss) /\ In (DRaw (mkSpan 2 6) (B "b c;")) (nodeDecls nd).
Proof.
  exists sheet13, [0%nat], (hd (NRule (mkRule 0 (mkSpan 0 0) PrNil (mkSpan 0 0) [])) (ss_nodes sheet13)).
  split; [vm_compute; reflexivity|]. split; [vm_compute; reflexivity|]. vm_compute. auto.
Qed.
Lemma C31_parsed_sample_lemma : exists ss lines, @parse asciiOnly 0 200 text15b = ParseOk ss lines /\ ~ Exists blocked (ss_nodes ss).
Proof.
  destruct C15_sample_lemma as (ss & lines & E & _ & _ & H). exists ss, lines. split; auto. intros X. apply H.
  eapply Exists_impl; [|exact X]. intros [r|a] Hb; [left; constructor; exact Hb|right; left; exact Hb].
Qed.
