(** Printing and parsing back. *)
From Verif Require Import Bytes Utf8 Source Ast AstInd Lexer Parser Printer Strip Samples ParseWitness.
From Verif Require Import BytesFacts LexSpec LexFacts LexProps PrinterProofs PrintStrip RoundSpec RoundLex RoundValue RoundDecl RoundSel RoundSheet.

(** * Trailing white space is not printed *)
Lemma cat_nil a : a +++ nop = a. Proof. destruct a as [x|]; [|reflexivity]. unfold nop, cat. rewrite app_nil_r. reflexivity. Qed.
Lemma cat_assoc a b c : (a +++ b) +++ c = a +++ b +++ c.
Proof. destruct a, b, c; try reflexivity. unfold cat. rewrite <- app_assoc. reflexivity. Qed.
Lemma nop_cat a : nop +++ a = a. Proof. destruct a; reflexivity. Qed.
Lemma printParts_last l x : printParts (l ++ [x]) = all printPart l +++ (if Printer.isWs x then nop else printPart x).
Proof.
  induction l as [|p l IH]; cbn [app printParts all]; [rewrite nop_cat; reflexivity|].
  rewrite IH, cat_assoc. destruct (l ++ [x]) eqn:E; [destruct l; discriminate|reflexivity].
Qed.
Lemma all_last {A} (f : A -> ops) l x : all f (l ++ [x]) = all f l +++ f x.
Proof. induction l as [|p l IH]; cbn [app all]; [rewrite cat_nil, nop_cat; reflexivity|]. rewrite IH, cat_assoc. reflexivity. Qed.
Lemma touching_last l p q : touching (l ++ [p; q]) = true -> touches p q = true.
Proof.
  induction l as [|a l IH]; cbn [app touching]; [rewrite andb_true_iff; tauto|].
  destruct (l ++ [p; q]) eqn:E; [destruct l; discriminate|]. rewrite andb_true_iff. rewrite <- E in *. intros [_ H]. auto.
Qed.
Lemma trim_print ps : touching ps = true -> printParts (trimParts ps) = printParts ps.
Proof.
  intros T. unfold trimParts. destruct (rev ps) as [|x r] eqn:E; [reflexivity|]. destruct x; try reflexivity.
  assert (Ep : ps = rev r ++ [SWhitespace sp]) by (rewrite <- (rev_involutive ps), E; reflexivity). subst ps. clear E.
  rewrite printParts_last. cbn [Printer.isWs]. rewrite cat_nil. destruct r as [|y r]; [reflexivity|]. cbn [rev] in *.
  rewrite <- app_assoc in T. cbn [app] in T. apply touching_last in T. rewrite printParts_last, all_last.
  destruct y; try reflexivity. discriminate.
Qed.
Lemma touches_tidy p q : touches p q = touches (tidyPart p) (tidyPart q).
Proof. destruct p as [| | | | |? ? []|? ? ? []|], q; reflexivity. Qed.
Lemma touching_tidy ps : touching (map tidyPart ps) = touching ps.
Proof. induction ps as [|p [|q ps] IH]; auto. cbn [map touching] in *. rewrite IH, <- touches_tidy. reflexivity. Qed.
Lemma isWs_tidy p : Printer.isWs (tidyPart p) = Printer.isWs p. Proof. destruct p; reflexivity. Qed.
Lemma sels_tidy sels : Forall (fun s => touching (snd s) = true /\ Forall (fun p => printPart (tidyPart p) = printPart p) (snd s)) sels ->
  printSelList (map tidySelector sels) = printSelList sels.
Proof.
  intros F. unfold printSelList. rewrite sepBy_map. apply sepBy_ext. eapply Forall_impl; [|exact F].
  intros s (T & H). unfold printSelector, tidySelector. cbn [snd]. rewrite trim_print by (rewrite touching_tidy; exact T).
  apply printParts_map; auto. apply isWs_tidy.
Qed.
Lemma args_tidy n (a : pargs selpart) :
  Forall (fun s => Forall (fun p => okPart p = true -> printPart (tidyPart p) = printPart p) (snd s)) (argParts a) ->
  okPart (SPseudo sp0 n a) = true -> printArgs (tidyArgs a) = printArgs a.
Proof.
  intros F O. destruct a; try reflexivity. cbn [tidyArgs printArgs]. cbn [argParts] in F. rewrite sels_tidy; [reflexivity|].
  cbn [okPart] in O. rewrite !andb_true_iff in O. destruct O as [_ [_ O]]. rewrite forallb_forall in O. rewrite Forall_forall in F.
  apply Forall_forall. intros s I. specialize (O s I). rewrite !andb_true_iff in O. destruct O as [[_ O] T]. split; auto.
  specialize (F s I). rewrite Forall_forall in F. apply Forall_forall. intros p Ip. apply F; auto. rewrite forallb_forall in O. auto.
Qed.
Lemma part_tidy p : okPart p = true -> printPart (tidyPart p) = printPart p.
Proof.
  induction p using selpart_ind'; intros O; try reflexivity.
  - assert (E : tidyPart (SPseudo sp n a) = SPseudo sp n (tidyArgs a)) by (destruct a; reflexivity).
    rewrite E, !printPart_eq, (args_tidy n a); auto.
  - assert (E : tidyPart (SPseudoEl sp isp n a) = SPseudoEl sp isp n (tidyArgs a)) by (destruct a; reflexivity).
    rewrite E, !printPart_eq, (args_tidy n a); auto.
Qed.
Lemma rule_tidy r : okRule r = true \/ okFrame r = true -> printRule (tidyRule r) = printRule r.
Proof.
  intros O. unfold printRule, tidyRule. cbn [r_sp r_prelude r_decls]. destruct (r_prelude r) as [|[s sels]|s ks] eqn:E; try reflexivity.
  cbn [printPrelude]. rewrite sels_tidy; [reflexivity|]. destruct O as [O|O]; [|unfold okFrame in O; rewrite E in O; discriminate].
  unfold okRule in O. rewrite E, !andb_true_iff in O. destruct O as [[_ O] _]. rewrite forallb_forall in O.
  apply Forall_forall. intros x I. specialize (O x I). unfold okSelector in O. rewrite !andb_true_iff in O. destruct O as [[_ O] T].
  split; auto. rewrite forallb_forall in O. apply Forall_forall. intros p Ip. apply part_tidy; auto.
Qed.
Lemma node_tidy nd : writable nd = true -> printNode (tidyNode nd) = printNode nd.
Proof.
  destruct nd as [r|a]; cbn [writable tidyNode printNode]; intros O; [apply rule_tidy; auto|].
  apply at_form in O. unfold printAt. cbn [ar_sp ar_name ar_preludes ar_block].
  assert (X : forall rs, (forall r, In r rs -> okRule r = true \/ okFrame r = true) -> all printRule (map tidyRule rs) = all printRule rs).
  { intros rs H. rewrite all_map. apply all_ext. apply Forall_forall. intros r I. apply rule_tidy; auto. }
  destruct O; cbn [ar_sp ar_name ar_preludes ar_block option_map printBlock]; try reflexivity;
    (rewrite X; [reflexivity|]; intros r I; first [left; eapply forallb_in; [eassumption|exact I] | right; eapply forallb_in; [eassumption|exact I]]).
Qed.
Lemma print_tidy ns : forallb writable ns = true -> print None (tidy ns) = print None ns.
Proof.
  intros O. apply same_print. unfold printNodes, tidy. rewrite all_map. apply same_all. apply Forall_forall. intros nd I.
  rewrite node_tidy by (eapply forallb_in; eauto). apply same_refl.
Qed.

(** * The round trip *)
Lemma sheet_text ns : forallb writable ns = true -> print None ns = Some (sheettext ns).
Proof. intros O. destruct (txt_sheet ns O) as (l & El & Et). apply print_none_iff. exists l. auto. Qed.
Lemma read_back {U : UnicodeDigits} run ns q : forallb writable ns = true -> ending q ->
  exists ss lines n0, (forall n, (n0 <= n)%nat -> parse run n (sheettext ns ++ q) = ParseOk ss lines) /\
    strip (ss_nodes ss) = strip (tidy ns).
Proof.
  intros O Eq. destruct (sheet_read run ns q O Eq) as ((L & E) & R). set (T := sheettext ns ++ q) in *.
  destruct (first_step T) as (F1 & F2 & F3 & _).
  pose proof (step_frame (zeroLexer T [])) as (_ & _ & _ & _ & Fw & Fc).
  destruct (next_is (step (zeroLexer T [])) T F2) as (l0 & E0 & I0 & W0); auto.
  { unfold rest. rewrite F3, F1. reflexivity. }
  rewrite Fw in W0. destruct (R l0 I0 W0) as (ns' & imps & l' & (n0 & EN) & D).
  exists (mkSheet ns' imps), (l_lines l'), n0. split; [|exact D].
  intros n Ln. unfold parse, newLexer. rewrite E0, EN by lia. reflexivity.
Qed.
Lemma round_trip {U : UnicodeDigits} run ns : forallb writable ns = true ->
  exists css ss lines n0, print None ns = Some css /\
    (forall n, (n0 <= n)%nat -> parse run n css = ParseOk ss lines) /\
    strip (ss_nodes ss) = strip (tidy ns) /\ print None (ss_nodes ss) = Some css.
Proof.
  intros O. exists (sheettext ns). destruct (read_back run ns [] O ending_nil) as (ss & lines & n0 & E & D). rewrite app_nil_r in E.
  exists ss, lines, n0. split; [apply sheet_text; auto|]. split; auto. split; auto.
  rewrite <- print_strip, D, print_strip, print_tidy by auto. apply sheet_text; auto.
Qed.
Lemma injective (U : UnicodeDigits) ns ms css : forallb writable ns = true -> forallb writable ms = true ->
  print None ns = Some css -> print None ms = Some css -> strip (tidy ns) = strip (tidy ms).
Proof.
  intros O1 O2 E1 E2. destruct (round_trip 0 ns O1) as (c1 & s1 & i1 & n1 & P1 & R1 & D1 & _).
  destruct (round_trip 0 ms O2) as (c2 & s2 & i2 & n2 & P2 & R2 & D2 & _).
  rewrite P1 in E1. rewrite P2 in E2. injection E1 as ->. injection E2 as ->.
  specialize (R1 (n1 + n2)%nat ltac:(lia)). specialize (R2 (n1 + n2)%nat ltac:(lia)). rewrite R1 in R2. injection R2 as -> _. congruence.
Qed.

(** * A stylesheet with every construct *)
Definition text16 : bytes := B "@import 'a.css' screen and (min-width: 5px), print; @custom-media --s (300px <= width <= 700px);
a > b.c#d:not(e, f ):nth-child(2n+1)::before , *[x=""y""] , p::after {
 color: red ; margin: 1px -2em auto !important; --v: [a b]; background: url(x.png) , rgba(0,calc(2px*3),var(--z, #fff)); width: calc((1px)*2/4) }
@media (width) and (width >= 300px) { a b { c : d } } @keyframes k { from { a: b } 50% { c:d } } @font-face { x: y; }".
Definition css16 : bytes := B "@import ""a.css"" screen and (min-width:5px),print;@custom-media --s (300px<=width<=700px);a > b.c#d:not(e, f):nth-child(2n+1)::before,*[x=""y""],p::after{color:red;margin:1px -2em auto!important;--v:[a b];background:url(x.png),rgba(0,calc(2px*3),var(--z,#fff));width:calc((1px)*2/4)}@media (width) and (width>=300px){a b{c:d}}@keyframes k{from{a:b}50%{c:d}}@font-face{x:y}".
Definition good16 (ns : list node) : bool :=
  forallb writable ns && (length ns =? 6)%nat && match print None ns with Some c => beq c css16 | None => false end.
Lemma good16_split ns : good16 ns = true -> length ns = 6%nat /\ forallb writable ns = true /\ print None ns = Some css16.
Proof.
  unfold good16. rewrite !andb_true_iff. intros [[H1 H2] H3]. split; [apply Nat.eqb_eq; auto|]. split; auto.
  destruct (print None ns); [|discriminate]. apply beq_eq in H3. congruence.
Qed.
Definition end16 (ns : list node) : nat := match rev ns with NAt a :: _ => sp_end (ar_sp a) | _ => 0%nat end.
Definition both16 (r r' : parseOutcome) : bool :=
  match r, r' with
  | ParseOk ss _, ParseOk ss' _ => good16 (ss_nodes ss) && good16 (ss_nodes ss') && negb (end16 (ss_nodes ss) =? end16 (ss_nodes ss'))%nat
  | _, _ => false
  end.
Lemma check16 : both16 (@parse asciiOnly 0 500 text16) (@parse asciiOnly 0 500 css16) = true.
Proof. vm_compute. reflexivity. Qed.
Lemma split16 r r' : both16 r r' = true ->
  exists ss lines ss' lines', r = ParseOk ss lines /\ r' = ParseOk ss' lines' /\ ss_nodes ss <> ss_nodes ss' /\
  length (ss_nodes ss) = 6%nat /\ forallb writable (ss_nodes ss) = true /\ forallb writable (ss_nodes ss') = true /\
  print None (ss_nodes ss) = Some css16 /\ print None (ss_nodes ss') = Some css16.
Proof.
  intros H. destruct r as [ss lines| | |]; try discriminate. destruct r' as [ss' lines'| | |]; try discriminate.
  cbn [both16] in H. rewrite !andb_true_iff in H. destruct H as [[H1 H2] H3]. apply good16_split in H1, H2. exists ss, lines, ss', lines'.
  split; auto. split; auto. split; [|tauto]. intros E. rewrite E, Nat.eqb_refl in H3. discriminate.
Qed.
Lemma C17_sample_lemma : exists ss lines ss' lines', @parse asciiOnly 0 500 text16 = ParseOk ss lines /\
  @parse asciiOnly 0 500 css16 = ParseOk ss' lines' /\ ss_nodes ss <> ss_nodes ss' /\
  forallb writable (ss_nodes ss) = true /\ forallb writable (ss_nodes ss') = true /\
  print None (ss_nodes ss) = Some css16 /\ print None (ss_nodes ss') = Some css16.
Proof.
  destruct (split16 _ _ check16) as (ss & lines & ss' & lines' & H1 & H2 & H3 & H4 & H5 & H6 & H7 & H8).
  exists ss, lines, ss', lines'. exact (conj H1 (conj H2 (conj H3 (conj H5 (conj H6 (conj H7 H8)))))).
Qed.
Lemma C16_sample_lemma : exists ss lines, @parse asciiOnly 0 500 text16 = ParseOk ss lines /\
  length (ss_nodes ss) = 6%nat /\ forallb writable (ss_nodes ss) = true /\ print None (ss_nodes ss) = Some css16.
Proof.
  destruct (split16 _ _ check16) as (ss & lines & ss' & lines' & H1 & H2 & H3 & H4 & H5 & H6 & H7 & H8).
  exists ss, lines. exact (conj H1 (conj H4 (conj H5 H7))).
Qed.
Lemma C16_more_lemma :
  lossy (B "a:nth-child(n - 2){b:c}") /\ lossy (B "a:nth-child(-5){b:c}") /\ lossy (B "a:nth-child(0){b:c}") /\
  lossy (B "a:nth-child(1n+2){b:c}").
Proof. split; [lose|]. split; [lose|]. split; lose. Qed.
