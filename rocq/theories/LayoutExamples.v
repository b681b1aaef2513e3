(** White space and comments added: examples. *)
From Verif Require Import Bytes Utf8 Source Lexer BytesFacts LexSpec Ast Parser Printer PrinterSpec Transformer Resolver Compile CompileSpec ReadSpec ReadProofs LexStreamSpec LexStream FullExamples LexExamples
  Samples TransSamples CompileSamples CompileWitness TwiceExamples AgainSpec JoinSpec LayoutSpec LayoutTokens LayoutProofs.
#[local] Existing Instance asciiOnly.
#[local] Existing Instance milli.

(** The file of C49 with a line for every declaration. *)
Definition pretty49 : bytes := B "/* head */" ++ [LF] ++ B "@import 'x' print;" ++ [CR; LF] ++ B "a .b{" ++ [LF] ++ B "  *d: calc(2*i) !important /* ! */;/* ; */" ++ [LF] ++ B "  e : f" ++ [LF] ++ B "}" ++ [LF].
Definition toks49 : list tk := [t1; t2; t3; t4; t5; t6; t7; t8; t9; t10; t11; t12; t13; t14; t15; t16; t17; t18; t19; t20; t21; t22; t23; t24].
Lemma nodes49 : gNodes (L := false) text49 0 toks49 tree49.
Proof.
  apply (gnAt (L := false) text49 0 [t1; t2; t3] _ [t4; t5; t6; t7; t8; t9; t10; t11; t12; t13; t14; t15; t16; t17; t18; t19; t20; t21; t22; t23; t24]).
  - apply (gaImportMedia (L := false) text49 0 t1 [t2] (sp 8 11) (B "x") [t3] (snd query49)); [tokens|reflexivity|apply (gtString t2); tokens| |discriminate].
    apply (gqsOne [t3] [MIdent (sp 12 17) (B "print")]). apply (gqCons [t3] _ [] []); [apply (gqIdent t3); tokens|apply gqNil].
  - apply gnSkip; [left; tokens|].
    apply (gnRule (L := false) text49 0 [t5; t6; t7; t8; t9; t10; t11; t12; t13; t14; t15; t16; t17; t18; t19; t20; t21; t22; t23; t24] _ [] []); [|apply gnNil].
    exact (grSel (L := false) text49 0 [t5; t6; t7; t8] _ true t9 _ _ _ selectors49 (conj eq_refl eq_refl) body49).
  - right. right. exists t4. eexists. split; [reflexivity|tokens].
Qed.
Lemma toks49_lemma : tokenized text49 toks49.
Proof. apply C50_tokens_lemma. exact tokens49. Qed.
(** Where there is room. *)
Definition isPunct (k : token) : bool := match k with Semicolon | Colon | Comma | LParen | RParen | LBracket | RBracket | LCurly | RCurly => true | _ => false end.
Definition apartb (v : bytes) : bool := match v with b :: _ => existsb (Byte.eqb b) [SP; TAB; LF; "/"; ";"; ":"; ","; "("; ")"; "["; "]"; "{"; "}"]%byte | [] => false end.
Definition signb (s : bytes) : bool := existsb (fun x => if (list_eq_dec Byte.byte_eq_dec) s x then true else false) [B "^"; B "~"; B "$"; B "*"; B "|"].
Definition looseb (u v : bytes) (x : tk) (y : option tk) : bool :=
  match k_tok x with Whitespace | Delim => false | _ => true end &&
  forallb (fun b => negb (Byte.eqb b "\") && negb (Byte.eqb b CR)) (skipn (from x) u) && apartb v &&
  match y with Some y => negb (signb (k_str y)) | None => true end.
Definition roomb (u v : bytes) (ts : list tk) (i : nat) : bool :=
  match nth_error ts i with
  | Some x => Nat.eqb (upto x) (length u) && (isPunct (k_tok x) || looseb u v x (nth_error ts (S i))) && match nth_error ts (S i) with Some y => negb (k_kept y) | None => true end
  | None => false
  end.
Lemma apart_compute v : apartb v = true -> apart v.
Proof.
  destruct v as [|b v]; [discriminate|]. intros H. apply existsb_exists in H as (c & J & E). apply byte_eqb_eq in E. subst c. left. exists b, v. auto.
Qed.
Lemma loose_compute u v x y : looseb u v x y = true ->
  k_tok x <> Whitespace /\ ~ In "\"%byte (skipn (from x) u) /\ ~ In CR (skipn (from x) u) /\ apart v /\
  match y with Some y => ~ (k_tok x = Delim /\ saysImportant (k_str y) \/ k_tok x = Ident /\ In (k_str y) [B "^"; B "~"; B "$"; B "*"; B "|"]) | None => True end.
Proof.
  unfold looseb. intros H. apply andb_prop in H as [H H4]. apply andb_prop in H as [H H3]. apply andb_prop in H as [H1 H2]. rewrite forallb_forall in H2.
  split; [intros E; rewrite E in H1; discriminate|].
  split; [intros J; specialize (H2 _ J); discriminate|]. split; [intros J; specialize (H2 _ J); discriminate|].
  split; [apply apart_compute, H3|]. destruct y as [y|]; [|exact I]. intros [[E _]|[_ J]]; [rewrite E in H1; discriminate|].
  assert (X : signb (k_str y) = true) by (apply existsb_exists; exists (k_str y); split; [exact J|destruct (list_eq_dec Byte.byte_eq_dec (k_str y) (k_str y)); congruence]).
  rewrite X in H4. discriminate.
Qed.
Lemma room_compute u v ts i : roomb u v ts i = true -> room u v ts.
Proof.
  unfold roomb. intros H. destruct (nth_error ts i) as [x|] eqn:E; [|discriminate]. apply andb_prop in H as [H H2]. apply andb_prop in H as [L H1]. apply Nat.eqb_eq in L.
  exists (firstn (S i) ts), (skipn (S i) ts). split; [symmetry; apply firstn_skipn|].
  assert (Hd : skipn (S i) ts = match nth_error ts (S i) with Some y => y :: skipn (S (S i)) ts | None => [] end).
  { destruct (nth_error ts (S i)) as [y|] eqn:E2.
    - apply nth_error_split in E2 as (a & b & -> & <-). pose proof (skipn_back 0 a (y :: b)) as X. pose proof (skipn_back 1 a (y :: b)) as Y. rewrite Nat.add_0_r in X. rewrite Nat.add_1_r in Y. rewrite X, Y. reflexivity.
    - apply nth_error_None in E2. apply skipn_all2. exact E2. }
  rewrite Hd. clear Hd. split.
  - destruct (nth_error ts (S i)) as [y|]; [|exact I]. destruct (k_kept y); [discriminate|reflexivity].
  - right. apply nth_error_split in E as (a & b & -> & <-). exists a, x. split.
    + rewrite firstn_app, firstn_all2 by lia. replace (S (length a) - length a)%nat with 1%nat by lia. reflexivity.
    + split; [exact L|]. apply orb_prop in H1 as [H1|H1]; [left; unfold punctuation; cbn; destruct (k_tok x); try discriminate; auto 12|right].
      apply loose_compute in H1 as (K1 & K2 & K3 & K4 & K5). do 4 (split; [assumption|]). destruct (nth_error _ (S (length a))); [right; exact K5|exact I].
Qed.
Lemma room_front v ts : (match ts with y :: _ => k_kept y = false | [] => True end) -> room [] v ts.
Proof. intros H. exists [], ts. auto. Qed.

(** One step that keeps the room before it. *)
Definition held (x : bytes) (us : list bytes) : Prop := exists ts nds, tokenized x ts /\ gNodes (L := false) x 0 ts nds /\
  Forall (fun u => exists v, x = u ++ v /\ v <> [] /\ room u v ts) us.
Lemma held_add x us u w v : held x (us ++ [u]) -> x = u ++ v -> layout w -> Forall (fun u1 => exists u2, u = u1 ++ u2 /\ u2 <> []) us ->
  respaced 0 x (u ++ w ++ v) /\ held (u ++ w ++ v) us.
Proof.
  intros (ts & nds & T & G & F) -> Lw Fp. apply Forall_app in F as [F Fu]. inversion Fu as [|? ? (v' & E & Nv & R) _]; subst. apply app_inv_head in E. subst v'.
  split; [apply rsAdd with (nds := nds); auto; exists ts; auto|].
  destruct (C61_rooms_lemma _ _ _ _ _ _ T G R Lw Nv) as (ts' & T' & G' & K). eexists ts', _. split; [exact T'|]. split; [exact G'|].
  rewrite Forall_forall in *. intros u1 J. destruct (Fp _ J) as (u2 & -> & N2). destruct (F _ J) as (v1 & E1 & _ & R1). rewrite <- app_assoc in E1. apply app_inv_head in E1. subst v1.
  exists (u2 ++ w ++ v). rewrite <- !app_assoc. split; [reflexivity|]. split; [destruct u2; [contradiction|discriminate]|]. eapply K; eauto.
Qed.
Definition cut49 (n : nat) : bytes := firstn n text49.
Lemma held49 : held text49 ([] :: map cut49 [18; 23; 26; 46; 47; 48; 49; 50]%nat).
Proof.
  exists toks49, tree49. split; [exact toks49_lemma|]. split; [exact nodes49|].
  repeat apply Forall_cons; try apply Forall_nil.
  - exists text49. split; [reflexivity|]. split; [discriminate|]. apply room_front. reflexivity.
  - exists (skipn 18 text49). split; [reflexivity|]. split; [discriminate|]. apply (room_compute _ _ _ 3). reflexivity.
  - exists (skipn 23 text49). split; [reflexivity|]. split; [discriminate|]. apply (room_compute _ _ _ 8). reflexivity.
  - exists (skipn 26 text49). split; [reflexivity|]. split; [discriminate|]. apply (room_compute _ _ _ 11). reflexivity.
  - exists (skipn 46 text49). split; [reflexivity|]. split; [discriminate|]. apply (room_compute _ _ _ 18). reflexivity.
  - exists (skipn 47 text49). split; [reflexivity|]. split; [discriminate|]. apply (room_compute _ _ _ 19). reflexivity.
  - exists (skipn 48 text49). split; [reflexivity|]. split; [discriminate|]. apply (room_compute _ _ _ 20). reflexivity.
  - exists (skipn 49 text49). split; [reflexivity|]. split; [discriminate|]. apply (room_compute _ _ _ 21). reflexivity.
  - exists (skipn 50 text49). split; [reflexivity|]. split; [discriminate|]. apply (room_compute _ _ _ 22). reflexivity.
Qed.
Ltac laid := repeat first [apply loEmpty | apply loBlank; [solve [auto]|] | apply loBreak].
Lemma no_close_compute body : forallb (fun b => negb (Byte.eqb b "/") && negb (Byte.eqb b CR)) body = true -> noClose body /\ ~ In CR body.
Proof.
  intros H. rewrite forallb_forall in H. assert (N : forall b, In b body -> b <> "/"%byte /\ b <> CR).
  { intros b J. specialize (H b J). apply andb_prop in H as [H1 H2]. split; intros ->; [discriminate H1|discriminate H2]. }
  split; [|intros J; exact (proj2 (N _ J) eq_refl)]. intros a b E.
  assert (J : In "/"%byte (body ++ B "*")) by (rewrite E; apply in_or_app; right; right; left; reflexivity).
  apply in_app_or in J as [J|[J|[]]]; [exact (proj1 (N _ J) eq_refl)|discriminate].
Qed.
Lemma layout_comment body w : forallb (fun b => negb (Byte.eqb b "/") && negb (Byte.eqb b CR)) body = true -> layout w -> layout (B "/*" ++ body ++ B "*/" ++ w).
Proof. intros H. apply no_close_compute in H as [H1 H2]. apply loComment; auto. Qed.
Ltac earlier n := repeat apply Forall_cons; try apply Forall_nil;
  match goal with |- exists u2, _ = ?u1 ++ u2 /\ _ => exists (skipn (length u1) (cut49 n)); split; [reflexivity|discriminate] end.
Lemma C61_sample_lemma : respaced 0 text49 pretty49.
Proof.
  pose proof held49 as H0. set (z0 := text49) in *.
  destruct (held_add _ ([] :: map cut49 [18; 23; 26; 46; 47; 48; 49]%nat) (cut49 50) [LF] (skipn 50 z0) H0) as [R1 H1];
    [reflexivity|laid|earlier 50%nat|].
  match type of R1 with respaced _ _ ?z => set (z1 := z) in * end.
  destruct (held_add _ ([] :: map cut49 [18; 23; 26; 46; 47; 48]%nat) (cut49 49) (B " ") (skipn 49 z1) H1) as [R2 H2];
    [reflexivity|laid|earlier 49%nat|].
  match type of R2 with respaced _ _ ?z => set (z2 := z) in * end.
  destruct (held_add _ ([] :: map cut49 [18; 23; 26; 46; 47]%nat) (cut49 48) (B " ") (skipn 48 z2) H2) as [R3 H3];
    [reflexivity|laid|earlier 48%nat|].
  match type of R3 with respaced _ _ ?z => set (z3 := z) in * end.
  destruct (held_add _ ([] :: map cut49 [18; 23; 26; 46]%nat) (cut49 47) (B "/* ; */" ++ [LF] ++ B "  ") (skipn 47 z3) H3) as [R4 H4];
    [reflexivity|apply (layout_comment (B " ; ") ([LF] ++ B "  ")); [reflexivity|laid]|earlier 47%nat|].
  match type of R4 with respaced _ _ ?z => set (z4 := z) in * end.
  destruct (held_add _ ([] :: map cut49 [18; 23; 26]%nat) (cut49 46) (B " /* ! */") (skipn 46 z4) H4) as [R5 H5];
    [reflexivity|apply loBlank; [auto|]; apply (layout_comment (B " ! ") []); [reflexivity|laid]|earlier 46%nat|].
  match type of R5 with respaced _ _ ?z => set (z5 := z) in * end.
  destruct (held_add _ ([] :: map cut49 [18; 23]%nat) (cut49 26) (B " ") (skipn 26 z5) H5) as [R6 H6];
    [reflexivity|laid|earlier 26%nat|].
  match type of R6 with respaced _ _ ?z => set (z6 := z) in * end.
  destruct (held_add _ ([] :: map cut49 [18]%nat) (cut49 23) ([LF] ++ B "  ") (skipn 23 z6) H6) as [R7 H7];
    [reflexivity|laid|earlier 23%nat|].
  match type of R7 with respaced _ _ ?z => set (z7 := z) in * end.
  destruct (held_add _ ([] :: map cut49 []%nat) (cut49 18) [CR; LF] (skipn 18 z7) H7) as [R8 H8];
    [reflexivity|laid|earlier 18%nat|].
  match type of R8 with respaced _ _ ?z => set (z8 := z) in * end.
  destruct (held_add _ [] [] (B "/* head */" ++ [LF]) z8 H8) as [R9 (ts & nds & T & G & _)];
    [reflexivity|apply (layout_comment (B " head ") [LF]); [reflexivity|laid]|apply Forall_nil|].
  match type of R9 with respaced _ _ ?z => set (z9 := z) in * end.
  assert (Re : respaced 0 z9 (z9 ++ [LF])) by (apply rsEnd with (nds := nds); [exists ts; auto|laid]).
  assert (R : respaced 0 text49 (z9 ++ [LF])) by (do 9 (eapply rsMore; [eassumption|]); exact Re).
  exact R.
Qed.

(** Compiling both. *)
Definition spaced61 (x : bytes) : project := simple [B "/a"] [(B "/a", x); (B "x", [])] allOpts.
Lemma spaced_alone x : parse 0 200 x <> ParseTimeout -> importsIn x = [B "x"] -> ~ leads (spaced61 x) (B "/a") (B "/a").
Proof.
  intros T E.
  assert (K : forall f g, edge (spaced61 x) f g -> g = B "x").
  { intros f g (spec & rel & I & R2 & A). pose proof I as (c & _ & _ & _ & _ & R & _).
    change (Some spec = Some rel) in R2. change (Some rel = Some g) in A. injection R2 as <-. injection A as <-.
    apply lookup_In in R as [R|[R|[]]]; injection R as <- <-.
    - apply (imports_compute (spaced61 x) _ _ x) in I; [|reflexivity|exact T]. rewrite E in I. destruct I as [<-|[]]. reflexivity.
    - apply (imports_compute (spaced61 x) _ _ []) in I; [|reflexivity|vm_compute; discriminate]. destruct I. }
  intros L. inversion L as [g H|g h _ H]; subst; apply K in H; discriminate.
Qed.
Lemma C61_compile_sample_lemma : p_entries (spaced61 text49) = [B "/a"] /\ p_entries (spaced61 pretty49) = [B "/a"] /\ o_imports (p_opts (spaced61 text49)) = ImportPassthrough /\
  ~ leads (spaced61 text49) (B "/a") (B "/a") /\ ~ leads (spaced61 pretty49) (B "/a") (B "/a") /\
  (exists g, reach (spaced61 text49) (g, Finished [(B "/a", outOf (spaced61 text49))])) /\ (exists g, reach (spaced61 pretty49) (g, Finished [(B "/a", outOf (spaced61 pretty49))])) /\
  exists rest, outOf (spaced61 text49) = B "@import ""x"" print;@import ""x"" print;a .b{*d:calc(2*i)!important;e:f}" ++ rest.
Proof.
  split; [reflexivity|]. split; [reflexivity|]. split; [reflexivity|].
  split; [apply spaced_alone; [vm_compute; discriminate|vm_compute; reflexivity]|]. split; [apply spaced_alone; [vm_compute; discriminate|vm_compute; reflexivity]|].
  split; [|split].
  - exists (fst (greedy (spaced61 text49) true 200 start)). replace [(B "/a", outOf (spaced61 text49))] with (outputs (greedy (spaced61 text49) true 200 start)) by (vm_compute; reflexivity). apply greedy_finished; [constructor|vm_compute; reflexivity].
  - exists (fst (greedy (spaced61 pretty49) true 200 start)). replace [(B "/a", outOf (spaced61 pretty49))] with (outputs (greedy (spaced61 pretty49) true 200 start)) by (vm_compute; reflexivity). apply greedy_finished; [constructor|vm_compute; reflexivity].
  - exists (skipn 68 (outOf (spaced61 text49))). vm_compute. reflexivity.
Qed.
(** After a closing parenthesis white space may be kept, and then it counts. *)
Lemma C61_kept_lemma : exists ss l ss' l', parse 0 200 (B ":a(b)c{d:e}") = ParseOk ss l /\ parse 0 200 (B ":a(b) c{d:e}") = ParseOk ss' l' /\
  print None (ss_nodes ss) = Some (B ":a(b)c{d:e}") /\ print None (ss_nodes ss') = Some (B ":a(b) c{d:e}").
Proof. do 4 eexists. split; [vm_compute; reflexivity|]. split; [vm_compute; reflexivity|]. split; vm_compute; reflexivity. Qed.
