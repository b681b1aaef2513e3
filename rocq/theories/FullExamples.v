(** A concrete plain reading for C49. *)
From Verif Require Import Bytes Utf8 Source Ast Lexer LexSpec Parser ReadSpec ReadProofs FullSheet Samples.
Local Existing Instance asciiOnly.
Local Instance noLib : Liberties := false.

(** The tokens got by calling Next with the given flags. *)
Fixpoint runs (fl : list bool) (k : bool) (l : lexer) : option (list tk * bool * lexer) :=
  match fl with
  | [] => Some ([], k, l)
  | b :: fl =>
    match next (setRws l b) with
    | Ok l1 => match runs fl b l1 with Some (ts, k1, l2) => Some (tkOf k l :: ts, k1, l2) | None => None end
    | _ => None
    end
  end.
Lemma runs_path fl : forall k l ts k1 l1, runs fl k l = Some (ts, k1, l1) -> path k l ts k1 l1.
Proof.
  induction fl as [|b fl IH]; intros k l ts k1 l1 H; cbn [runs] in H; [injection H as <- <- <-; apply pathNil|].
  destruct (next (setRws l b)) as [l2| |] eqn:N; try discriminate H. destruct (runs fl b l2) as [[[ts2 k2] l3]|] eqn:E; [|discriminate H]. injection H as <- <- <-.
  apply pathFlag with (b := b). change (tkOf k l) with (tkOf k (setRws l b)). apply pathTok with (l1 := l2); auto.
Qed.

Definition text49 : bytes := B "@import 'x' print;a .b{*d:calc(2*i) !important;e:f}".
Definition sp (a b : nat) := mkSpan a b.
Definition t1 := mkTk At (B "import") [] (sp 0 7) false.
Definition t2 := mkTk TString (B "x") [] (sp 8 11) false.
Definition t3 := mkTk Ident (B "print") [] (sp 12 17) false.
Definition t4 := mkTk Semicolon (B "print") [] (sp 17 18) false.
Definition t5 := mkTk Ident (B "a") [] (sp 18 19) false.
Definition t6 := mkTk Whitespace (B "a") [] (sp 19 20) true.
Definition t7 := mkTk Delim (B ".") [] (sp 20 21) true.
Definition t8 := mkTk Ident (B "b") [] (sp 21 22) true.
Definition t9 := mkTk LCurly (B "b") [] (sp 22 23) true.
Definition t10 := mkTk Delim (B "*") [] (sp 23 24) false.
Definition t11 := mkTk Ident (B "d") [] (sp 24 25) false.
Definition t12 := mkTk Colon (B "d") [] (sp 25 26) false.
Definition t13 := mkTk FunctionStart (B "calc") [] (sp 26 31) false.
Definition t14 := mkTk Number (B "calc") (B "2") (sp 31 32) false.
Definition t15 := mkTk Delim (B "*") (B "2") (sp 32 33) false.
Definition t16 := mkTk Ident (B "i") (B "2") (sp 33 34) false.
Definition t17 := mkTk RParen (B "i") (B "2") (sp 34 35) false.
Definition t18 := mkTk Delim (B "!") (B "2") (sp 36 37) false.
Definition t19 := mkTk Ident (B "important") (B "2") (sp 37 46) false.
Definition t20 := mkTk Semicolon (B "important") (B "2") (sp 46 47) false.
Definition t21 := mkTk Ident (B "e") (B "2") (sp 47 48) false.
Definition t22 := mkTk Colon (B "e") (B "2") (sp 48 49) false.
Definition t23 := mkTk Ident (B "f") (B "2") (sp 49 50) false.
Definition t24 := mkTk RCurly (B "f") (B "2") (sp 50 51) false.

Definition calc49 : value :=
  VFunc (sp 26 35) (B "calc") [VMath (sp 31 34) (B "*") (VDim (sp 31 32) (B "2") []) (VIdent (sp 33 34) (B "i"))].
Definition decls49 : list decl :=
  [DDecl (sp 24 46) (B "*d") [calc49] true; DDecl (sp 47 50) (B "e") [VIdent (sp 49 50) (B "f")] false].
Definition query49 : mqlist := (sp 12 17, [(sp 12 17, [MIdent (sp 12 17) (B "print")])]).
Definition tree49 : list node :=
  [NAt (mkAt 0 (sp 0 17) (B "import") [APString (sp 8 11) (B "x"); APMql query49] None);
   NRule (mkRule 0 (sp 18 51)
     (PrSel (sp 18 22, [(sp 18 22, [SType (sp 18 19) (B "a"); SWhitespace (sp 19 20); SClass (sp 20 22) (B "b")])]))
     (sp 22 51) decls49)].

Lemma tokens49 : tokensOf text49 [t1; t2; t3; t4; t5; t6; t7; t8; t9; t10; t11; t12; t13; t14; t15; t16; t17; t18; t19; t20; t21; t22; t23; t24].
Proof.
  destruct (newLexer text49 []) as [l| |] eqn:E; [|vm_compute in E; discriminate E..].
  pose (fl := [false;false;false;false] ++ [true;true;true;true] ++ repeat false 16).
  assert (X : exists l1, runs fl false l = Some ([t1; t2; t3; t4; t5; t6; t7; t8; t9; t10; t11; t12; t13; t14; t15; t16; t17; t18; t19; t20; t21; t22; t23; t24], false, l1) /\ l_cur l1 = EOF).
  { assert (Y : exists l0 l1, newLexer text49 [] = Ok l0 /\ runs fl false l0 = Some ([t1; t2; t3; t4; t5; t6; t7; t8; t9; t10; t11; t12; t13; t14; t15; t16; t17; t18; t19; t20; t21; t22; t23; t24], false, l1) /\ l_cur l1 = EOF).
    { do 2 eexists. split; [vm_compute; reflexivity|]. split; vm_compute; reflexivity. }
    destruct Y as (l0 & l1 & Y & Z). rewrite E in Y. injection Y as <-. exists l1. exact Z. }
  destruct X as (l1 & X & C). exists l, l1. split; [exact E|]. split; [apply (runs_path fl); exact X|exact C].
Qed.

Ltac tokens := repeat split; try reflexivity; try discriminate.
Lemma value49 : gValue [t13; t14; t15; t16; t17] calc49.
Proof.
  apply (gMath t13 [t14; t15; t16] [VMath (sp 31 34) (B "*") (VDim (sp 31 32) (B "2") []) (VIdent (sp 33 34) (B "i"))] t17); [tokens|left; reflexivity| |tokens].
  apply (gmCons [t14; t15; t16] _ [] []); [|apply gmNil]. apply gsProduct.
  apply (gpOp [t14] _ t15 [t16] _ (sp 31 32) (sp 33 34)); [|tokens|left; reflexivity| |reflexivity|reflexivity].
  - apply gpOperand. apply goValue. apply (gNumber t14). tokens.
  - apply goValue. apply (gIdent t16). tokens.
Qed.
Lemma body49 : gBody text49 t9 [t10; t11; t12; t13; t14; t15; t16; t17; t18; t19; t20; t21; t22; t23; t24] (sp 22 51) decls49.
Proof.
  exists [t10; t11; t12; t13; t14; t15; t16; t17; t18; t19; t20; t21; t22; t23], t24. split; [reflexivity|]. split; [|tokens].
  apply (gdSemi text49 [t10; t11; t12; t13; t14; t15; t16; t17; t18; t19] _ t20 [t21; t22; t23]); [|tokens|].
  - apply (gdDecl text49 [t10] t11 t12 [t13; t14; t15; t16; t17; t18; t19] [calc49] (Some 46%nat)); [right; exists t10; tokens|tokens|tokens| |discriminate].
    apply (giValue [t13; t14; t15; t16; t17] _ [t18; t19] []); [exact value49|]. apply (giImportant t18 t19 [] [] None); [tokens|reflexivity|reflexivity|reflexivity|apply giNil].
  - apply (gdCons text49 [t21; t22; t23] _ [] []); [right; reflexivity| |apply gdNil].
    apply (gdDecl text49 [] t21 t22 [t23] [VIdent (sp 49 50) (B "f")] None); [left; reflexivity|tokens|tokens| |discriminate].
    apply (giValue [t23] _ [] []); [|apply giNil]. apply (gIdent t23). tokens.
Qed.
Lemma selectors49 : gSelectors false [t5; t6; t7; t8] [(sp 18 22, [SType (sp 18 19) (B "a"); SWhitespace (sp 19 20); SClass (sp 20 22) (B "b")])] true.
Proof.
  apply (gsOne false [t5; t6; t7; t8] [SType (sp 18 19) (B "a"); SWhitespace (sp 19 20); SClass (sp 20 22) (B "b")] true); [|discriminate].
  apply (gpsCons false [t5] _ true [t6; t7; t8]); [apply (gpType false t5); tokens|]. apply (gpsCons true [t6] _ true [t7; t8]); [apply (gpSpace true t6); tokens|].
  apply (gpsCons true [t7; t8] _ true []); [apply (gpClass true t7 t8); tokens|]. apply gpsNil.
Qed.
Lemma C49_sample_lemma : readsPlainly 0 text49 tree49.
Proof.
  eexists. split; [exact tokens49|].
  apply (gnAt text49 0 [t1; t2; t3] _ [t4; t5; t6; t7; t8; t9; t10; t11; t12; t13; t14; t15; t16; t17; t18; t19; t20; t21; t22; t23; t24]).
  - apply (gaImportMedia text49 0 t1 [t2] (sp 8 11) (B "x") [t3] (snd query49)); [tokens|reflexivity|apply (gtString t2); tokens| |discriminate].
    apply (gqsOne [t3] [MIdent (sp 12 17) (B "print")]). apply (gqCons [t3] _ [] []); [apply (gqIdent t3); tokens|apply gqNil].
  - apply gnSkip; [left; tokens|].
    apply (gnRule text49 0 [t5; t6; t7; t8; t9; t10; t11; t12; t13; t14; t15; t16; t17; t18; t19; t20; t21; t22; t23; t24] _ [] []); [|apply gnNil].
    exact (grSel text49 0 [t5; t6; t7; t8] _ true t9 _ _ _ selectors49 (conj eq_refl eq_refl) body49).
  - right. right. exists t4. eexists. split; [reflexivity|tokens].
Qed.
