(** C66, C67: files that begin alike. *)
From Verif Require Import Bytes Utf8 Source Lexer Ast Parser ParserSpec LaterSpec Samples.

#[local] Existing Instance asciiOnly.
Definition gap20 : bytes := B "                    ".
Definition common1 : bytes := B "a{b:c;d!e;} @media screen{d{e:f}}" ++ gap20.
Definition file1 : bytes := common1 ++ B "p{q:r}".
Definition file2 : bytes := common1 ++ B "@import 'z';".
Definition sheet1 : stylesheet := Eval vm_compute in match parse 0 100 file1 with ParseOk ss _ => ss | _ => mkSheet [] [] end.
Definition sheet2 : stylesheet := Eval vm_compute in match parse 0 100 file2 with ParseOk ss _ => ss | _ => mkSheet [] [] end.
Definition rule1 : node := Eval vm_compute in nth 0 (ss_nodes sheet1) (NAt (mkAt 0 (mkSpan 0 0) [] [] None)).
Definition rule2 : node := Eval vm_compute in nth 1 (ss_nodes sheet1) (NAt (mkAt 0 (mkSpan 0 0) [] [] None)).
Definition rule3 : node := Eval vm_compute in nth 2 (ss_nodes sheet1) (NAt (mkAt 0 (mkSpan 0 0) [] [] None)).
Lemma C66_sample_lemma : alike 53 file1 file2 /\ (exists l1 l2, parse 0 100 file1 = ParseOk sheet1 l1 /\ parse 0 100 file2 = ParseOk sheet2 l2) /\
  ss_nodes sheet1 = [rule1] ++ rule2 :: [rule3] /\ wellBefore 53 rule2 /\ closed rule2 /\ ~ Forall noRawNode [rule1] /\
  nth_error (ss_nodes sheet2) 1 = Some rule2 /\ nth_error (ss_nodes sheet2) 2 <> Some rule3.
Proof.
  split; [exists common1, (B "p{q:r}"), (B "@import 'z';"); repeat split; vm_compute; reflexivity|].
  split; [eexists; eexists; split; vm_compute; reflexivity|]. split; [vm_compute; reflexivity|]. split; [unfold wellBefore; vm_compute; lia|]. split; [discriminate|].
  split; [intros N; apply Forall_inv in N; destruct N as [N _]; apply Forall_inv in N; unfold noRawRule in N; cbn in N; apply Forall_inv_tail in N; apply Forall_inv in N; exact N|]. split; [vm_compute; reflexivity|]. vm_compute. discriminate.
Qed.

(** An @import goes on until the semicolon. *)
Definition common2 : bytes := B "a{b:c}@import 'a'" ++ gap20.
Definition file3 : bytes := common2 ++ B ";p{q:r}".
Definition file4 : bytes := common2 ++ B "screen;p{q:r}".
Definition sheet3 : stylesheet := Eval vm_compute in match parse 0 100 file3 with ParseOk ss _ => ss | _ => mkSheet [] [] end.
Definition sheet4 : stylesheet := Eval vm_compute in match parse 0 100 file4 with ParseOk ss _ => ss | _ => mkSheet [] [] end.
Definition open3 : node := Eval vm_compute in nth 1 (ss_nodes sheet3) (NAt (mkAt 0 (mkSpan 0 0) [] [] None)).
Definition after3 : node := Eval vm_compute in nth 2 (ss_nodes sheet3) (NAt (mkAt 0 (mkSpan 0 0) [] [] None)).
Definition first3 : node := Eval vm_compute in nth 0 (ss_nodes sheet3) (NAt (mkAt 0 (mkSpan 0 0) [] [] None)).
Lemma C66_before_sample_lemma : alike 37 file3 file4 /\ (exists l1 l2, parse 0 100 file3 = ParseOk sheet3 l1 /\ parse 0 100 file4 = ParseOk sheet4 l2) /\
  ss_nodes sheet3 = [first3] ++ open3 :: [after3] /\ wellBefore 37 open3 /\ nth_error (ss_nodes sheet4) 0 = Some first3.
Proof.
  split; [exists common2, (B ";p{q:r}"), (B "screen;p{q:r}"); repeat split; vm_compute; reflexivity|].
  split; [eexists; eexists; split; vm_compute; reflexivity|]. split; [vm_compute; reflexivity|]. split; [unfold wellBefore; vm_compute; lia|].
  vm_compute. reflexivity.
Qed.
Lemma C66_open_lemma : exists (U : UnicodeDigits) run n k c c' ss lines ss' lines' pre nd post, alike k c c' /\ parse run n c = ParseOk ss lines /\ parse run n c' = ParseOk ss' lines' /\
  ss_nodes ss = pre ++ nd :: post /\ wellBefore k nd /\ ~ exists post', ss_nodes ss' = pre ++ nd :: post'.
Proof.
  exists asciiOnly, 0%nat, 100%nat, 37%nat, file3, file4, sheet3. eexists. exists sheet4. eexists. exists [first3], open3, [after3].
  split; [exists common2, (B ";p{q:r}"), (B "screen;p{q:r}"); repeat split; vm_compute; reflexivity|].
  split; [vm_compute; reflexivity|]. split; [vm_compute; reflexivity|]. split; [reflexivity|]. split; [unfold wellBefore; vm_compute; lia|].
  intros (post' & E). apply (f_equal (fun x => nth_error x 1)) in E. vm_compute in E. discriminate E.
Qed.

(** The other file is broken behind the common part. *)
Definition file5 : bytes := common1 ++ B "p%{q:r}".
Lemma C66_errors_sample_lemma : alike 53 file1 file5 /\ (exists l1, parse 0 100 file1 = ParseOk sheet1 l1) /\
  ss_nodes sheet1 = [rule1] ++ rule2 :: [rule3] /\ wellBefore 53 rule2 /\ closed rule2 /\
  exists sp msg l2, parse 0 100 file5 = ParseErr sp msg l2 /\ sp_start sp = 54%nat.
Proof.
  split; [exists common1, (B "p{q:r}"), (B "p%{q:r}"); repeat split; vm_compute; reflexivity|].
  split; [eexists; vm_compute; reflexivity|]. split; [vm_compute; reflexivity|]. split; [unfold wellBefore; vm_compute; lia|]. split; [discriminate|].
  eexists. eexists. eexists. split; vm_compute; reflexivity.
Qed.

(** Both files have the same error in the common part, behind a declaration
    kept as raw text. *)
Definition common3 : bytes := B "a{b:c;d!e;} p%{q:r}" ++ gap20.
Definition file6 : bytes := common3 ++ B "x{y:z}".
Definition file7 : bytes := common3 ++ B "@import 'z'; \".
Definition place6 : span * bytes * list nat := Eval vm_compute in match parse 0 100 file6 with ParseErr sp msg ln => (sp, msg, ln) | _ => (mkSpan 0 0, [], []) end.
Lemma C67_same_error_sample_lemma : alike 39 file6 file7 /\ parse 0 100 file6 = ParseErr (fst (fst place6)) (snd (fst place6)) (snd place6) /\
  (sp_end (fst (fst place6)) + 16 <= 39)%nat /\ (0 < sp_start (fst (fst place6)))%nat /\ snd (fst place6) <> [].
Proof.
  split; [exists common3, (B "x{y:z}"), (B "@import 'z'; \"); repeat split; vm_compute; reflexivity|].
  split; [vm_compute; reflexivity|]. split; [vm_compute; lia|]. split; [vm_compute; lia|]. vm_compute. discriminate.
Qed.
Lemma C67_accepted_sample_lemma : alike 53 file1 file5 /\ (exists l1, parse 0 100 file1 = ParseOk sheet1 l1) /\
  exists sp msg l2, parse 0 100 file5 = ParseErr sp msg l2 /\ sp_start sp = 54%nat.
Proof. destruct C66_errors_sample_lemma as (A & D & _ & _ & _ & F). auto. Qed.
