(** C48: what Walk visits. *)
From Verif Require Import Bytes Utf8 Source Ast AstInd Lexer Parser Samples Walk WalkSpec.

(** The nodes up to the first unknown one. *)
Fixpoint cut (vs : list anode) : visits :=
  match vs with
  | [] => done
  | n :: r => if unknown n then ([n], true) else visit n >>> cut r
  end.
Lemma thenW_assoc a b c : (a >>> b) >>> c = a >>> b >>> c.
Proof. destruct a as [la [|]], b as [lb [|]]; unfold thenW; cbn; rewrite ?app_assoc; reflexivity. Qed.
Lemma done_l a : done >>> a = a. Proof. destruct a; reflexivity. Qed.
Lemma done_r a : a >>> done = a. Proof. destruct a as [l [|]]; unfold thenW; cbn; rewrite ?app_nil_r; reflexivity. Qed.
Lemma cut_app a b : cut (a ++ b) = cut a >>> cut b.
Proof.
  induction a as [|n a IH]; [symmetry; apply done_l|]. cbn [app cut]. destruct (unknown n); [reflexivity|].
  rewrite IH, thenW_assoc. reflexivity.
Qed.
Definition cutAll (vss : list (list anode)) : visits := walkAll cut vss.
Lemma cut_concat vss : cut (concat vss) = cutAll vss.
Proof. induction vss as [|v r IH]; [reflexivity|]. cbn [concat]. rewrite cut_app, IH. reflexivity. Qed.

Definition good (w : visits) (ns : list anode) : Prop := forall vss, Forall2 (preorder seen) ns vss -> w = cutAll vss.
Lemma good_nil : good done []. Proof. intros vss H. inversion H. reflexivity. Qed.
Lemma good_app w w' a b : good w a -> good w' b -> good (w >>> w') (a ++ b).
Proof.
  intros H H' vss F. apply Forall2_app_inv_l in F as (x & y & F1 & F2 & ->). rewrite (H _ F1), (H' _ F2). clear.
  induction x as [|v r IH]; [apply done_l|]. cbn [app]. unfold cutAll in *. cbn [walkAll]. rewrite thenW_assoc, IH. reflexivity.
Qed.
Lemma good_one w n : unknown n = false -> good w (seen n) -> good (visit n >>> w) [n].
Proof.
  intros U H vss F. inversion F as [|? v ? r Hv F']; subst. inversion F'; subst. inversion Hv as [? vss' G]; subst.
  unfold cutAll. cbn [walkAll cut]. rewrite U, done_r. rewrite cut_concat. f_equal. apply H. exact G.
Qed.
Lemma good_leaf n : unknown n = false -> seen n = [] -> good (visit n) [n].
Proof. intros U S. rewrite <- (done_r (visit n)). apply good_one; auto. rewrite S. apply good_nil. Qed.
Lemma good_unknown n : unknown n = true -> good (visit n >>> panics) [n].
Proof.
  intros U vss F. inversion F as [|? v ? r Hv F']; subst. inversion F'; subst. inversion Hv as [? vss' G]; subst.
  unfold cutAll. cbn [walkAll cut]. rewrite U. reflexivity.
Qed.
Lemma good_all {A} (f : A -> visits) (g : A -> list anode) l : Forall (fun x => good (f x) (g x)) l -> good (walkAll f l) (flat_map g l).
Proof. induction 1; [apply good_nil|]. cbn [walkAll flat_map]. apply good_app; auto. Qed.
Lemma good_map {A} (f : A -> visits) (g : A -> anode) l : (forall x, good (f x) [g x]) -> good (walkAll f l) (map g l).
Proof.
  intros H. induction l as [|x l IH]; [apply good_nil|]. cbn [walkAll map]. change (g x :: map g l) with ([g x] ++ map g l).
  apply good_app; auto.
Qed.
Lemma good_value v : good (walkValue v) (ofValue v).
Proof.
  induction v as [|sp v|sp v u|sp v|sp v|sp vs _|sp n vs IH|sp o l r IHl IHr|sp v IH|sp|sp v] using value_ind';
    cbn [walkValue]; try (apply good_leaf; reflexivity); [apply good_nil|apply good_unknown; reflexivity| | |].
  - apply good_one; [reflexivity|]. apply (good_all walkValue ofValue). exact IH.
  - apply good_one; [reflexivity|]. apply good_app; auto.
  - apply good_one; [reflexivity|]. exact IH.
Qed.
Lemma good_values vs : good (walkAll walkValue vs) (flat_map ofValue vs).
Proof. apply good_all. apply Forall_forall. intros v _. apply good_value. Qed.
Lemma good_part p : good (walkPart p) [NdPart p].
Proof.
  destruct p; cbn [walkPart]; try (apply good_leaf; reflexivity).
  - apply good_one; [reflexivity|]. apply good_leaf; reflexivity.
  - apply good_one; [reflexivity|]. apply good_value.
Qed.
Lemma good_selectors l : good (visit (NdSelectors l) >>> walkAll walkSelector (snd l)) [NdSelectors l].
Proof.
  apply good_one; [reflexivity|]. apply good_map. intros s. apply good_one; [reflexivity|]. apply good_map. exact good_part.
Qed.
Lemma good_decls sp ds : good (visit (NdDecls sp ds) >>> walkAll walkDecl ds) [NdDecls sp ds].
Proof.
  apply good_one; [reflexivity|]. apply good_map. intros d. destruct d; cbn [walkDecl]; [|apply good_leaf; reflexivity].
  apply good_one; [reflexivity|]. apply good_values.
Qed.
Lemma good_rule r : good (walkRule r) [NdRule r].
Proof.
  unfold walkRule. apply good_one; [reflexivity|]. cbn [seen kids]. apply good_app; [|apply good_decls].
  destruct (r_prelude r) as [|l|sp ks]; cbn [walkPrelude]; [apply good_nil|apply good_selectors|].
  apply good_one; [reflexivity|]. apply good_map. intros k. apply good_leaf; reflexivity.
Qed.
Lemma good_query q : good (walkQuery q) [NdQuery q].
Proof.
  apply good_one; [reflexivity|]. apply good_map. intros p. destruct p; cbn [walkQueryPart]; [apply good_leaf; reflexivity| |].
  - apply good_one; [reflexivity|]. cbn [seen kids]. change (NdProperty psp prop :: ofValue v) with ([NdProperty psp prop] ++ ofValue v).
    apply good_app; [apply good_leaf; reflexivity|apply good_value].
  - apply good_one; [reflexivity|]. cbn [seen]. apply good_app; apply good_value.
Qed.
Lemma good_at a : good (walkAt a) [NdAt a].
Proof.
  unfold walkAt. apply good_one; [reflexivity|]. cbn [seen kids]. apply good_app.
  - apply good_map. intros p. destruct p; cbn [walkAtPrelude ofAtPrelude]; try (apply good_leaf; reflexivity).
    + apply good_one; [reflexivity|]. apply good_map. exact good_query.
    + apply good_unknown. reflexivity.
    + apply good_query.
  - destruct (ar_block a) as [[sp ds|sp rs]|]; cbn [walkBlock]; [apply good_decls| |apply good_nil].
    apply good_one; [reflexivity|]. apply good_map. exact good_rule.
Qed.
Lemma good_sheet ns : good (walkSheet ns) [NdSheet ns].
Proof. apply good_one; [reflexivity|]. apply good_map. intros [r|a]; [apply good_rule|apply good_at]. Qed.

Lemma cut_spec vs : (cut vs = (vs, false) /\ Forall (fun n => unknown n = false) vs) \/
  exists a n b, vs = a ++ n :: b /\ Forall (fun n => unknown n = false) a /\ unknown n = true /\ cut vs = (a ++ [n], true).
Proof.
  induction vs as [|n r [[E F]|(a & m & b & -> & F & U & E)]]; [left; auto| |].
  - cbn [cut]. destruct (unknown n) eqn:U; [right; exists [], n, r; auto|]. left. rewrite E. auto.
  - cbn [cut]. destruct (unknown n) eqn:Un; [right; exists [], n, (a ++ m :: b); auto|]. right.
    exists (n :: a), m, b. rewrite E. auto.
Qed.
Lemma C48_lemma ns vs : preorder seen (NdSheet ns) vs ->
  (walkSheet ns = (vs, false) /\ Forall (fun n => unknown n = false) vs) \/
  exists a n b, vs = a ++ n :: b /\ Forall (fun n => unknown n = false) a /\ unknown n = true /\ walkSheet ns = (a ++ [n], true).
Proof.
  intros H. rewrite (good_sheet ns [vs]) by (constructor; [exact H|constructor]). unfold cutAll. cbn [walkAll]. rewrite done_r. apply cut_spec.
Qed.

(** Every node has such a list. *)
Definition listed (ns : list anode) : Prop := exists vss, Forall2 (preorder kids) ns vss.
Lemma listed_nil : listed []. Proof. exists []. constructor. Qed.
Lemma listed_app a b : listed a -> listed b -> listed (a ++ b).
Proof. intros (x & H) (y & H'). exists (x ++ y). apply Forall2_app; assumption. Qed.
Lemma listed_one n : listed (kids n) -> listed [n].
Proof. intros (x & H). exists [n :: concat x]. constructor; [|constructor]. constructor. exact H. Qed.
Lemma listed_cons n r : listed [n] -> listed r -> listed (n :: r).
Proof. intros. apply (listed_app [n] r); assumption. Qed.
Lemma listed_flat {A} (g : A -> list anode) l : Forall (fun x => listed (g x)) l -> listed (flat_map g l).
Proof. induction 1; [apply listed_nil|]. cbn [flat_map]. apply listed_app; auto. Qed.
Lemma listed_map {A} (g : A -> anode) l : Forall (fun x => listed [g x]) l -> listed (map g l).
Proof. induction 1; [apply listed_nil|]. cbn [map]. apply listed_cons; auto. Qed.
Lemma always {A} (P : A -> Prop) l : (forall x, P x) -> Forall P l.
Proof. intros H. apply Forall_forall. auto. Qed.
Lemma listed_leaf n : kids n = [] -> listed [n].
Proof. intros E. apply listed_one. rewrite E. apply listed_nil. Qed.
Lemma listed_value v : listed (ofValue v).
Proof.
  induction v as [|sp v|sp v u|sp v|sp v|sp vs IH|sp n vs IH|sp o l r IHl IHr|sp v IH|sp|sp v] using value_ind';
    try (apply listed_leaf; reflexivity); [apply listed_nil| | | |]; apply listed_one; cbn [kids].
  - apply listed_flat. exact IH.
  - apply listed_flat. exact IH.
  - apply listed_app; assumption.
  - exact IH.
Qed.
Lemma listed_args a : Forall (fun s => Forall (fun p => listed [NdPart p]) (snd s)) (argParts a) -> listed (ofArgs a).
Proof.
  destruct a as [|sp v|sp x o y|sp sels]; cbn [argParts ofArgs]; intros H; [apply listed_nil|apply listed_leaf; reflexivity..|].
  apply listed_one. cbn [kids snd]. apply listed_map. revert H. apply Forall_impl. intros s F. apply listed_one. cbn [kids].
  apply listed_map. exact F.
Qed.
Lemma listed_part p : listed [NdPart p].
Proof.
  induction p using selpart_ind'; try (apply listed_leaf; reflexivity); apply listed_one; cbn [kids].
  - apply listed_args. assumption.
  - apply listed_one. apply listed_args. assumption.
  - apply listed_value.
Qed.
Lemma listed_selectors l : listed [NdSelectors l].
Proof.
  apply listed_one. apply listed_map, always. intros s. apply listed_one. apply listed_map, always. exact listed_part.
Qed.
Lemma listed_decls sp ds : listed [NdDecls sp ds].
Proof.
  apply listed_one. apply listed_map, always. intros [dsp n vs i|dsp v]; [|apply listed_leaf; reflexivity].
  apply listed_one. apply listed_flat, always. exact listed_value.
Qed.
Lemma listed_rule r : listed [NdRule r].
Proof.
  apply listed_one. cbn [kids]. apply listed_app; [|apply listed_decls].
  destruct (r_prelude r); [apply listed_nil|apply listed_selectors|]. apply listed_one. apply listed_map, always.
  intros k. apply listed_leaf. reflexivity.
Qed.
Lemma listed_query q : listed [NdQuery q].
Proof.
  apply listed_one. apply listed_map, always. intros [sp v|sp psp p v|sp psp p l o r]; [apply listed_leaf; reflexivity| |];
    apply listed_one; cbn [kids]; (apply listed_cons; [apply listed_leaf; reflexivity|]).
  - apply listed_value.
  - apply listed_app; apply listed_value.
Qed.
Lemma listed_at a : listed [NdAt a].
Proof.
  apply listed_one. cbn [kids]. apply listed_app.
  - apply listed_map, always. intros []; cbn [ofAtPrelude]; try (apply listed_leaf; reflexivity); [|apply listed_query].
    apply listed_one. apply listed_map, always. exact listed_query.
  - destruct (ar_block a) as [[sp ds|sp rs]|]; [apply listed_decls| |apply listed_nil].
    apply listed_one. apply listed_map, always. exact listed_rule.
Qed.
Lemma C48_total_lemma ns : exists vs, preorder kids (NdSheet ns) vs.
Proof.
  assert (H : listed [NdSheet ns]).
  { apply listed_one. apply listed_map, always. intros [r|a]; [apply listed_rule|apply listed_at]. }
  destruct H as (vss & F). inversion F as [|? v ? ? Hv]; subst. exists v. exact Hv.
Qed.

Section PO.
Variable sub : anode -> list anode.
Variable P : anode -> list anode -> Prop.
Hypothesis step : forall n vss, Forall2 (preorder sub) (sub n) vss -> Forall2 P (sub n) vss -> P n (n :: concat vss).
Fixpoint preorder_ind' n vs (H : preorder sub n vs) : P n vs :=
  match H in preorder _ n vs return P n vs with
  | po _ n vss F => step n vss F ((fix go l m (F : Forall2 (preorder sub) l m) : Forall2 P l m :=
      match F in Forall2 _ l m return Forall2 P l m with
      | Forall2_nil _ => Forall2_nil _
      | Forall2_cons x y h r => Forall2_cons x y (preorder_ind' x y h) (go _ _ r)
      end) _ _ F)
  end.
End PO.
Lemma seen_all n vs : preorder kids n vs -> Forall handled vs -> preorder seen n vs.
Proof.
  revert n vs. apply (preorder_ind' kids (fun n vs => Forall handled vs -> preorder seen n vs)). intros n vss _ IH H.
  inversion H as [|? ? [_ E] F]; subst. constructor. rewrite E. clear E H. induction IH; [constructor|].
  cbn [concat] in F. apply Forall_app in F as [F1 F2]. constructor; auto.
Qed.
Lemma seen_tail n : exists l, kids n = l ++ seen n.
Proof.
  destruct n as [| | | | |p| | | | | | | | |p| | | | |]; try (exists []; reflexivity).
  - destruct p; try (exists []; reflexivity). exists (kids (NdPart (SPseudo sp name args))). cbn [seen]. rewrite app_nil_r. reflexivity.
  - destruct p; try (exists []; reflexivity). eexists [_]. reflexivity.
Qed.
Lemma seen_exists n vs : preorder kids n vs -> exists vs', preorder seen n vs'.
Proof.
  revert n vs. apply (preorder_ind' kids (fun n vs => exists vs', preorder seen n vs')). intros n vss _ IH.
  assert (H : exists vss', Forall2 (preorder seen) (kids n) vss').
  { induction IH as [|x y l m (v & Hv) _ (r & Hr)]; [exists []; constructor|exists (v :: r); constructor; assumption]. }
  destruct H as (vss' & H). destruct (seen_tail n) as [l E]. rewrite E in H. apply Forall2_app_inv_l in H as (a & b & _ & H & _).
  exists (n :: concat b). constructor. exact H.
Qed.

Lemma C48_walk_lemma ns vs : preorder kids (NdSheet ns) vs -> Forall handled vs -> walkSheet ns = (vs, false).
Proof.
  intros H F. apply seen_all in H; [|exact F]. destruct (C48_lemma _ _ H) as [[E _]|(a & n & b & -> & _ & U & _)]; [exact E|].
  apply Forall_app in F as [_ F]. inversion F as [|? ? [C _] _]. congruence.
Qed.
Lemma C48_exact_lemma ns : exists vs, preorder seen (NdSheet ns) vs /\
  ((walkSheet ns = (vs, false) /\ Forall (fun n => unknown n = false) vs) \/
   exists a n b, vs = a ++ n :: b /\ Forall (fun n => unknown n = false) a /\ unknown n = true /\ walkSheet ns = (a ++ [n], true)).
Proof.
  destruct (C48_total_lemma ns) as [v H]. destruct (seen_exists _ _ H) as [vs H']. exists vs. split; [exact H'|]. apply C48_lemma. exact H'.
Qed.
(** Witnesses. *)
Definition nodes48 (content : bytes) : list node := match @parse asciiOnly 0 200 content with ParseOk ss _ => ss_nodes ss | _ => [] end.
Fixpoint flat (f : nat) (n : anode) : option (list anode) :=
  match f with
  | O => None
  | S f =>
    option_map (fun l => n :: concat l)
      ((fix go ms := match ms with
        | [] => Some []
        | m :: r => match flat f m, go r with Some a, Some b => Some (a :: b) | _, _ => None end
        end) (kids n))
  end.
Lemma flat_ok f n vs : flat f n = Some vs -> preorder kids n vs.
Proof.
  revert n vs. induction f as [|f IH]; [discriminate|]. intros n vs H. cbn [flat] in H.
  match type of H with option_map _ ?g = _ => destruct g as [vss|] eqn:G end; [|discriminate]. injection H as <-. constructor.
  revert vss G. induction (kids n) as [|m r IHr]; intros vss G; [injection G as <-; constructor|].
  destruct (flat f m) as [a|] eqn:Ea; [|discriminate].
  match type of G with match ?g with _ => _ end = _ => destruct g as [b|] eqn:Eb end; [|discriminate].
  injection G as <-. constructor; auto.
Qed.
Definition handledb (n : anode) : bool := negb (unknown n) && Nat.eqb (length (seen n)) (length (kids n)).
Lemma handledb_ok n : handledb n = true -> handled n.
Proof.
  unfold handledb, handled. intros H. apply andb_prop in H as [U L]. split; [destruct (unknown n); [discriminate|reflexivity]|].
  apply Nat.eqb_eq in L. destruct (seen_tail n) as [l E]. rewrite E in *. rewrite app_length in L. destruct l; [reflexivity|cbn in L; lia].
Qed.
Definition text48 : bytes := B "a>b[c=d],::e{f:g(1px,h) calc((1 + 2) * i)}@media (j:2px){k{}}@keyframes l{from,50%{}}".
Definition full48 : list anode := match flat 30 (NdSheet (nodes48 text48)) with Some vs => vs | None => [] end.
Lemma C48_sample_lemma : exists ss lines vs, @parse asciiOnly 0 200 text48 = ParseOk ss lines /\
  preorder kids (NdSheet (ss_nodes ss)) vs /\ Forall handled vs /\ length vs = 45%nat.
Proof.
  destruct (@parse asciiOnly 0 200 text48) as [ss lines| | |] eqn:E; [|vm_compute in E; discriminate..].
  assert (N : ss_nodes ss = nodes48 text48) by (unfold nodes48; rewrite E; reflexivity).
  exists ss, lines, full48. split; [reflexivity|]. rewrite N. split; [|split].
  - apply (flat_ok 30). vm_compute. reflexivity.
  - apply Forall_forall. intros n. assert (F : forallb handledb full48 = true) by (vm_compute; reflexivity).
    intros I. apply handledb_ok. apply (proj1 (forallb_forall handledb full48) F n I).
  - vm_compute. reflexivity.
Qed.

Lemma C48_refuted_lemma : exists ss lines ss' lines',
  @parse asciiOnly 0 100 (B "a{b:[c]}") = ParseOk ss lines /\ snd (walkSheet (ss_nodes ss)) = true /\
  @parse asciiOnly 0 100 (B "@media {}") = ParseOk ss' lines' /\ snd (walkSheet (ss_nodes ss')) = true.
Proof.
  eexists _, _, _, _. split; [vm_compute; reflexivity|]. split; [vm_compute; reflexivity|].
  split; [vm_compute; reflexivity|]. vm_compute. reflexivity.
Qed.
Definition sp48 : span := mkSpan 5 6.
Definition missed48 : anode := NdSelectors (sp48, [(sp48, [SType sp48 (B "b")])]).
Lemma C48_missed_lemma : exists ss lines ss' lines' vs vs' n n',
  @parse asciiOnly 0 100 (B ":not(b){}") = ParseOk ss lines /\ preorder kids (NdSheet (ss_nodes ss)) vs /\ In n vs /\
  snd (walkSheet (ss_nodes ss)) = false /\ ~ In n (fst (walkSheet (ss_nodes ss))) /\
  @parse asciiOnly 0 100 (B "@media (1px<width){}") = ParseOk ss' lines' /\ preorder kids (NdSheet (ss_nodes ss')) vs' /\ In n' vs' /\
  snd (walkSheet (ss_nodes ss')) = false /\ ~ In n' (fst (walkSheet (ss_nodes ss'))).
Proof.
  eexists _, _, _, _, _, _, missed48, (NdProperty (mkSpan 12 17) (B "width")). split; [vm_compute; reflexivity|].
  split; [apply (flat_ok 20); vm_compute; reflexivity|]. split; [vm_compute; tauto|]. split; [vm_compute; reflexivity|].
  split; [vm_compute; intuition discriminate|]. split; [vm_compute; reflexivity|].
  split; [apply (flat_ok 20); vm_compute; reflexivity|]. split; [vm_compute; tauto|]. split; [vm_compute; reflexivity|].
  vm_compute. intuition discriminate.
Qed.
