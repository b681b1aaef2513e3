(** Transforming does not look at positions. *)
From Verif Require Import Bytes Utf8 Source Ast AstInd BytesFacts Parser Printer Strip Transformer TransSpec TransProofs.

Definition stripReport (r : report) : report := mkReport (rp_warn r) sp0 (rp_msg r).
Definition stripT (t : tstate) : tstate := mkT (option_map (map (fun kv => (fst kv, map stripValue (snd kv)))) (t_vars t))
  (option_map (map (fun kv => (fst kv, stripQuery (snd kv)))) (t_cmedia t)) (map stripReport (t_reports t)).
Definition mapTS {A C} (f : A -> C) (m : tres A) : tres C := match m with TOk a t => TOk (f a) (stripT t) | TCrash => TCrash | TTimeout => TTimeout end.
(** [m'] does on stripped data what [m] does. *)
Definition ce {A C} (f : A -> C) (m : TM A) (m' : TM C) : Prop := forall t, m' (stripT t) = mapTS f (m t).
Lemma ce_ret {A C} (f : A -> C) a b : f a = b -> ce f (tret a) (tret b). Proof. intros <- t. reflexivity. Qed.
Lemma ce_bind {A A' C C'} (f : A -> A') (h : C -> C') m m' k k' : ce f m m' -> (forall a, ce h (k a) (k' (f a))) -> ce h (tbind m k) (tbind m' k').
Proof. intros H K t. unfold tbind. rewrite (H t). destruct (m t) as [a u| |]; [apply K|reflexivity|reflexivity]. Qed.
Lemma ce_seq {C C'} (h : C -> C') m m' (k : unit -> TM C) (k' : unit -> TM C') : ce (fun u : unit => u) m m' -> (forall u, ce h (k u) (k' u)) -> ce h (tbind m k) (tbind m' k').
Proof. intros H K. exact (ce_bind (fun u => u) h m m' k k' H K). Qed.
Lemma ce_crash {A C} (f : A -> C) : ce f tcrash tcrash. Proof. intros t. reflexivity. Qed.
Lemma ce_timeout {A C} (f : A -> C) : ce f ttimeout ttimeout. Proof. intros t. reflexivity. Qed.
Lemma ce_report w sp sp' msg : sp' = sp0 -> ce (fun u : unit => u) (treport (mkReport w sp msg)) (treport (mkReport w sp' msg)).
Proof. intros -> t. unfold treport, mapTS, stripT. cbn [t_vars t_cmedia t_reports]. rewrite map_app. reflexivity. Qed.
Lemma ce_addError w v msg : ce (fun u : unit => u) (addErrorAt w v msg) (addErrorAt w (stripValue v) msg).
Proof. unfold addErrorAt. destruct v; cbn; try apply ce_report; try apply ce_crash; reflexivity. Qed.
Lemma isNil_strip v : isNil (stripValue v) = isNil v. Proof. destruct v; reflexivity. Qed.
Lemma typeName_strip v : typeName (stripValue v) = typeName v. Proof. destruct v; reflexivity. Qed.
Lemma lookup_map {A C} (f : A -> C) k m : lookup k (map (fun kv => (fst kv, f (snd kv))) m) = option_map f (lookup k m).
Proof. induction m as [|[k' v] m IH]; [reflexivity|]. cbn. destruct (beq k k'); [reflexivity|]. exact IH. Qed.

Section WithFloats.
Context {FO : FloatOps}.
Variable o : topts.
Notation sv := (map stripValue).
Lemma ce_mathResult at_ res u : ce stripValue (mathResult at_ res u) (mathResult (stripValue at_) res u).
Proof. unfold mathResult. destruct res; [apply ce_ret; reflexivity|]. apply ce_seq; [apply ce_addError|]. intros _. apply ce_ret. reflexivity. Qed.
Lemma ce_combine l r op : ce stripValue (combine l r op) (combine (stripValue l) (stripValue r) op).
Proof.
  unfold combine. cbv zeta.
  destruct (beq op (B "+") || beq op (B "-")).
  { destruct l as [|lsp ls|lsp ln lu|lsp ls|lsp ls|lsp lvs|lsp lnm lvs|lsp lo la lb|lsp lv|lsp|lsp ls]; try (cbn [stripValue]; apply ce_seq; [match goal with |- ce _ (addErrorAt _ ?v ?m) _ => exact (ce_addError false v m) end|intros _; apply ce_ret; reflexivity]).
    destruct r as [|rsp rs|rsp rn ru|rsp rs|rsp rs|rsp rvs|rsp rnm rvs|rsp ro ra rb|rsp rv|rsp|rsp rs]; cbn [stripValue]; try (apply ce_ret; reflexivity). match goal with |- ce _ (if ?b then _ else _) _ => destruct b end.
    - apply ce_seq; [destruct (_ && _); [apply (ce_addError false (VDim lsp ln lu))|apply ce_ret; reflexivity]|]. intros _.
      apply ce_seq; [destruct (_ && _); [apply (ce_addError false (VDim lsp ln lu))|apply ce_ret; reflexivity]|]. intros _. apply ce_ret. reflexivity.
    - apply (ce_mathResult (VDim lsp ln lu)). }
  destruct (beq op (B "*")).
  { destruct l as [|lsp ls|lsp ln lu|lsp ls|lsp ls|lsp lvs|lsp lnm lvs|lsp lo la lb|lsp lv|lsp|lsp ls]; try (cbn [stripValue]; apply ce_ret; reflexivity). destruct r as [|rsp rs|rsp rn ru|rsp rs|rsp rs|rsp rvs|rsp rnm rvs|rsp ro ra rb|rsp rv|rsp|rsp rs]; cbn [stripValue]; try (apply ce_ret; reflexivity).
    destruct (_ && _); [apply ce_seq; [apply (ce_addError false (VDim lsp ln lu))|intros _; apply ce_ret; reflexivity]|]. destruct (isEmpty lu); apply (ce_mathResult (VDim lsp ln lu)). }
  destruct (beq op (B "/")); [|apply ce_seq; [apply ce_addError|intros _; apply ce_ret; reflexivity]].
  assert (Bad : ce stripValue (_ <~ addErrorAt false l (B "right side of division must be a number (non-percentage/dimension)") ;; tret VNil)
    (_ <~ addErrorAt false (stripValue l) (B "right side of division must be a number (non-percentage/dimension)") ;; tret VNil)).
  { apply ce_seq; [apply ce_addError|intros _; apply ce_ret; reflexivity]. }
  destruct r as [|rsp rs|rsp rn ru|rsp rs|rsp rs|rsp rvs|rsp rnm rvs|rsp ro ra rb|rsp rv|rsp|rsp rs]; try exact Bad. cbn [stripValue]. destruct (negb (isEmpty ru)); [exact Bad|].
  destruct l as [|lsp ls|lsp ln lu|lsp ls|lsp ls|lsp lvs|lsp lnm lvs|lsp lo la lb|lsp lv|lsp|lsp ls]; try (cbn [stripValue]; apply ce_seq; [match goal with |- ce _ (addErrorAt _ ?v ?m) _ => exact (ce_addError false v m) end|intros _; apply ce_ret; reflexivity]).
  apply (ce_mathResult (VDim lsp ln lu)).
Qed.
Lemma ce_reduce v : ce stripValue (reduceSide v) (reduceSide (stripValue v)).
Proof.
  induction v using value_ind'; try (apply ce_ret; reflexivity). cbn [reduceSide stripValue].
  apply (ce_bind stripValue); [assumption|]. intros l'. apply (ce_bind stripValue); [assumption|]. intros r'. apply (ce_bind stripValue); [apply ce_combine|]. intros e.
  apply ce_ret. rewrite isNil_strip. destruct (isNil e); reflexivity.
Qed.
Lemma ce_eval l r op : ce stripValue (evaluateMathExpression l r op) (evaluateMathExpression (stripValue l) (stripValue r) op).
Proof. unfold evaluateMathExpression. apply (ce_bind stripValue); [apply ce_reduce|]. intros l'. apply (ce_bind stripValue); [apply ce_reduce|]. intros r'. apply ce_combine. Qed.
Lemma ce_subst sp name args : ce sv (substVar sp name args) (substVar sp0 name (sv args)).
Proof.
  unfold substVar. destruct (negb (beq name (B "var"))); [apply ce_ret; reflexivity|]. intros t. cbn [stripT t_vars]. destruct (t_vars t) as [m|] eqn:Ev; cbn [option_map]; [|reflexivity].
  assert (Rp : forall w msg, (_ <~ treport (mkReport w sp0 msg) ;; tret [VFunc sp0 name (sv args)]) (stripT t) = mapTS sv ((_ <~ treport (mkReport w sp msg) ;; tret [VFunc sp name args]) t)).
  { intros w msg. apply (ce_seq sv); [apply ce_report; reflexivity|]. intros _. apply ce_ret. reflexivity. }
  fold (stripT t). replace (mkT (Some (map _ m)) _ _) with (stripT t) by (unfold stripT; rewrite Ev; reflexivity).
  destruct args as [|a0 rest]; [apply Rp|]. destruct a0; try (apply Rp). cbn [map stripValue]. rewrite (lookup_map (map stripValue)). destruct (lookup v m) as [vals|]; [reflexivity|]. cbn [option_map].
  destruct rest as [|b [|c rest]]; [apply Rp|apply Rp|reflexivity].
Qed.
Lemma ce_value n : forall v, ce sv (transformValue o n v) (transformValue o n (stripValue v)).
Proof.
  induction n as [|n IH]; intros v; [apply ce_timeout|]. destruct v as [| | | | | |sp name args| | | |]; try (apply ce_ret; reflexivity). cbn [transformValue stripValue].
  apply (ce_bind sv); [apply ce_subst|]. intros new. destruct (negb (beq name (B "calc")) || negb (o_calc o)); [apply ce_ret; reflexivity|].
  assert (Rp : forall msg, ce sv (_ <~ treport (mkReport true sp msg) ;; tret new) (_ <~ treport (mkReport true sp0 msg) ;; tret (sv new))).
  { intros msg. apply ce_seq; [apply ce_report; reflexivity|]. intros _. apply ce_ret. reflexivity. }
  destruct args as [|a0 [|a1 args]]; [apply Rp| |apply Rp]. cbn [map]. apply (ce_bind sv); [apply IH|]. intros args'. destruct args' as [|a [|a' args']]; [apply Rp| |apply Rp]. cbn [map].
  destruct a as [| | | | | | |sp1 op l r| | |]; cbn [stripValue]; try (apply ce_ret; reflexivity).
  apply (ce_bind sv); [apply IH|]. intros ls. apply (ce_bind sv); [apply IH|]. intros rs.
  destruct ls as [|l1 [|l2 ls]]; cbn [map]; try (apply ce_seq; [apply ce_addError|intros _; apply ce_ret; reflexivity]).
  destruct rs as [|r1 [|r2 rs]]; cbn [map]; try (apply ce_seq; [apply ce_addError|intros _; apply ce_ret; reflexivity]).
  apply (ce_bind stripValue); [apply ce_eval|]. intros e. apply ce_ret. rewrite isNil_strip. destruct (isNil e); reflexivity.
Qed.
Lemma ce_values n vs : ce sv (transformValues o n vs) (transformValues o n (sv vs)).
Proof.
  induction vs as [|v r IH]; cbn [transformValues map]; [apply ce_ret; reflexivity|]. apply (ce_bind sv); [apply ce_value|]. intros h. apply (ce_bind sv); [exact IH|]. intros rs.
  apply ce_ret. apply map_app.
Qed.
Lemma ce_decls n ds : ce (map stripDecl) (transformDecls o n ds) (transformDecls o n (map stripDecl ds)).
Proof.
  induction ds as [|d r IH]; cbn [transformDecls map]; [apply ce_ret; reflexivity|]. apply (ce_bind stripDecl); [|intros d'; apply (ce_bind (map stripDecl)); [exact IH|intros rs; apply ce_ret; reflexivity]].
  destruct d as [sp prop vs imp|sp v]; cbn [stripDecl]; [|apply ce_ret; reflexivity]. apply (ce_bind sv); [apply ce_values|]. intros vs'. apply ce_ret. reflexivity.
Qed.
Lemma ce_collect ds : ce (map stripDecl) (collectRoot ds) (collectRoot (map stripDecl ds)).
Proof.
  induction ds as [|d r IH]; cbn [collectRoot map]; [apply ce_ret; reflexivity|].
  assert (K : ce (map stripDecl) (r' <~ collectRoot r ;; tret (d :: r')) (r' <~ collectRoot (map stripDecl r) ;; tret (stripDecl d :: r'))).
  { apply (ce_bind (map stripDecl)); [exact IH|]. intros r'. apply ce_ret. reflexivity. }
  destruct d as [sp prop vs imp|sp v]; [|exact K]. cbn [stripDecl] in *. intros t. destruct (t_vars t) as [m|] eqn:Ev.
  - assert (E : t_vars (stripT t) = Some (map (fun kv => (fst kv, sv (snd kv))) m)) by (unfold stripT; rewrite Ev; reflexivity). rewrite E.
    destruct (hasPrefix (B "--") prop); [|exact (K t)]. rewrite <- IH. f_equal.
  - assert (E : t_vars (stripT t) = None) by (unfold stripT; rewrite Ev; reflexivity). rewrite E. exact (K t).
Qed.
Lemma isRoot_strip p : isRootPseudo (stripPart p) = isRootPseudo p. Proof. destruct p; reflexivity. Qed.
Lemma isAny_strip p : isAnyLink (stripPart p) = isAnyLink p. Proof. destruct p; reflexivity. Qed.
Lemma ce_scan pr ds : ce (map stripDecl) (scanRoot pr ds) (scanRoot (stripPrelude pr) (map stripDecl ds)).
Proof.
  destruct pr as [|[lsp sels]|sp ks]; cbn [scanRoot stripPrelude]; try (apply ce_ret; reflexivity).
  assert (E : existsb (fun s : selector => negb (length (snd s) =? 1)%nat) (map stripSel sels) = existsb (fun s : selector => negb (length (snd s) =? 1)%nat) sels).
  { induction sels as [|s r IH]; [reflexivity|]. cbn [map existsb]. rewrite IH. cbn [stripSel snd]. rewrite map_length. reflexivity. }
  rewrite E. destruct (existsb _ sels); [|apply ce_ret; reflexivity]. destruct sels as [|[ssp [|p ps]] r]; cbn [map stripSel snd]; [apply ce_ret; reflexivity|apply ce_crash|].
  rewrite isRoot_strip. destruct (isRootPseudo p); [apply ce_collect|apply ce_ret; reflexivity].
Qed.
Lemma setPseudo_strip name p : setPseudo name (stripPart p) = stripPart (setPseudo name p).
Proof. unfold setPseudo. rewrite isAny_strip. destruct (isAnyLink p); reflexivity. Qed.
Lemma map_repeat {A C} (f : A -> C) x n : map f (repeat x n) = repeat (f x) n.
Proof. induction n; cbn; congruence. Qed.
Lemma selectors_strip sels : transformSelectors o (map stripSel sels) = map stripSel (transformSelectors o sels).
Proof.
  unfold transformSelectors. destruct (o_anylink o); [|reflexivity]. induction sels as [|[sp parts] r IH]; [reflexivity|]. cbn [map flat_map]. rewrite IH, map_app. f_equal.
  unfold transformSelector, stripSel. cbn [snd]. rewrite map_app, map_repeat. cbn [map snd].
  assert (L : length (filter isAnyLink (map stripPart parts)) = length (filter isAnyLink parts)).
  { induction parts as [|p ps IHp]; [reflexivity|]. cbn [map filter]. rewrite isAny_strip. destruct (isAnyLink p); cbn; rewrite IHp; reflexivity. }
  rewrite L. assert (M : forall name, map (setPseudo name) (map stripPart parts) = map stripPart (map (setPseudo name) parts)).
  { intros name. rewrite !map_map. apply map_ext. intros p. apply setPseudo_strip. }
  rewrite !M. reflexivity.
Qed.
Lemma ce_rule n r : ce (option_map stripRule) (transformRule o n r) (transformRule o n (stripRule r)).
Proof.
  unfold transformRule. cbn [stripRule r_prelude r_decls r_run r_sp r_bsp]. apply (ce_bind (map stripDecl)); [apply ce_scan|]. intros ds.
  destruct (r_prelude r) as [|[lsp sels]|sp ks]; cbn [stripPrelude]; [apply ce_crash| |apply ce_seq; [apply ce_report; reflexivity|intros _; apply ce_crash]].
  apply (ce_bind (map stripDecl)); [apply ce_decls|]. intros [|d ds']; cbn [map]; apply ce_ret; [reflexivity|]. rewrite selectors_strip. reflexivity.
Qed.
Lemma ce_addTo v d : ce stripValue (addToValue v d) (addToValue (stripValue v) d).
Proof.
  unfold addToValue. destruct d as [d|]; [|apply ce_ret; reflexivity].
  destruct v as [| |sp v u| | | | | | | |]; try (cbn [stripValue]; apply ce_seq; [match goal with |- ce _ (addErrorAt _ ?v ?m) _ => exact (ce_addError false v m) end|intros _; apply ce_ret; reflexivity]).
  cbn [stripValue]. destruct (fparse v) as [f|]; [apply ce_ret; reflexivity|]. apply ce_seq; [apply (ce_addError false (VDim sp v u))|]. intros _. apply ce_ret. reflexivity.
Qed.
Lemma ce_range p psp psp' prop lv op rv : ce (map stripQPart) (transformRange o p psp prop lv op rv) (transformRange o (stripQPart p) psp' prop (stripValue lv) op (stripValue rv)).
Proof.
  unfold transformRange. destruct (negb (o_ranges o)); [apply ce_ret; reflexivity|]. rewrite !isNil_strip. apply (ce_bind (map stripQPart)).
  - destruct (isNil lv); [apply ce_ret; reflexivity|]. destruct (leftDir op). apply (ce_bind stripValue); [apply ce_addTo|]. intros v. apply ce_ret. reflexivity.
  - intros l. apply (ce_bind (map stripQPart)); [|intros r; apply ce_ret; apply map_app].
    destruct (isNil rv); [apply ce_ret; reflexivity|]. destruct (rightDir op). apply (ce_bind stripValue); [apply ce_addTo|]. intros v. apply ce_ret. destruct (isNil lv); reflexivity.
Qed.
Lemma ce_parts ps : ce (map stripQPart) (transformMqParts o ps) (transformMqParts o (map stripQPart ps)).
Proof.
  induction ps as [|p r IH]; cbn [transformMqParts map]; [apply ce_ret; reflexivity|]. apply (ce_bind (map stripQPart)); [|intros h; apply (ce_bind (map stripQPart)); [exact IH|intros rs; apply ce_ret; apply map_app]].
  destruct p as [sp v|sp psp prop v|sp psp prop lv op rv]; cbn [stripQPart]; [apply ce_ret; reflexivity| |exact (ce_range (MRange sp psp prop lv op rv) psp sp0 prop lv op rv)].
  rewrite isNil_strip. destruct (negb (isNil v) || negb (hasPrefix (B "--") prop)); [apply ce_ret; reflexivity|]. intros t. cbn [stripT t_cmedia]. destruct (t_cmedia t) as [m|] eqn:Em; cbn [option_map]; [|cbn; unfold stripT; rewrite Em; reflexivity].
  rewrite (lookup_map stripQuery). destruct (lookup prop m) as [[qsp parts]|]; cbn; unfold stripT; rewrite Em; reflexivity.
Qed.
Lemma ce_mqs qs : ce (map stripQuery) (transformMqs o qs) (transformMqs o (map stripQuery qs)).
Proof.
  induction qs as [|[sp ps] r IH]; cbn [transformMqs map]; [apply ce_ret; reflexivity|]. cbn [stripQuery snd]. apply (ce_bind (map stripQPart)); [apply ce_parts|]. intros ps'.
  apply (ce_bind (map stripQuery)); [exact IH|]. intros rs. apply ce_ret. reflexivity.
Qed.
Lemma ce_custom pres : ce (fun u : unit => u) (addCustomMedia pres) (addCustomMedia (map stripAtPrelude pres)).
Proof.
  intros t. unfold addCustomMedia. destruct (t_cmedia t) as [m|] eqn:Em.
  - assert (E : t_cmedia (stripT t) = Some (map (fun kv => (fst kv, stripQuery (snd kv))) m)) by (unfold stripT; rewrite Em; reflexivity). rewrite E.
    destruct pres as [|[] [|[] [|]]]; reflexivity.
  - assert (E : t_cmedia (stripT t) = None) by (unfold stripT; rewrite Em; reflexivity). rewrite E. reflexivity.
Qed.
Lemma ce_node repl n nd : isImport nd = false -> ce (map stripNode) (oneNode o repl n nd) (oneNode o repl n (stripNode nd)).
Proof.
  intros Ni. destruct nd as [r|a]; cbn [oneNode stripNode].
  - apply (ce_bind (option_map stripRule)); [apply ce_rule|]. intros [r'|]; apply ce_ret; reflexivity.
  - cbn [isImport stripAt ar_name ar_preludes ar_run ar_sp ar_block] in *. rewrite Ni. destruct (beq (ar_name a) (B "custom-media")).
    { apply ce_seq; [apply ce_custom|]. intros _. apply ce_ret. reflexivity. }
    destruct (beq (ar_name a) (B "media")); [|apply ce_ret; reflexivity]. destruct (ar_preludes a) as [|[| |[lsp qs]| |] pres]; cbn [map stripAtPrelude]; try apply ce_crash.
    cbn [snd]. apply (ce_bind (map stripQuery)); [apply ce_mqs|]. intros qs'. apply ce_ret. reflexivity.
Qed.
End WithFloats.
