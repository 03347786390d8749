(** * Cap: which native functions a computation can reach.

    Like [Scope], with the native functions counted in: a value, environment,
    error or call is *inside* when all its frames are in [K], all its native
    functions satisfy [N], and all its environments contain a frame in [g].  A name
    that is not bound falls back on the native function of that name, so looking
    a name up may also give any native function whose name is not bound by the
    frames in [g]. *)
From Coq Require Import Lia.
From Verif.Model Require Import Base Syntax World Prog Lex Parse Meta Eval Builtins.
From Verif.Proofs Require Import Run Heap.
Open Scope prog_scope.
Local Arguments checked : simpl never.
Local Arguments ev_wrap : simpl never.
Local Arguments print : simpl never.
Local Arguments fail : simpl never.
Local Arguments val_ : simpl never.
Local Arguments do : simpl never.
Local Arguments base_error : simpl never.
Local Arguments extend : simpl never.
Local Arguments extend_with : simpl never.
Local Arguments words : simpl never.
Local Arguments vlist : simpl never.
Local Arguments strings_to_list : simpl never.
Local Arguments expected_list : simpl never.
Local Arguments bind : simpl never.
Local Arguments map_err : simpl never.
Local Arguments attempt : simpl never.

Section Inside.
  Variable K : positive -> Prop.
  Variable N : builtin -> Prop.
  Variable g : positive -> Prop.
  Hypothesis N_apply : N BApply.

  Definition id_in (m i : positive) : Prop := K i /\ (i < m)%positive.
  Definition env_in (m : positive) (e : env) : Prop := Forall (id_in m) e /\ exists i, In i e /\ g i.
  Fixpoint val_in (m : positive) (v : val) : Prop :=
    match v with
    | VAtom _ | VNum _ | VNil => True
    | VBuiltin b => N b
    | VCons a d => val_in m a /\ val_in m d
    | VLam _ _ body doc _ e => val_in m body /\ val_in m doc /\ env_in m e
    end.
  Definition vals_in m (l : list val) : Prop := Forall (val_in m) l.
  Definition err_in m (e : err) : Prop := match e with ECons v => val_in m v | EGo _ => True end.
  Definition call_in m (c : call) : Prop :=
    match c with
    | CEval x e | CExpand x e | CLoop x e => val_in m x /\ env_in m e
    | CBuiltin b args e => N b /\ vals_in m args /\ env_in m e
    | CRepl _ _ e => env_in m e
    end.
  Definition tres_in m (t : tres) : Prop :=
    match t with TVal v => val_in m v | TTail c => call_in m c end.
  Definition opt_in {A} (P : A -> Prop) (o : option A) : Prop :=
    match o with Some a => P a | None => True end.

  Definition op_in m {B} (o : op B) : Prop :=
    match o with
    | OLookup e _ | OKeys e | OMkEnv e => env_in m e
    | OSet e _ v | OSetTop e _ v | OUpdate e _ v => env_in m e /\ val_in m v
    | _ => True
    end.
  Definition res_in m {B} (o : op B) : B -> Prop :=
    match o in op B return B -> Prop with
    | OLookup _ s => fun r => match r with Some v => val_in m v | None => forall b, lookup_builtin s = Some b -> N b end
    | OMkEnv _ => env_in m
    | OSet _ _ _ | OSetTop _ _ _ | OUpdate _ _ _ => opt_in (err_in m)
    | _ => fun _ => True
    end.

  Inductive safe {A} (P : positive -> A -> Prop) : positive -> prog A -> Prop :=
  | safe_ret m a : P m a -> safe P m (Ret a)
  | safe_raise m e : err_in m e -> safe P m (Raise e)
  | safe_panic m s : safe P m (Panic s)
  | safe_exit m c : safe P m (Exit c)
  | safe_op m B (o : op B) k :
      op_in m o ->
      (forall m' b, (m <= m')%positive -> res_in m' o b -> safe P m' (k b)) ->
      safe P m (Op o k)
  | safe_sub m c k h :
      call_in m c ->
      (forall m' v, (m <= m')%positive -> val_in m' v -> safe P m' (k v)) ->
      (forall m' e, (m <= m')%positive -> err_in m' e -> safe P m' (h e)) ->
      safe P m (Sub c k h).

  (** Monotonicity in the bound. *)
  Lemma id_in_mono m m' i : (m <= m')%positive -> id_in m i -> id_in m' i.
  Proof. unfold id_in. intros ? []; split; auto. lia. Qed.
  Lemma env_in_mono m m' e : (m <= m')%positive -> env_in m e -> env_in m' e.
  Proof. intros H [F G]. split; [revert F; apply Forall_impl; intros a; now apply id_in_mono|exact G]. Qed.
  Lemma val_in_mono m m' v : (m <= m')%positive -> val_in m v -> val_in m' v.
  Proof.
    intros H. induction v; simpl; auto.
    - intros [? ?]; auto.
    - intros (? & ? & ?); split; [auto|split; [auto|eapply env_in_mono; eauto]].
  Qed.
  Lemma vals_in_mono m m' v : (m <= m')%positive -> vals_in m v -> vals_in m' v.
  Proof. intros H. apply Forall_impl. intros a. now apply val_in_mono. Qed.
  Lemma err_in_mono m m' v : (m <= m')%positive -> err_in m v -> err_in m' v.
  Proof. destruct v; simpl; auto. apply val_in_mono. Qed.
  Lemma call_in_mono m m' c : (m <= m')%positive -> call_in m c -> call_in m' c.
  Proof.
    intros H. destruct c; simpl; intuition eauto using val_in_mono, env_in_mono, vals_in_mono.
  Qed.

  (** Closure properties. *)
  Lemma list_with_cdr_in m xs c : vals_in m xs -> val_in m c -> val_in m (list_with_cdr xs c).
  Proof. induction 1; simpl; auto. Qed.
  Lemma vlist_in m xs : vals_in m xs -> val_in m (vlist xs).
  Proof. intros. apply list_with_cdr_in; simpl; auto. Qed.
  Lemma strings_in m ss : val_in m (strings_to_list ss).
  Proof. apply vlist_in. induction ss; constructor; simpl; auto. Qed.
  Lemma words_in m s : val_in m (words s).
  Proof. apply strings_in. Qed.
  Lemma base_error_in m s : err_in m (base_error s).
  Proof. unfold base_error. simpl. split; auto. apply words_in. Qed.
  Lemma extend_with_in m v e : val_in m v -> err_in m e -> err_in m (extend_with v e).
  Proof. unfold extend_with. destruct e; simpl; auto. Qed.
  Lemma extend_in m s e : err_in m e -> err_in m (extend s e).
  Proof. intros. apply extend_with_in; auto. apply words_in. Qed.
  Lemma cons_to_exprs_in m v : forall l, val_in m v -> cons_to_exprs v = Some l -> vals_in m l.
  Proof.
    induction v; simpl; intros l V E; try discriminate.
    - injection E as <-. constructor.
    - destruct (cons_to_exprs v2); try discriminate. injection E as <-. constructor; [tauto|].
      apply IHv2; tauto.
  Qed.
  Lemma truth_in m b : val_in m (truth b).
  Proof. destruct b; simpl; auto. Qed.
  Lemma toplevel_env_in m e : env_in m e -> Forall (id_in m) (toplevel e).
  Proof.
    unfold env_in. rewrite !Forall_forall. intros [H G] i I. apply H. now apply toplevel_in.
  Qed.

  (** Safety of the combinators. *)
  Definition mono {A} (P : positive -> A -> Prop) : Prop :=
    forall m m' a, (m <= m')%positive -> P m a -> P m' a.

  Lemma safe_weaken {A} (P Q : positive -> A -> Prop) m p :
    (forall m' a, (m <= m')%positive -> P m' a -> Q m' a) -> safe P m p -> safe Q m p.
  Proof.
    intros HPQ H. induction H; try (constructor; auto; fail).
    - constructor. apply HPQ; auto. lia.
    - econstructor; eauto. intros. apply H1; auto. intros. apply HPQ; auto. lia.
    - econstructor; eauto; intros.
      + apply H1; auto. intros. apply HPQ; auto. lia.
      + apply H3; auto. intros. apply HPQ; auto. lia.
  Qed.

  Lemma safe_bind {A B} (P : positive -> A -> Prop) (Q : positive -> B -> Prop) m p q :
    safe P m p ->
    (forall m' a, (m <= m')%positive -> P m' a -> safe Q m' (q a)) ->
    safe Q m (bind p q).
  Proof.
    intros H HQ. induction H; cbn [bind map_err attempt]; try (constructor; auto; fail).
    - apply HQ; auto. lia.
    - econstructor; eauto. intros. apply H1; auto. intros. apply HQ; auto. lia.
    - econstructor; eauto; intros.
      + apply H1; auto. intros. apply HQ; auto. lia.
      + apply H3; auto. intros. apply HQ; auto. lia.
  Qed.

  Lemma safe_map_err {A} (P : positive -> A -> Prop) m f p :
    (forall m' e, (m <= m')%positive -> err_in m' e -> err_in m' (f e)) ->
    safe P m p -> safe P m (map_err f p).
  Proof.
    intros Hf H. induction H; cbn [bind map_err attempt]; try (constructor; auto; fail).
    - constructor. apply Hf; auto. lia.
    - econstructor; eauto. intros. apply H1; auto. intros. apply Hf; auto. lia.
    - econstructor; eauto; intros.
      + apply H1; auto. intros. apply Hf; auto. lia.
      + apply H3; auto. intros. apply Hf; auto. lia.
  Qed.

  Lemma safe_attempt {A} (P : positive -> A -> Prop) m p :
    safe P m p ->
    safe (fun m' r => match r with inl a => P m' a | inr e => err_in m' e end) m (attempt p).
  Proof.
    intros H. induction H; cbn [bind map_err attempt]; constructor; auto.
  Qed.

  Definition anyv {A} (_ : positive) (_ : A) : Prop := True.

  Lemma safe_do {B} (o : op B) m : op_in m o -> safe (fun m' b => res_in m' o b) m (do o).
  Proof. intros. econstructor; eauto. intros. constructor; auto. Qed.
  Lemma safe_print m s : safe anyv m (print s).
  Proof. unfold print. econstructor; simpl; auto. intros. constructor. exact I. Qed.
  Lemma safe_fail {A} (P : positive -> A -> Prop) m s : safe P m (fail s).
  Proof. constructor. apply base_error_in. Qed.
  Lemma safe_ev_wrap m f x e :
    val_in m x -> env_in m e ->
    (forall m' er, (m <= m')%positive -> err_in m' er -> err_in m' (f er)) ->
    safe val_in m (ev_wrap f x e).
  Proof.
    intros. econstructor; simpl; auto; intros; constructor; auto.
  Qed.
  Lemma safe_checked m f o :
    op_in m o ->
    (forall m' b, res_in m' o b -> opt_in (err_in m') b) ->
    (forall m' er, (m <= m')%positive -> err_in m' er -> err_in m' (f er)) ->
    safe anyv m (checked f o).
  Proof.
    intros H1 H2 H3. econstructor; eauto. intros m' b L R. apply H2 in R.
    destruct b; simpl in *; constructor; first [exact I|auto].
  Qed.
  Lemma safe_val_ m p : safe val_in m p -> safe tres_in m (val_ p).
  Proof. intros. eapply safe_bind; eauto. intros. constructor. auto. Qed.

  Lemma ext_ok m s : forall m' er, (m <= m')%positive -> err_in m' er -> err_in m' (extend s er).
  Proof. intros. now apply extend_in. Qed.

  Lemma expected_list_in m v : err_in m (expected_list v).
  Proof. apply base_error_in. Qed.
  Lemma cxr_path_in m s : forall acc, val_in m acc -> val_in m (cxr_path acc s).
  Proof.
    induction s as [|c s IH]; simpl; intros; auto. destruct s; auto. apply IH. simpl. auto.
  Qed.
  Lemma cxr_lambda_in m s e : env_in m e -> val_in m (cxr_lambda s e).
  Proof.
    intros. unfold cxr_lambda, vlist. simpl. split; [|split; [exact I|assumption]]. repeat split; auto. apply cxr_path_in; simpl; auto.
  Qed.
  Local Opaque base_error extend extend_with words strings_to_list expected_list vlist.

  (** ** Tactics. *)
  Ltac up :=
    match goal with
    | |- True => exact I
    | |- anyv _ _ => exact I
    | |- _ /\ _ => split; up
    | H : _ /\ _ |- _ => destruct H; up
    | H : Forall _ (_ :: _) |- _ => inversion H; subst; clear H; up
    | H : vals_in _ (_ :: _) |- _ => inversion H; subst; clear H; up
    | H : val_in ?m ?v |- val_in ?m' ?v => apply (val_in_mono m m' v); [lia|exact H]
    | H : env_in ?m ?v |- env_in ?m' ?v => apply (env_in_mono m m' v); [lia|exact H]
    | H : vals_in ?m ?v |- vals_in ?m' ?v => apply (vals_in_mono m m' v); [lia|exact H]
    | H : Forall (val_in ?m) ?v |- vals_in ?m' ?v => apply (vals_in_mono m m' v); [lia|exact H]
    | H : Forall (val_in ?m) ?v |- Forall (val_in ?m') ?v => apply (vals_in_mono m m' v); [lia|exact H]
    | H : vals_in ?m ?v |- Forall (val_in ?m') ?v => apply (vals_in_mono m m' v); [lia|exact H]
    | H : err_in ?m ?v |- err_in ?m' ?v => apply (err_in_mono m m' v); [lia|exact H]
    | |- err_in _ (base_error _) => apply base_error_in
    | |- err_in _ (extend_with _ _) => apply extend_with_in; up
    | |- err_in _ (extend _ _) => apply extend_in; up
    | |- err_in _ (expected_list _) => apply expected_list_in
    | |- val_in _ (vlist _) => apply vlist_in; up
    | |- val_in _ (words _) => apply words_in
    | |- val_in _ (strings_to_list _) => apply strings_in
    | |- val_in _ (truth _) => apply truth_in
    | |- vals_in _ [] => constructor
    | |- vals_in _ (_ :: _) => constructor; up
    | |- Forall _ [] => constructor
    | |- Forall (val_in _) (_ :: _) => constructor; up
    | |- forall m' er, (_ <= m')%positive -> err_in m' er -> err_in m' _ => intros; unfold idE; up
    | |- forall m' b, res_in m' _ b -> opt_in (err_in m') b => intros ? ? ?; assumption
    | |- op_in _ _ => progress simpl; up
    | |- call_in _ _ => progress simpl; up
    | |- tres_in _ _ => progress simpl; up
    | |- val_in _ _ => progress simpl; up
    | |- err_in _ _ => progress simpl; up
    | _ => auto
    end.
  Ltac sf1 :=
    match goal with
    | |- safe _ _ (Ret _) => apply safe_ret
    | |- safe _ _ (Raise _) => apply safe_raise
    | |- safe _ _ (Panic _) => apply safe_panic
    | |- safe _ _ (Exit _) => apply safe_exit
    | |- safe _ _ (fail _) => apply safe_fail
    | |- safe _ _ bad_binding => apply safe_fail
    | |- safe _ _ cast_panic => apply safe_panic
    | |- safe _ _ nil_panic => apply safe_panic
    | |- safe _ _ (bind (print _) _) => eapply safe_bind; [apply safe_print|intros ? ? ? ?]
    | |- safe _ _ (bind (ev_wrap _ _ _) _) => eapply safe_bind; [apply safe_ev_wrap|intros ? ? ? ?]
    | |- safe _ _ (bind (checked _ _) _) => eapply safe_bind; [apply safe_checked|intros ? ? ? ?]
    | |- safe _ _ (Op _ _) => apply safe_op; [|intros ? ? ? ?]
    | |- safe _ _ (Sub _ _ _) => apply safe_sub; [|intros ? ? ? ?|intros ? ? ? ?]
    | |- safe _ _ (val_ _) => apply safe_val_
    | |- safe _ _ (ev_wrap _ _ _) => apply safe_ev_wrap
    | |- safe _ _ (checked _ _) => apply safe_checked
    | |- safe _ _ (if ?b then _ else _) => destruct b eqn:?
    | |- safe _ _ (match ?x with _ => _ end) => destruct x eqn:?; subst
    end; simpl in *.
  Ltac sf := repeat sf1; up.

  (** ** The evaluator. *)
  Lemma ev_atom_safe m s e : env_in m e -> safe val_in m (ev_atom s e).
  Proof. intros. unfold ev_atom. sf. Qed.

  Lemma lambda_args_in m l er : lambda_args l = inl er -> err_in m er.
  Proof.
    revert er. induction l; simpl; intros er E; try discriminate.
    destruct l1; try (injection E as <-; apply base_error_in).
    - destruct l2; try discriminate; try (injection E as <-; apply base_error_in).
      destruct (lambda_args (VCons l2_1 l2_2)) as [|[]]; [|discriminate]. injection E as <-. auto.
    - destruct l2; try discriminate; try (injection E as <-; apply base_error_in).
      destruct (String.eqb s ""); try discriminate. injection E as <-; apply base_error_in.
  Qed.
  Lemma split_doc_in m body :
    val_in m body ->
    match split_doc body with
    | DocOk doc b => val_in m doc /\ val_in m b
    | DocErr e => err_in m e
    | DocPanic => True
    end.
  Proof.
    intros H. unfold split_doc. destruct body; simpl; auto.
    destruct body1; simpl in *; auto.
    destruct (val_equal body1_1 (VAtom "doc")); simpl; auto.
    destruct (is_conscell body1_2) eqn:E; [|apply base_error_in].
    destruct (is_conscell body2); auto.
    destruct body1_2; simpl in *; try tauto. destruct (is_nil body1_2_1); simpl; tauto.
  Qed.
  Lemma mk_lambda_rest_safe m name cdr macro e :
    val_in m cdr -> env_in m e -> safe val_in m (mk_lambda_rest name cdr macro e).
  Proof.
    intros V E. unfold mk_lambda_rest. destruct cdr; try apply safe_fail.
    destruct (is_conscell cdr1); [|apply safe_fail].
    destruct (lambda_args cdr1) as [er|[args rest]] eqn:L.
    { constructor. eapply lambda_args_in; eauto. }
    destruct (is_conscell cdr2); [|apply safe_panic].
    pose proof (split_doc_in m cdr2 ltac:(simpl in V; tauto)) as D.
    destruct (split_doc cdr2); try (constructor; auto; fail).
    sf.
  Qed.
  Lemma mk_lambda_safe m cdr macro e :
    val_in m cdr -> env_in m e -> safe val_in m (mk_lambda cdr macro e).
  Proof.
    intros V E. unfold mk_lambda. destruct cdr; try apply safe_fail.
    destruct cdr1; try (apply mk_lambda_rest_safe; auto; fail).
    sf1; [|apply safe_panic]. apply mk_lambda_rest_safe; auto; simpl in *; tauto.
  Qed.
  Lemma bind_params_safe e names : forall m vals,
    env_in m e -> vals_in m vals -> safe anyv m (bind_params e names vals).
  Proof.
    induction names as [|n names IH]; intros m vals E V; destruct vals as [|v vals]; simpl;
      try (constructor; exact I).
    sf1; try up. apply IH; up.
  Qed.
  Lemma skipn_in m n l : vals_in m l -> vals_in m (skipn n l).
  Proof.
    revert l. induction n; intros l H; simpl; auto. destruct l; auto. inversion H; subst. apply IHn. auto.
  Qed.
  Lemma set_lambda_args_safe m e args rest vals :
    env_in m e -> vals_in m vals -> safe anyv m (set_lambda_args e args rest vals).
  Proof.
    intros E V. unfold set_lambda_args. repeat sf1; try up.
    - apply skipn_in; auto.
    - apply bind_params_safe; up.
    - apply bind_params_safe; up.
  Qed.

  Definition vopt_in m (o : option val) := opt_in (val_in m) o.
  Lemma macro_of_safe m x e : val_in m x -> env_in m e -> safe vopt_in m (macro_of x e).
  Proof. intros. unfold macro_of. sf. Qed.
  Lemma macro_body_safe body : forall m ret e,
    val_in m body -> val_in m ret -> env_in m e -> safe val_in m (macro_body body ret e).
  Proof.
    induction body; intros m ret e B R E; simpl in *; try apply safe_fail; try (sf; fail).
    sf1; try up. apply IHbody2; up.
  Qed.
  Lemma macroexpand1_safe m x e : val_in m x -> env_in m e -> safe val_in m (macroexpand1 x e).
  Proof.
    intros V E. unfold macroexpand1. eapply safe_bind; [apply macro_of_safe; auto|].
    intros m1 o L O. destruct o as [v|]; [|sf].
    destruct v; try (sf; fail). destruct x; try (sf; fail). simpl in *.
    destruct (cons_to_exprs x2) eqn:CE; [|sf].
    apply safe_op; [up|]. intros m2 ne L2 NE.
    eapply safe_bind.
    - apply safe_map_err; [up|]. apply set_lambda_args_safe; [up|].
      eapply vals_in_mono; [|eapply cons_to_exprs_in; [|eauto]]; [|destruct V; eauto]. lia.
    - intros m3 u L3 _. simpl in NE. apply macro_body_safe; up.
  Qed.
  Lemma step_expand_safe m x e : val_in m x -> env_in m e -> safe tres_in m (step_expand x e).
  Proof.
    intros. unfold step_expand. eapply safe_bind.
    - apply safe_map_err; [up|]. apply macroexpand1_safe; auto.
    - intros m1 r L R. eapply safe_bind; [apply macro_of_safe; up|].
      intros m2 o L2 O. sf.
  Qed.

  Lemma second_of_in m v x : val_in m v -> second_of v = Some x -> val_in m x.
  Proof.
    destruct v; simpl; try discriminate. destruct v2; simpl; try discriminate.
    intros ? [= <-]. tauto.
  Qed.
  Fixpoint vsize (v : val) : nat :=
    match v with VCons a d => S (vsize a + vsize d) | _ => 1 end.
  Local Transparent vlist.
  Lemma syntax_quote_in m : forall n x y,
    (vsize x <= n)%nat -> val_in m x -> syntax_quote x = Some y -> val_in m y.
  Proof.
    induction n as [|n IH]; intros x y S V E.
    { destruct x; simpl in S; lia. }
    destruct x; simpl in E; try (injection E as <-; simpl in *; auto; fail).
    destruct (match x1 with VAtom a => String.eqb a "unquote" | _ => false end).
    { destruct x2; try discriminate. injection E as <-. simpl in V. tauto. }
    clear -IH S V E.
    match type of E with (if is_conscell x2 then match ?f x2 with _ => _ end else _) = _ =>
      set (splice := f) in *
    end.
    assert (SP : forall l z, (vsize l <= n)%nat -> val_in m l -> splice l = Some z -> val_in m z).
    { clear -IH. induction l; simpl; intros z S V E; try (injection E as <-; simpl; auto; fail).
      destruct (is_conscell l2); [|injection E as <-; simpl; tauto].
      destruct (splice l2) as [nx|] eqn:E2; [|discriminate].
      assert (val_in m nx) by (apply (IHl2 nx); auto; [lia|tauto]).
      destruct (starts_with l1 "splicing-unquote").
      - destruct (second_of l1) eqn:E3; [|discriminate]. injection E as <-.
        simpl. repeat split; auto. eapply second_of_in; [|eauto]; tauto.
      - destruct (syntax_quote l1) eqn:E3; [|discriminate]. injection E as <-.
        simpl. repeat split; auto. apply (IH l1); auto; [lia|tauto]. }
    simpl in S, V.
    destruct (is_conscell x2); [|injection E as <-; simpl; tauto].
    destruct (splice x2) as [nx|] eqn:E2; [|discriminate].
    assert (val_in m nx) by (apply (SP x2); auto; [lia|tauto]).
    destruct (starts_with x1 "splicing-unquote").
    - destruct (second_of x1) eqn:E3; [|discriminate]. injection E as <-.
      simpl. repeat split; auto. eapply second_of_in; [|eauto]; tauto.
    - destruct (syntax_quote x1) eqn:E3; [|discriminate]. injection E as <-.
      simpl. repeat split; auto. apply (IH x1); auto; [lia|tauto].
  Qed.

  Local Opaque vlist.
  Lemma test_loop_safe l : forall m e, val_in m l -> env_in m e -> safe val_in m (test_loop l e).
  Proof.
    induction l; intros m e V E; simpl in *; try apply safe_fail; try (sf; fail).
    sf1; try up. sf1. apply IHl2; up.
  Qed.
  Lemma ev_test_safe m b e : val_in m b -> env_in m e -> safe val_in m (ev_test b e).
  Proof.
    intros. unfold ev_test. destruct b; try (sf; fail). simpl in *. sf1; try up. sf1.
    apply test_loop_safe; up.
  Qed.
  Lemma cond_loop_safe l : forall m e, val_in m l -> env_in m e -> safe tres_in m (cond_loop l e).
  Proof.
    induction l; intros m e V E; simpl in *; try (sf; fail).
    destruct l1; try apply safe_fail. simpl in V. sf1; try up. sf1.
    - apply IHl2; up.
    - sf.
  Qed.
  Lemma and_loop_safe l : forall m e, val_in m l -> env_in m e -> safe val_in m (and_loop l e).
  Proof.
    induction l; intros m e V E; simpl in *; try (sf; fail).
    sf1; try up. sf1; try (sf; fail). apply IHl2; up.
  Qed.
  Lemma or_loop_safe l : forall m e, val_in m l -> env_in m e -> safe val_in m (or_loop l e).
  Proof.
    induction l; intros m e V E; simpl in *; try (sf; fail).
    sf1; try up. sf1; try (sf; fail). apply IHl2; up.
  Qed.
  Lemma loop_body_safe l : forall m e, val_in m l -> env_in m e -> safe anyv m (loop_body l e).
  Proof.
    induction l; intros m e V E; simpl in *; try (sf; fail).
    sf1; try up. apply IHl2; up.
  Qed.
  Lemma step_loop_safe l m e : val_in m l -> env_in m e -> safe tres_in m (step_loop l e).
  Proof.
    intros. unfold step_loop. eapply safe_bind; [apply loop_body_safe; auto|]. intros. sf.
  Qed.
  Lemma swallow_loop_safe l : forall m e, val_in m l -> env_in m e -> safe val_in m (swallow_loop l e).
  Proof.
    induction l; intros m e V E; simpl in *; try (sf; fail).
    sf1; try (sf; fail). apply IHl2; up.
  Qed.
  Lemma ev_def_safe m l e : val_in m l -> env_in m e -> safe val_in m (ev_def l e).
  Proof.
    intros. unfold ev_def. sf.
  Qed.
  Lemma ev_set_safe m l e : val_in m l -> env_in m e -> safe val_in m (ev_set l e).
  Proof. intros. unfold ev_set. sf. Qed.
  Lemma ev_defn_safe m l b e : val_in m l -> env_in m e -> safe val_in m (ev_defn l b e).
  Proof.
    intros V E. unfold ev_defn. destruct l; try apply safe_fail. destruct l1; try apply safe_fail.
    destruct l2; try (sf; fail).
    eapply safe_bind.
    - apply safe_map_err; [up|]. apply mk_lambda_safe; auto. simpl in *; tauto.
    - intros. sf.
  Qed.
  Lemma ev_error_safe m l e : val_in m l -> env_in m e -> safe val_in m (ev_error l e).
  Proof. intros. unfold ev_error. sf. Qed.
  Lemma errors_loop_safe sig all l : forall m e,
    val_in m l -> env_in m e -> safe val_in m (errors_loop sig all l e).
  Proof.
    induction l; intros m e V E; simpl in *; try (sf; fail).
    sf1; try (sf; fail). apply IHl2; up.
  Qed.
  Lemma ev_errors_safe m l e : val_in m l -> env_in m e -> safe val_in m (ev_errors l e).
  Proof.
    intros V E. unfold ev_errors. destruct l; try apply safe_fail.
    sf1; [|apply safe_fail]. sf1; try up. sf1; [|apply safe_fail]. sf1; [|apply safe_panic].
    apply errors_loop_safe; up.
  Qed.
  Lemma catch_body_safe l : forall m ret e,
    val_in m l -> val_in m ret -> env_in m e -> safe val_in m (catch_body l ret e).
  Proof.
    induction l; intros m ret e V R E; simpl in *; try (sf; fail).
    sf1; try up. apply IHl2; up.
  Qed.
  Lemma ev_catch_safe m c er ret e :
    val_in m c -> err_in m er -> val_in m ret -> env_in m e -> safe val_in m (ev_catch c er ret e).
  Proof.
    intros V R RR E. unfold ev_catch. destruct c; try (sf; fail). destruct c1; try (sf; fail).
    sf1; try up. sf1; try apply safe_fail. sf1; try up. sf1; [|apply safe_fail].
    apply catch_body_safe; up.
  Qed.
  Lemma try_loop_safe l : forall m ret er e,
    val_in m l -> val_in m ret -> opt_in (err_in m) er -> env_in m e -> safe val_in m (try_loop l ret er e).
  Proof.
    induction l; intros m ret er e V R RR E; simpl in *; try (sf; fail).
    assert (GO : safe val_in m match er with
      | Some _ => try_loop l2 ret er e
      | None => Sub (CEval l1 e) (fun v => try_loop l2 v None e)
                  (fun er' => try_loop l2 ret (Some er') e) end).
    { destruct er; [apply IHl2; up|]. sf1; [up| |]; apply IHl2; up. }
    destruct l1; auto. destruct l1_1; auto. destruct (String.eqb s "catch"); auto.
    destruct er; [|sf]. simpl in V. apply ev_catch_safe; up.
  Qed.
  Lemma body_loop_safe wrap l :
    (forall m m' x er, (m <= m')%positive -> val_in m x -> err_in m' er -> err_in m' (wrap x er)) ->
    forall m ret e,
    val_in m l -> val_in m ret -> env_in m e -> safe tres_in m (body_loop wrap l ret e).
  Proof.
    intros W. induction l; intros m ret e V R E; cbn [body_loop].
    1-3,5-6: sf.
    assert (X : safe tres_in m (v <- ev_wrap (wrap l1) l1 e ;; body_loop wrap l2 v e)).
    { simpl in V. eapply safe_bind; [apply safe_ev_wrap; [up|up|]|].
      - intros. apply (W m); auto. tauto.
      - intros. apply IHl2; up. }
    destruct l2; auto. constructor. simpl in *. up.
  Qed.
  Lemma let_bindings_safe l : forall m e ne,
    val_in m l -> env_in m e -> env_in m ne -> safe anyv m (let_bindings l e ne).
  Proof.
    induction l; intros m e ne V E NE; simpl in *; try (sf; fail).
    destruct l1; try (sf; fail). destruct l1_1; try (sf; fail). destruct l1_2; try (sf; fail).
    simpl in V. sf1; try up. sf1; try up. apply IHl2; up.
  Qed.
  Lemma ev_let_safe m l e : val_in m l -> env_in m e -> safe tres_in m (ev_let l e).
  Proof.
    intros V E. unfold ev_let. destruct l; try apply safe_fail. sf1; [|apply safe_fail].
    sf1; [|apply safe_fail]. sf1; [up|]. eapply safe_bind; [apply let_bindings_safe; up|].
    intros. sf1; [|sf]. apply body_loop_safe; up. intros. up.
  Qed.
  Lemma ev_quote_safe m l : val_in m l -> safe val_in m (ev_quote l).
  Proof. intros. unfold ev_quote. sf. Qed.
  Lemma ev_syntax_quote_safe m l e : val_in m l -> env_in m e -> safe tres_in m (ev_syntax_quote l e).
  Proof.
    intros. unfold ev_syntax_quote. destruct l; try apply safe_fail.
    destruct (syntax_quote l1) eqn:SQ; [|apply safe_panic]. constructor. simpl. split; auto.
    eapply syntax_quote_in; [reflexivity| |eauto]. simpl in H; tauto.
  Qed.
  Lemma special_safe m f l e : val_in m l -> env_in m e -> safe tres_in m (special f l e).
  Proof.
    intros. destruct f; cbn [special].
    - apply safe_val_. now apply ev_quote_safe.
    - now apply ev_syntax_quote_safe.
    - apply safe_val_. apply safe_map_err; [up|]. now apply ev_test_safe.
    - now apply cond_loop_safe.
    - apply safe_val_. now apply and_loop_safe.
    - apply safe_val_. now apply or_loop_safe.
    - sf.
    - apply safe_val_. now apply swallow_loop_safe.
    - apply safe_val_. now apply ev_def_safe.
    - apply safe_val_. now apply ev_set_safe.
    - apply safe_val_. now apply ev_defn_safe.
    - apply safe_val_. now apply ev_defn_safe.
    - apply safe_val_. now apply ev_error_safe.
    - apply safe_val_. now apply ev_errors_safe.
    - apply safe_val_. apply try_loop_safe; simpl; auto.
    - now apply ev_let_safe.
    - apply safe_val_. now apply mk_lambda_safe.
  Qed.
  Lemma ev_args_safe l : forall m e, val_in m l -> env_in m e -> safe vals_in m (ev_args l e).
  Proof.
    induction l; intros m e V E; simpl in *; try (sf; fail).
    sf1; try up. eapply safe_bind; [apply IHl2; up|]. intros. sf.
  Qed.
  Lemma lambda_wrap_in m m' x er :
    (m <= m')%positive -> val_in m x -> err_in m' er -> err_in m' (lambda_wrap x er).
  Proof. intros. unfold lambda_wrap. apply extend_with_in; auto. up. Qed.
  Lemma call_fn_safe m f args e :
    val_in m f -> vals_in m args -> env_in m e -> safe tres_in m (call_fn f args e).
  Proof.
    intros F A E. unfold call_fn. destruct f; try apply safe_fail.
    - simpl in F. sf1; [up|]. eapply safe_bind.
      + apply safe_map_err; [up|]. apply set_lambda_args_safe; up.
      + intros. apply body_loop_safe; up. intros. eapply lambda_wrap_in; eauto.
    - sf.
  Qed.
  Lemma ev_call_safe m f args e :
    val_in m f -> val_in m args -> env_in m e -> safe tres_in m (ev_call f args e).
  Proof.
    intros. unfold ev_call. sf1; try up. eapply safe_bind; [apply ev_args_safe; up|].
    intros. apply call_fn_safe; up.
  Qed.
  Lemma dispatch_safe m x e : val_in m x -> env_in m e -> safe tres_in m (dispatch x e).
  Proof.
    intros V E. unfold dispatch. destruct x; try (sf; fail).
    - sf1; [constructor; now apply cxr_lambda_in|]. apply safe_val_. now apply ev_atom_safe.
    - simpl in V. sf1; [|apply safe_fail].
      destruct x1; try (apply ev_call_safe; simpl in *; tauto).
      destruct (sform_of s); [apply special_safe|apply ev_call_safe]; simpl; tauto.
  Qed.
  Lemma step_eval_safe m x e : val_in m x -> env_in m e -> safe tres_in m (step_eval x e).
  Proof.
    intros. unfold step_eval. eapply safe_bind; [apply macro_of_safe; auto|]. intros m1 o L O.
    destruct o; [|apply dispatch_safe; up]. sf1; [up| |sf]. apply dispatch_safe; up.
  Qed.

  Lemma eval_exprs_safe xs : forall m e b,
    vals_in m xs -> env_in m e -> safe anyv m (eval_exprs xs e b).
  Proof.
    induction xs as [|x xs IH]; intros m e b V E; simpl; [constructor; exact I|].
    inversion V; subst. sf1; [up| |].
    - eapply safe_bind; [instantiate (1 := anyv); destruct b; [apply safe_print|constructor; exact I]|].
      intros. apply IH; up.
    - eapply safe_bind; [instantiate (1 := anyv); destruct b; [apply safe_print|constructor; exact I]|].
      intros. sf.
  Qed.

  (** ** The reader yields plain data. *)
  Lemma pwrap_ok {A} msg (r : presult A) a : pwrap msg r = POk a -> r = POk a.
  Proof. destruct r; simpl; intros; congruence. Qed.
  Lemma pbind_ok {A B} (r : presult A) (f : A -> presult B) b :
    pbind r f = POk b -> exists a, r = POk a /\ f a = POk b.
  Proof. destruct r; simpl; intros; try discriminate; eauto. Qed.

  Lemma parse_in m : forall fuel,
    (forall toks i v n, parse_next fuel toks i = POk (v, n) -> val_in m v) /\
    (forall toks v n, parse_list fuel toks = POk (v, n) -> val_in m v) /\
    (forall toks xs, parse_toks fuel toks = POk xs -> vals_in m xs) /\
    (forall toks i xs, parse_loop fuel toks i = POk xs -> vals_in m xs).
  Proof.
    induction fuel as [|f (IH1 & IH2 & IH3 & IH4)]; [repeat split; intros; discriminate|].
    repeat split.
    - intros toks i v n H. simpl in H. destruct (nth_error toks i); [|discriminate].
      assert (Q : forall name msg, pwrap msg
                    (if (S i <? length toks)%nat then
                       pbind (pwrap "handleQuoteItem parseNext" (parse_next f toks (S i)))
                         (fun r => POk (vlist [VAtom name; fst r], S (snd r)))
                     else PErr (end_of_input toks (S i))) = POk (v, n) -> val_in m v).
      { intros name msg Q. apply pwrap_ok in Q. destruct (S i <? length toks)%nat; [|discriminate].
        apply pbind_ok in Q. destruct Q as ([w k] & Q & Q2). apply pwrap_ok in Q.
        injection Q2 as <- <-. apply IH1 in Q. up. }
      destruct (t_typ t); cbn [quote_op] in H; try discriminate; try exact (Q _ _ H);
        try (injection H as <- <-; simpl; exact I).
      apply pwrap_ok in H. eapply IH2; eauto.
    - intros toks v n H. simpl in H. destruct (list_chunk 0 0 toks) as [[ce []]|]; [| |discriminate].
      + apply pbind_ok in H. destruct H as (cars & H1 & H). apply IH3 in H1.
        destruct (dot_chunk 1 0 (skipn ce toks)); [|discriminate].
        apply pbind_ok in H. destruct H as (cdrs & H2 & H). apply IH3 in H2.
        destruct cdrs; [discriminate|]. injection H as <- <-. apply list_with_cdr_in; auto.
        inversion H2; auto.
      + apply pbind_ok in H. destruct H as (items & H1 & H). apply IH3 in H1.
        injection H as <- <-. now apply vlist_in.
    - intros toks xs H. simpl in H. destruct toks as [|t r]; [eauto|]. eauto.
    - intros toks i xs H. simpl in H. destruct (i <? length toks)%nat.
      + apply pbind_ok in H. destruct H as ([v n] & H1 & H). apply pwrap_ok in H1. apply IH1 in H1.
        apply pbind_ok in H. destruct H as (rest & H2 & H). apply IH4 in H2.
        injection H as <-. constructor; auto.
      + injection H as <-. constructor.
  Qed.
  Lemma lex_and_parse_in m ss xs : lex_and_parse ss = POk xs -> vals_in m xs.
  Proof. apply parse_in. Qed.

  Lemma parse_err_in m : forall fuel,
    (forall toks i er, parse_next fuel toks i = PErr er -> err_in m er) /\
    (forall toks er, parse_list fuel toks = PErr er -> err_in m er) /\
    (forall toks er, parse_toks fuel toks = PErr er -> err_in m er) /\
    (forall toks i er, parse_loop fuel toks i = PErr er -> err_in m er).
  Proof.
    assert (PB : forall A B (r : presult A) (f : A -> presult B) er,
      (forall er, r = PErr er -> err_in m er) -> (forall a er, f a = PErr er -> err_in m er) ->
      pbind r f = PErr er -> err_in m er).
    { intros A B r f er H1 H2. destruct r; simpl; intros; try discriminate; eauto.
      apply H1. congruence. }
    assert (PW : forall A (r : presult A) msg er,
      (forall er, r = PErr er -> err_in m er) -> pwrap msg r = PErr er -> err_in m er).
    { intros A r msg er H1. destruct r; simpl; intros; try discriminate. injection H as <-.
      apply extend_in. apply H1. auto. }
    assert (BE : forall s er, base_error s = er -> err_in m er).
    { intros s er <-. apply base_error_in. }
    induction fuel as [|f (IH1 & IH2 & IH3 & IH4)]; [repeat split; intros; discriminate|].
    repeat split.
    - intros toks i er H. simpl in H. destruct (nth_error toks i).
      2:{ injection H as <-. unfold end_of_input. apply base_error_in. }
      assert (Q : forall name msg er, pwrap msg
                    (if (S i <? length toks)%nat then
                       pbind (pwrap "handleQuoteItem parseNext" (parse_next f toks (S i)))
                         (fun r => POk (vlist [VAtom name; fst r], S (snd r)))
                     else PErr (end_of_input toks (S i))) = PErr er -> err_in m er).
      { intros name msg er0 Q. eapply PW; [|exact Q]. intros er1.
        destruct (S i <? length toks)%nat.
        - apply PB.
          + intros er2. apply PW. eauto.
          + intros; discriminate.
        - intros [= <-]. apply base_error_in. }
      destruct (t_typ t); cbn [quote_op] in H; try discriminate; try exact (Q _ _ _ H);
        try (injection H as <-; apply base_error_in).
      eapply PW; [|exact H]. eauto.
    - intros toks er H. simpl in H. destruct (list_chunk 0 0 toks) as [[ce []]|].
      + revert H. apply PB; [eauto|]. intros cars er1.
        destruct (dot_chunk 1 0 (skipn ce toks)); [|intros [= <-]; apply base_error_in].
        apply PB; [eauto|]. intros [|c l] er2; discriminate.
      + revert H. apply PB; [eauto|]. discriminate.
      + injection H as <-. apply base_error_in.
    - intros toks xs H. simpl in H. eauto.
    - intros toks i er H. simpl in H. destruct (i <? length toks)%nat; [|discriminate].
      revert H. apply PB.
      + intros er1. apply PW. eauto.
      + intros a er1. apply PB; [eauto|]. discriminate.
  Qed.

  Lemma parsed_safe m ss k :
    (forall m' xs, (m <= m')%positive -> vals_in m' xs -> safe val_in m' (k xs)) ->
    safe val_in m (parsed (lex_and_parse ss) k).
  Proof.
    intros H. destruct (lex_and_parse ss) eqn:E; simpl; try constructor.
    - apply H; [lia|]. eapply lex_and_parse_in; eauto.
    - eapply (proj1 (proj2 (proj2 (parse_err_in m _)))). exact E.
  Qed.
  Lemma lex_parse_eval_safe m s e : env_in m e -> safe val_in m (lex_parse_eval s e).
  Proof.
    intros. unfold lex_parse_eval. apply parsed_safe. intros.
    eapply safe_bind; [apply eval_exprs_safe; up|]. intros. sf.
  Qed.
  Lemma load_file_safe m e s : env_in m e -> safe val_in m (load_file e s).
  Proof.
    intros. unfold load_file. sf1; [exact I|]. sf1; [sf|]. apply lex_parse_eval_safe; up.
  Qed.

  (** ** Native functions. *)
  Local Opaque words.
  Lemma num_fold_safe m f args : forall acc, safe val_in m (num_fold f acc args).
  Proof. induction args as [|[] args IH]; intros; simpl; try apply safe_fail; auto. sf. Qed.
  Lemma div_fold_safe m args : forall acc, safe val_in m (div_fold acc args).
  Proof.
    induction args as [|[] args IH]; intros; simpl; try apply safe_fail; auto; [sf|].
    destruct (n =? 0)%Z; auto. apply safe_fail.
  Qed.
  Lemma compare_fold_safe m f args : forall acc, safe val_in m (compare_fold f acc args).
  Proof.
    induction args as [|[] args IH]; intros; simpl; try apply safe_fail; [sf|].
    destruct (f acc n); auto. sf.
  Qed.
  Lemma compare_nums_safe m f args : safe val_in m (compare_nums f args).
  Proof.
    destruct args as [|[] args]; simpl; try apply safe_fail. apply compare_fold_safe.
  Qed.
  Lemma equal_fold_in m x args : val_in m (equal_fold x args).
  Proof. induction args; simpl; auto. destruct (val_equal x a); simpl; auto. Qed.
  Lemma apply_body_safe l : forall m ret e,
    val_in m l -> val_in m ret -> env_in m e -> safe val_in m (apply_body l ret e).
  Proof.
    induction l; intros m ret e V R E; cbn [apply_body]; try (sf; fail).
    simpl in V. eapply safe_bind; [apply safe_ev_wrap; up|]. intros. apply IHl2; up.
  Qed.
  Lemma apply_values_safe m f args e :
    val_in m f -> vals_in m args -> env_in m e -> safe val_in m (apply_values f args e).
  Proof.
    intros F A E. unfold apply_values. destruct f; try apply safe_fail.
    - simpl in F. sf1; [up|]. eapply safe_bind.
      + apply safe_map_err; [up|]. apply set_lambda_args_safe; up.
      + intros. apply apply_body_safe; up.
    - sf.
  Qed.
  Lemma removelast_in m l : vals_in m l -> vals_in m (removelast l).
  Proof.
    unfold vals_in. rewrite !Forall_forall. intros H x I. apply H.
    clear -I. induction l as [|a [|b l] IH]; simpl in *; auto. destruct I; auto.
  Qed.
  Lemma last_in m l : vals_in m l -> val_in m (last l VNil).
  Proof.
    induction 1 as [|a l V VS IH]; [exact I|]. destruct l; simpl in *; auto.
  Qed.
  Lemma app_in m l l' : vals_in m l -> vals_in m l' -> vals_in m (l ++ l').
  Proof. unfold vals_in. rewrite Forall_app. auto. Qed.
  Lemma apply_fn_safe m args e : vals_in m args -> env_in m e -> safe val_in m (apply_fn args e).
  Proof.
    intros A E. unfold apply_fn. destruct args as [|f [|a more]]; try apply safe_fail.
    inversion A; subst. pose proof (removelast_in _ _ H2). pose proof (last_in _ _ H2).
    destruct (is_conscell (last (a :: more) VNil)); [|apply safe_fail].
    destruct (cons_to_exprs (last (a :: more) VNil)) eqn:CE; [|sf].
    apply apply_values_safe; auto. apply app_in; auto. eapply cons_to_exprs_in; eauto.
  Qed.
  Lemma list_of_chars_in m f : forall s, val_in m (list_of_chars f s).
  Proof.
    induction f; intros s; simpl; auto. destruct s; simpl; auto.
    destruct (first_rune (String a s)). simpl. auto.
  Qed.
  Lemma list_of_nums_in m : forall n s, (String.length s <= n)%nat ->
    match list_of_nums s with inl er => err_in m er | inr v => val_in m v end.
  Proof.
    induction n; intros s L; destruct s; simpl in *; auto; try lia.
    destruct (Ascii.eqb a ch_minus).
    - destruct s; [apply base_error_in|]. simpl in L. specialize (IHn s ltac:(lia)).
      destruct (list_of_nums s); auto. simpl. auto.
    - specialize (IHn s ltac:(lia)). destruct (list_of_nums s); auto. simpl; auto.
  Qed.
  Lemma insert_rev_in m lt x l : val_in m x -> vals_in m l -> vals_in m (insert_rev lt x l).
  Proof.
    intros X. induction 1; simpl; [constructor; auto; constructor|].
    destruct (lt x x0); repeat constructor; auto.
  Qed.
  Lemma sort_rev_in m lt l : forall acc, vals_in m acc -> vals_in m l -> vals_in m (sort_rev lt acc l).
  Proof.
    induction l; intros acc A L; simpl; auto. inversion L; subst. apply IHl; auto.
    now apply insert_rev_in.
  Qed.
  Lemma rev_in m l : vals_in m l -> vals_in m (rev l).
  Proof. unfold vals_in. intros. now apply Forall_rev. Qed.
  Lemma sort_prog_safe m xs : vals_in m xs -> safe val_in m (sort_prog xs).
  Proof.
    intros V. unfold sort_prog. destruct xs as [|x r]; [sf|].
    destruct (find _ r); [apply safe_fail|].
    assert (safe val_in m (Ret (vlist (sort_slice val_less (x :: r))))).
    { constructor. apply vlist_in. unfold sort_slice. apply rev_in. apply sort_rev_in; auto. constructor. }
    destruct x; auto; apply safe_fail.
  Qed.

  Definition berr_in m (r : bool * option err) : Prop := opt_in (err_in m) (snd r).
  Definition lerr_in m (r : list val * option err) : Prop :=
    vals_in m (fst r) /\ opt_in (err_in m) (snd r).
  Lemma opt_err_mono m m' o :
    (m <= m')%positive -> opt_in (err_in m) o -> opt_in (err_in m') o.
  Proof. destruct o; simpl; auto. intros. up. Qed.
  Lemma less_by_safe m f e x y er :
    val_in m f -> env_in m e -> val_in m x -> val_in m y -> opt_in (err_in m) er ->
    safe berr_in m (less_by f e x y er).
  Proof.
    intros F E X Y R. unfold less_by.
    apply safe_sub; [simpl; up| |].
    - intros m1 a1 L1 A1. apply safe_sub; [simpl; up| |].
      + intros m2 a2 L2 A2. destruct (same_type a1 a2).
        * destruct a1; constructor; unfold berr_in; simpl; try up;
            (eapply opt_err_mono; [|exact R]; lia).
        * constructor. unfold berr_in; simpl. up.
      + intros. constructor. unfold berr_in; simpl. up.
    - intros. constructor. unfold berr_in; simpl. up.
  Qed.
  Lemma insert_by_safe f e x l : forall m er,
    val_in m f -> env_in m e -> val_in m x -> vals_in m l -> opt_in (err_in m) er ->
    safe lerr_in m (insert_by f e x l er).
  Proof.
    induction l as [|y r IH]; intros m er F E X L R; simpl.
    - constructor. split; simpl; auto. up.
    - inversion L; subst. eapply safe_bind; [apply less_by_safe; auto|].
      intros m1 [b er1] L1 B. unfold berr_in in B. simpl in *. destruct b.
      + eapply safe_bind; [apply IH; up|]. intros m2 [q er2] L2 [Q1 Q2]. constructor. split; simpl in *; auto.
        constructor; [up|auto].
      + constructor. split; simpl; auto. constructor; [up|constructor; up].
  Qed.
  Lemma sort_by_loop_safe f e l : forall m acc er,
    val_in m f -> env_in m e -> vals_in m acc -> vals_in m l -> opt_in (err_in m) er ->
    safe lerr_in m (sort_by_loop f e acc l er).
  Proof.
    induction l as [|x r IH]; intros m acc er F E A L R; simpl.
    - constructor. split; auto.
    - inversion L; subst. eapply safe_bind; [apply insert_by_safe; auto|].
      intros m1 [q er1] L1 [Q1 Q2]. simpl in *. apply IH; up.
  Qed.

  Lemma nth_error_in m l i v : vals_in m l -> nth_error l i = Some v -> val_in m v.
  Proof. unfold vals_in. rewrite Forall_forall. intros H E. apply H. eapply nth_error_In; eauto. Qed.
  Lemma set_nth_in m v l : forall i, val_in m v -> vals_in m l -> vals_in m (set_nth i v l).
  Proof.
    induction l; intros i V L; destruct i; simpl; auto; inversion L; subst; constructor; auto.
    apply IHl; auto.
  Qed.
  Lemma swap_in m i j l : vals_in m l -> vals_in m (swap i j l).
  Proof.
    intros V. unfold swap. destruct (nth_error l i) eqn:E1; auto. destruct (nth_error l j) eqn:E2; auto.
    apply set_nth_in; [eapply nth_error_in; eauto|]. apply set_nth_in; auto. eapply nth_error_in; eauto.
  Qed.
  Lemma shuffle_loop_safe i : forall m l, vals_in m l -> safe vals_in m (shuffle_loop i l).
  Proof.
    induction i; intros m l V; cbn [shuffle_loop]; [constructor; auto|].
    apply safe_op; [exact I|]. intros. apply IHi. apply swap_in. up.
  Qed.
  Lemma draw_runes_safe f : forall m x y s, safe (fun _ _ => True) m (draw_runes f x y s).
  Proof.
    induction f as [|f IH]; intros m x y s; cbn [draw_runes]; [constructor; auto|]. destruct s; [constructor; auto|].
    destruct (first_rune _). apply safe_op; [exact I|]. intros. destruct (_ =? 0)%Z; apply safe_op; try exact I; intros; apply IH.
  Qed.
  Lemma shape_output_in m s : val_in m (shape_output s).
  Proof. unfold shape_output. apply vlist_in. induction (split_on ch_lf _); constructor; auto. apply strings_in. Qed.
  Lemma do_shell_safe m v : safe val_in m (do_shell v).
  Proof.
    unfold do_shell. destruct (shell_args v) as [[|a l]|]; try apply safe_fail.
    apply safe_op; [exact I|]. intros m1 r L R. destruct r as [|[[o e] c]]; [apply safe_fail|].
    constructor. apply vlist_in. repeat constructor; apply shape_output_in.
  Qed.

  Lemma combine_args_in m args rest : val_in m (combine_args args rest).
  Proof. induction args as [|a [|b r] IH]; simpl in *; auto. Qed.
  Lemma lambda_arglist_in m args rest : val_in m (lambda_arglist args rest).
  Proof.
    unfold lambda_arglist. destruct (String.eqb rest ""); [apply strings_in|apply combine_args_in].
  Qed.

  Definition form_in m (f : form_rec) : Prop := val_in m (f_doc f) /\ val_in m (f_args f).
  Lemma form_in_mono m m' f : (m <= m')%positive -> form_in m f -> form_in m' f.
  Proof. intros L [A B]. split; up. Qed.
  Definition forms_in m (l : list form_rec) : Prop := Forall (form_in m) l.
  Lemma forms_in_mono m m' l : (m <= m')%positive -> forms_in m l -> forms_in m' l.
  Proof. intros L. apply Forall_impl. intros. eapply form_in_mono; eauto. Qed.

  Lemma examples_in m doc ex : val_in m doc -> examples_of_doc doc = Some ex -> val_in m ex.
  Proof.
    induction doc; simpl; intros V E; try discriminate.
    - injection E as <-. exact I.
    - destruct doc1; try (injection E as <-; exact I).
      destruct (val_equal doc1_1 (VAtom "examples")); [|apply IHdoc2; tauto].
      destruct (is_conscell doc1_2); [|discriminate]. injection E as <-. simpl in V. tauto.
  Qed.
  Lemma run_examples_safe l : forall m e, val_in m l -> env_in m e -> safe anyv m (run_examples l e).
  Proof.
    induction l; intros m e V E; cbn [run_examples]; try (apply safe_panic); try (constructor; exact I).
    destruct (is_nil l1); [constructor; exact I|]. simpl in V. apply safe_sub; [simpl; up| |];
      intros; (eapply safe_bind; [apply IHl2; up|]); intros; constructor; exact I.
  Qed.
  Local Transparent words strings_to_list vlist.
  Fixpoint plain (v : val) : bool :=
    match v with
    | VCons a d => plain a && plain d
    | VLam _ _ _ _ _ _ | VBuiltin _ => false
    | _ => true
    end.
  Lemma plain_in m v : plain v = true -> val_in m v.
  Proof.
    induction v; simpl; intros H; auto; try discriminate. apply andb_prop in H. destruct H. auto.
  Qed.
  Lemma meta_plain :
    forallb (fun b => plain (m_args (builtin_meta b)) && plain (m_examples (builtin_meta b))
                      && plain (builtin_doc b)) all_builtins = true.
  Proof. vm_compute. reflexivity. Qed.
  Lemma meta_in m b : val_in m (m_args (builtin_meta b)) /\ val_in m (m_examples (builtin_meta b))
                      /\ val_in m (builtin_doc b).
  Proof.
    pose proof meta_plain as H. rewrite forallb_forall in H. specialize (H b).
    assert (I : In b all_builtins) by (destruct b; unfold all_builtins; simpl; tauto).
    apply H in I. apply andb_prop in I. destruct I as [I I3]. apply andb_prop in I. destruct I as [I1 I2].
    split; [|split]; now apply plain_in.
  Qed.
  Lemma special_meta_in m : Forall (fun s => val_in m (s_args s)) special_forms.
  Proof.
    assert (H : forallb (fun s => plain (s_args s)) special_forms = true) by (vm_compute; reflexivity).
    rewrite forallb_forall in H. apply Forall_forall. intros s I. apply plain_in. auto.
  Qed.
  Lemma doc_of_string_in m s : val_in m (doc_of_string s).
  Proof. unfold doc_of_string. apply vlist_in. repeat constructor. apply words_in. Qed.
  Local Opaque words strings_to_list vlist.

  Lemma builtin_forms_safe bs : forall m e, env_in m e -> safe forms_in m (builtin_forms bs e).
  Proof.
    induction bs as [|b bs IH]; intros m e E; cbn [builtin_forms]; [constructor; constructor|].
    destruct (meta_in m b) as (M1 & M2 & M3).
    eapply safe_bind; [apply run_examples_safe; auto|]. intros m1 u L1 _.
    eapply safe_bind; [apply IH; up|]. intros m2 r L2 R. constructor. constructor; auto.
    split; simpl; up.
  Qed.
  Lemma lambda_forms_safe ns : forall m e, env_in m e -> safe forms_in m (lambda_forms ns e).
  Proof.
    induction ns as [|n ns IH]; intros m e E; cbn [lambda_forms]; [constructor; constructor|].
    apply safe_op; [exact E|]. intros m1 v L1 V.
    destruct v as [[| | | |largs lrest lbody ldoc lmacro lenv|]|]; try (apply IH; up; fail).
    simpl in V. destruct (is_nil ldoc); [apply IH; up|].
    destruct (examples_of_doc ldoc) eqn:EX; [|apply safe_panic].
    eapply safe_bind; [apply run_examples_safe; [eapply examples_in; eauto; tauto|up]|].
    intros m2 u L2 _. eapply safe_bind; [apply IH; up|]. intros m3 r L3 R.
    constructor. constructor; auto. split; simpl; [up|apply lambda_arglist_in].
  Qed.
  Lemma insert_form_in m x l : form_in m x -> forms_in m l -> forms_in m (insert_form x l).
  Proof.
    intros X. induction 1; simpl; [constructor; auto; constructor|].
    destruct (str_ltb (f_name x) (f_name x0)); constructor; auto.
  Qed.
  Lemma sort_forms_in m l : forall acc, forms_in m acc -> forms_in m l -> forms_in m (sort_forms acc l).
  Proof.
    induction l; intros acc A L; simpl.
    - unfold forms_in. now apply Forall_rev.
    - inversion L; subst. apply IHl; auto. now apply insert_form_in.
  Qed.
  Lemma available_forms_safe m e : env_in m e -> safe forms_in m (available_forms e).
  Proof.
    intros E. unfold available_forms. eapply safe_bind; [apply builtin_forms_safe; auto|].
    intros m1 bf L1 B. apply safe_op; [simpl; up|]. intros m2 keys L2 _.
    eapply safe_bind; [apply lambda_forms_safe; up|]. intros m3 lf L3 F. constructor.
    apply sort_forms_in; [constructor|]. unfold forms_in. rewrite !Forall_app. repeat split.
    - pose proof (special_meta_in m3) as S. induction S as [|x l X XS IH]; constructor; auto.
      split; simpl; [apply doc_of_string_in|exact X].
    - eapply forms_in_mono; [|eauto]. lia.
    - exact F.
  Qed.
  Lemma forms_list_in m fs : forms_in m fs -> val_in m (forms_list fs).
  Proof.
    intros F. unfold forms_list. apply vlist_in. induction F as [|f fs [A B] _ IH]; constructor; auto.
    apply vlist_in. repeat constructor; simpl; auto. apply truth_in.
  Qed.
  Lemma form_line_safe m f : safe anyv m (form_line f).
  Proof.
    unfold form_line. destruct (doc_to_string (f_doc f)); [|apply safe_panic].
    eapply safe_bind with (P := anyv).
    - unfold capitalize. destruct (first_rune s). apply safe_op; [exact I|]. intros. constructor. exact I.
    - intros. constructor. exact I.
  Qed.
  Lemma form_lines_safe fs : forall m, safe anyv m (form_lines fs).
  Proof.
    induction fs; intros m; cbn [form_lines]; [constructor; exact I|].
    eapply safe_bind; [apply form_line_safe|]. intros. eapply safe_bind; [apply IHfs|].
    intros. constructor. exact I.
  Qed.
  Lemma long_section_safe m f : safe anyv m (long_section f).
  Proof.
    unfold long_section. destruct (doc_to_string (f_doc f)); [|apply safe_panic].
    eapply safe_bind with (P := anyv).
    - unfold capitalize. destruct (first_rune s). apply safe_op; [exact I|]. intros. constructor. exact I.
    - intros. constructor. exact I.
  Qed.
  Lemma long_sections_safe fs : forall m, safe anyv m (long_sections fs).
  Proof.
    induction fs; intros m; cbn [long_sections]; [constructor; exact I|].
    eapply safe_bind; [apply long_section_safe|]. intros. eapply safe_bind; [apply IHfs|].
    intros. constructor. exact I.
  Qed.
  Lemma long_doc_safe m e : env_in m e -> safe anyv m (long_doc e).
  Proof.
    intros. unfold long_doc. eapply safe_bind; [apply available_forms_safe; auto|]. intros.
    eapply safe_bind; [apply long_sections_safe|]. intros. constructor. exact I.
  Qed.
  Lemma help_safe m e : env_in m e -> safe val_in m (help_prog e).
  Proof.
    intros. unfold help_prog. eapply safe_bind; [apply available_forms_safe; auto|]. intros.
    eapply safe_bind; [apply form_lines_safe|]. intros. eapply safe_bind; [apply safe_print|].
    intros. sf.
  Qed.

  Lemma term_safe m {A} (p : prog A) :
    safe anyv m p -> forall s, safe anyv m (map_err (extend s) p).
  Proof. intros. apply safe_map_err; auto. intros. up. Qed.

  Lemma semver_in m s : vals_in m (semver_exprs s).
  Proof.
    unfold semver_exprs. destruct (span is_digit_ch (skip_to_digit s)) as [[|c d] r]; [constructor|].
    destruct (dotted_groups 2 r). apply app_in.
    - induction (String c d :: l); constructor; auto. exact I.
    - destruct (prefix_of "-dirty" s0); repeat constructor.
  Qed.

  Lemma builtin_safe m b args e : vals_in m args -> env_in m e -> safe val_in m (builtin_prog b args e).
  Proof.
    intros A E.
    assert (one : forall (k : val -> prog val) msg,
      (forall x, val_in m x -> safe val_in m (k x)) -> safe val_in m (arg1 msg args k)).
    { intros k msg H. unfold arg1. destruct args as [|x [|]]; try apply safe_fail.
      inversion A; subst. auto. }
    destruct b; cbn [builtin_prog];
      try (apply one; intros x X; destruct x; simpl in *; try apply safe_fail; sf; fail);
      auto using num_fold_safe, compare_nums_safe, apply_fn_safe.
    - (* - *) destruct args as [|[] r]; try apply safe_fail. destruct r; [sf|]. apply num_fold_safe.
    - (* / *) destruct args as [|[] r]; try apply safe_fail. apply div_fold_safe.
    - (* = *) destruct args; [apply safe_fail|]. constructor. apply equal_fold_in.
    - (* rem *) destruct args as [|x [|y [|]]]; try destruct x; try destruct y; try apply safe_fail.
      destruct (n0 =? 0)%Z; sf.
    - (* cons *) destruct args as [|x [|y [|]]]; try apply safe_fail. sf.
    - (* exit *) sf.
    - (* forms *) eapply safe_bind.
      + apply safe_map_err; [intros; up|]. apply available_forms_safe; auto.
      + intros. constructor. now apply forms_list_in.
    - (* fuse *) apply one. intros x X. destruct x; try apply safe_fail; [sf|].
      destruct (fuse_text _); sf. destruct b; exact I.
    - (* gensym *) destruct args as [|x [|]]; try apply safe_fail.
      + apply safe_op; [exact I|]. intros. constructor. exact I.
      + destruct x; try apply safe_fail. apply safe_op; [exact I|]. intros. constructor. exact I.
      + destruct x; apply safe_fail.
    - (* help *) apply help_safe; auto.
    - (* list *) constructor. now apply vlist_in.
    - (* load *) apply one. intros. destruct x; try apply safe_fail.
      apply safe_map_err; [intros; up|]. now apply load_file_safe.
    - (* macroexpand-1 *) apply one. intros. now apply macroexpand1_safe.
    - (* print *) eapply safe_bind; [apply safe_print|]. intros. sf.
    - (* println *) eapply safe_bind; [apply safe_print|]. intros. sf.
    - (* readlist *) apply safe_op; [exact I|]. intros m1 r L R. destruct r; [|sf].
      apply safe_map_err; [intros; up|]. apply parsed_safe. intros. constructor. now apply vlist_in.
    - (* screen-start *) eapply safe_bind; [apply term_safe|intros; sf].
      unfold term_start. apply safe_op; [exact I|]. intros. destruct b; [apply safe_fail|].
      apply safe_op; [exact I|]. intros. destruct b; [sf|].
      apply safe_op; [exact I|]. intros. apply safe_op; [exact I|]. intros. destruct b0; [sf|].
      apply safe_op; [exact I|]. intros. sf.
    - (* screen-end *) eapply safe_bind; [apply term_safe|intros; sf].
      unfold term_end. apply safe_op; [exact I|]. intros. destruct b; [|sf].
      apply safe_op; [exact I|]. intros. apply safe_op; [exact I|]. intros. sf.
    - (* screen-size *) eapply safe_bind; [apply term_safe|intros; sf].
      unfold term_size. apply safe_op; [exact I|]. intros. destruct b; [|constructor; apply base_error_in].
      apply safe_op; [exact I|]. intros. sf.
    - (* screen-clear *) eapply safe_bind; [apply term_safe|intros; sf].
      unfold term_clear. apply safe_op; [exact I|]. intros. destruct b; [|constructor; apply base_error_in].
      apply safe_op; [exact I|]. intros. sf.
    - (* screen-get-key *) destruct args; [|apply safe_fail]. eapply safe_bind; [apply term_safe|intros; sf].
      unfold term_get_key. apply safe_op; [exact I|]. intros. destruct b; [|constructor; apply base_error_in].
      apply safe_op; [exact I|]. intros. sf.
    - (* screen-write *) destruct args as [|x [|y [|l [|]]]]; try apply safe_fail.
      destruct x; try apply safe_fail. destruct y; try apply safe_fail.
      destruct (is_conscell l); [|apply safe_fail].
      eapply safe_bind; [apply term_safe|intros; sf].
      unfold term_draw. apply safe_op; [exact I|]. intros. destruct b; [|constructor; apply base_error_in].
      eapply safe_bind; [apply draw_runes_safe|]. intros. apply safe_op; [exact I|]. intros. sf.
    - (* shell *) apply one. intros. apply do_shell_safe.
    - (* shuffle *) apply one. intros. destruct (is_conscell x); [|apply safe_fail].
      destruct (cons_to_exprs x) eqn:CE; [|sf].
      eapply safe_bind; [apply shuffle_loop_safe; eapply cons_to_exprs_in; eauto|].
      intros. constructor. now apply vlist_in.
    - (* sleep *) apply one. intros x X. destruct x; try apply safe_fail.
      eapply safe_bind; [apply safe_do; exact I|]. intros. sf.
    - (* sort *) apply one. intros. destruct (is_conscell x); [|apply safe_fail].
      destruct (cons_to_exprs x) eqn:CE; [|sf].
      apply sort_prog_safe. eapply cons_to_exprs_in; eauto.
    - (* sort-by *) destruct args as [|f [|x [|]]]; try apply safe_fail.
      inversion A; subst. inversion H2; subst.
      destruct (is_conscell x); [|apply safe_fail].
      destruct (cons_to_exprs x) as [[|a l]|] eqn:CE; [sf| |sf].
      eapply safe_bind.
      + apply sort_by_loop_safe; auto;
          first [exact I|eapply cons_to_exprs_in; eassumption|constructor].
      + intros m1 [q er] L [Q1 Q2]. simpl in *. destruct er; [constructor; auto|].
        constructor. apply vlist_in. now apply rev_in.
    - (* source *) apply one. intros. destruct x; try apply safe_fail. constructor. simpl in *.
      repeat split; try tauto. apply lambda_arglist_in.
    - (* split *) apply one. intros. destruct x; try apply safe_fail.
      + constructor. apply list_of_chars_in.
      + pose proof (list_of_nums_in m _ (Z_to_dec n) (le_n _)). destruct (list_of_nums (Z_to_dec n)); sf.
    - (* version *) constructor. apply vlist_in. apply semver_in.
  Qed.
  Lemma step_repl_safe m toks fresh e : env_in m e -> safe tres_in m (step_repl toks fresh e).
  Proof.
    intros E. unfold step_repl. eapply safe_bind with (P := anyv).
    { destruct fresh; [apply safe_print|constructor; exact I]. }
    intros m1 u L1 _. apply safe_op; [exact I|]. intros m2 r L2 _. destruct r.
    - destruct (is_balanced (toks ++ lex_items [s])) as [[]|].
      + destruct (parse (toks ++ lex_items [s])) as [xs|er| |] eqn:PE; try apply safe_panic.
        * eapply safe_bind; [apply safe_attempt; apply eval_exprs_safe; [|up]|].
          { exact (proj1 (proj2 (proj2 (parse_in m2 _))) _ _ PE). }
          intros. sf.
        * eapply safe_bind; [apply safe_print|]. intros. sf.
      + sf.
      + eapply safe_bind; [apply safe_print|]. intros. sf.
    - eapply safe_bind; [apply safe_print|]. intros. sf.
  Qed.

  (** Every entry point is safe. *)
  Theorem step_safe m c : call_in m c -> safe tres_in m (step c).
  Proof.
    intros C. destruct c; simpl in C; cbn [step].
    - apply step_eval_safe; tauto.
    - apply step_expand_safe; tauto.
    - apply step_loop_safe; tauto.
    - apply safe_val_. apply builtin_safe; tauto.
    - apply step_repl_safe; auto.
  Qed.
End Inside.
