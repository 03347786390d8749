(** * Errors keep their origin (C23). *)
From Coq Require Import Lia.
From Verif.Model Require Import Base Syntax World Prog Lex Parse Meta Eval Builtins CoreSrc Main.
From Verif.Proofs Require Import Run Heap Rules Forms Natives.
From Verif.Props Require Import Control Calls.
From Verif.Spec Require Import Vocabulary.
Open Scope prog_scope.
Open Scope list_scope.

(** The form is a call (not a special form, not a macro call). *)
Definition a_call (f : val) (e : env) (w : world) : Prop :=
  forall s, f = VAtom s -> sform_of s = None /\ not_macro s e w.
(** The tests of the clauses all gave (). *)
Inductive all_false (e : env) : list clause -> world -> world -> Prop :=
| af_nil w : all_false e [] w w
| af_cons c cs w w1 w2 : evals (c_test c) e w (Ok VNil) w1 -> all_false e cs w1 w2 -> all_false e (c :: cs) w w2.
(** The bindings of a let, stored one by one in frame [n]. *)
Inductive binds (e : env) (n : positive) : list (string * val) -> world -> world -> Prop :=
| binds_nil w : binds e n [] w w
| binds_cons s x bs w v w1 w2 :
    s <> "t" -> evals x e w (Ok v) w1 ->
    binds e n bs (set_frame n (fset s v (frame_at w1 n)) w1) w2 -> binds e n ((s, x) :: bs) w w2.
Definition binding_form (b : string * val) : val := vlist [VAtom (fst b); snd b].
(** Complete rounds of a loop. *)
Inductive rounds (e : env) (xs : list val) : world -> world -> Prop :=
| rounds_none w : rounds e xs w w
| rounds_more w vs w1 w2 : in_order e xs w vs None w1 -> rounds e xs w1 w2 -> rounds e xs w w2.
(** Dots printed between the forms of a test. *)
Inductive dotted (e : env) : list val -> world -> world -> Prop :=
| dotted_nil w : dotted e [] w w
| dotted_cons x xs w v w1 w2 :
    evals x e w (Ok v) w1 -> dotted e xs (emit (Printed ".") w1) w2 -> dotted e (x :: xs) w w2.

(** [inside x e w y e' w']: the evaluation of [x] in [e] from [w] reaches the
    evaluation of [y] in [e'] from [w'], with nothing in between that catches
    errors. *)
Inductive inside : val -> env -> world -> val -> env -> world -> Prop :=
| in_operator f args e w : a_call f e w -> inside (VCons f (vlist args)) e w f e w
| in_argument f before x after e w fv w1 vs w2 :
    a_call f e w -> evals f e w (Ok fv) w1 -> in_order e before w1 vs None w2 ->
    inside (VCons f (vlist (before ++ x :: after))) e w x e w2
| in_function_body f args e w ps rest before x after doc m lenv w1 vs w2 bs us w3 :
    a_call f e w ->
    evals f e w (Ok (VLam ps rest (vlist (before ++ x :: after)) doc m lenv)) w1 ->
    in_order e args w1 vs None w2 -> ~ In "t" ps -> rest <> "t" -> bind_args ps rest vs = Some bs ->
    in_order (new_env lenv w2) before (with_frame bs w2) us None w3 ->
    inside (VCons f (vlist args)) e w x (new_env lenv w2) w3
| in_cond_test before c after e w w1 :
    not_macro "cond" e w -> all_false e before w w1 ->
    inside (form "cond" (map clause_form (before ++ c :: after))) e w (c_test c) e w1
| in_cond_form before c after e w w1 v w2 :
    not_macro "cond" e w -> all_false e before w w1 -> evals (c_test c) e w1 (Ok v) w2 -> v <> VNil ->
    inside (form "cond" (map clause_form (before ++ c :: after))) e w (c_form c) e w2
| in_and before x after e w vs w1 :
    not_macro "and" e w -> in_order e before w vs None w1 -> Forall (fun v => v <> VNil) vs ->
    inside (form "and" (before ++ x :: after)) e w x e w1
| in_or before x after e w vs w1 :
    not_macro "or" e w -> in_order e before w vs None w1 -> Forall (fun v => v = VNil) vs ->
    inside (form "or" (before ++ x :: after)) e w x e w1
| in_def s x e w : not_macro "def" e w -> inside (form "def" [VAtom s; x]) e w x e w
| in_set s x e w : not_macro "set!" e w -> inside (form "set!" [VAtom s; x]) e w x e w
| in_error x e w : not_macro "error" e w -> inside (form "error" [x]) e w x e w
| in_let_binding before s x after body e w w1 :
    not_macro "let" e w -> binds e (w_next w) before (with_frame [] w) w1 ->
    inside (VCons (VAtom "let") (VCons (vlist (map binding_form (before ++ (s, x) :: after))) (vlist body))) e w x e w1
| in_let_body bs before x after e w w1 us w2 :
    not_macro "let" e w -> binds e (w_next w) bs (with_frame [] w) w1 ->
    in_order (new_env e w) before w1 us None w2 ->
    inside (VCons (VAtom "let") (VCons (vlist (map binding_form bs)) (vlist (before ++ x :: after)))) e w x (new_env e w) w2
| in_loop before x after e w w1 vs w2 :
    not_macro "loop" e w -> rounds e (before ++ x :: after) w w1 -> in_order e before w1 vs None w2 ->
    inside (form "loop" (before ++ x :: after)) e w x e w2
| in_test desc before x after e w v w1 w2 :
    not_macro "test" e w -> evals desc e w (Ok v) w1 ->
    dotted e before (emit (Printed ("TEST " ++ str v ++ " ")%string) w1) w2 ->
    inside (form "test" (desc :: before ++ x :: after)) e w x e w2
| in_try before x after e w vs w1 :
    not_macro "try" e w -> Forall not_catch (before ++ x :: after) -> in_order e before w vs None w1 ->
    inside (try_form (before ++ x :: after)) e w x e w1
| in_handler fs name before x after ignored e w vs items w1 us w2 :
    not_macro "try" e w -> Forall not_catch fs -> name <> "t" ->
    in_order e fs w vs (Some (Er (ECons items))) w1 ->
    in_order (new_env e w1) before (with_frame [(name, items)] w1) us None w2 ->
    inside (try_form (fs ++ catch_form name (before ++ x :: after) :: ignored)) e w x (new_env e w1) w2
| in_macro_body m args ps rest before x after doc lenv bs e w us w1 :
    lookup e m w = Some (VLam ps rest (vlist (before ++ x :: after)) doc true lenv) ->
    ~ In "t" ps -> rest <> "t" -> bind_args ps rest args = Some bs ->
    in_order (new_env e w) before (with_frame bs w) us None w1 ->
    inside (form m args) e w x (new_env e w) w1
| in_expansion m args ps rest body doc lenv bs e w vs w1 :
    lookup e m w = Some (VLam ps rest (vlist body) doc true lenv) ->
    ~ In "t" ps -> rest <> "t" -> bind_args ps rest args = Some bs ->
    in_order (new_env e w) body (with_frame bs w) vs None w1 ->
    inside (form m args) e w (last vs VNil) e w1
| in_eval x e w :
    not_macro "quote" e w -> denotes_native "eval" BEval e w ->
    inside (form "eval" [quoted x]) e w x e w.
Inductive deep_inside : val -> env -> world -> val -> env -> world -> Prop :=
| deep_here x e w : deep_inside x e w x e w
| deep_more x e w y e1 w1 z e2 w2 :
    inside x e w y e1 w1 -> deep_inside y e1 w1 z e2 w2 -> deep_inside x e w z e2 w2.

Lemma grown_refl er : grown er er.
Proof. destruct er; simpl; auto. now exists []. Qed.
Lemma grown_with er er' l : grown er er' -> grown er (extend_with l er').
Proof.
  destruct er as [items|m]; simpl.
  - intros (ctx & ->). exists (l :: ctx). reflexivity.
  - intros ->. reflexivity.
Qed.
Lemma grown_extend er er' s : grown er er' -> grown er (extend s er').
Proof. apply grown_with. Qed.
Lemma grown_trans a b c : grown a b -> grown b c -> grown a c.
Proof.
  destruct a as [items|m]; simpl.
  - intros (ctx & ->) (ctx2 & ->). exists (ctx2 ++ ctx). now rewrite fold_right_app.
  - intros -> X. exact X.
Qed.
Local Hint Resolve grown_refl grown_with grown_extend : core.

Lemma er_not_ok er : ~ is_ok (Er er : outcome val).
Proof. intros [v X]. discriminate. Qed.
Lemma in_order_fail e before x after w vs w1 er wf :
  in_order e before w vs None w1 -> evals x e w1 (Er er) wf ->
  in_order e (before ++ x :: after) w vs (Some (Er er)) wf.
Proof.
  intros H E. remember None as s. induction H; subst; try discriminate.
  - apply io_stop; auto using er_not_ok.
  - econstructor; eauto.
Qed.
Lemma in_body_fail wrap e before x after w vs w1 er wf :
  (forall y er er', grown er er' -> grown er (wrap y er')) ->
  in_order e before w vs None w1 -> evals x e w1 (Er er) wf ->
  exists er', in_body wrap e (before ++ x :: after) w (Er er') wf /\ grown er er'.
Proof.
  intros W H E. remember None as s. induction H; subst; try discriminate.
  - cbn [app]. destruct after as [|y after].
    + exists er. split; auto. now apply body_last.
    + exists (wrap x er). split; auto. change (Er (wrap x er)) with (with_context (wrap x) (Er er)).
      apply body_stop; auto using er_not_ok. discriminate.
  - destruct IHin_order as (er' & IB & G); auto. exists er'. split; auto.
    cbn [app]. eapply body_next; eauto. destruct xs; discriminate.
Qed.

Lemma inside_fails x e w y e1 w1 er wf :
  inside x e w y e1 w1 -> evals y e1 w1 (Er er) wf ->
  exists er', evals x e w (Er er') wf /\ grown er er'.
Proof.
  intros I E.
  destruct I as
    [f args e w C
    |f before x after e w fv w1 vs w2 C EF IO
    |f args e w ps rest before x after doc m lenv w1 vs w2 bs us w3 C EF IO T1 T2 B IO2
    |before c after e w w1 M AF
    |before c after e w w1 v w2 M AF ET NV
    |before x after e w vs w1 M IO FA
    |before x after e w vs w1 M IO FA
    |s x e w M|s x e w M|x e w M
    |before s x after body e w w1 M BI
    |bs before x after e w w1 us w2 M BI IO
    |before x after e w w1 vs w2 M R IO
    |desc before x after e w v w1 w2 M ED D
    |before x after e w vs w1 M F IO
    |fs name before x after ignored e w vs items w1 us w2 M F T IO IO2
    |m args ps rest before x after doc lenv bs e w us w1 L T1 T2 B IO
    |m args ps rest body doc lenv bs e w vs w1 L T1 T2 B IO
    |x e w Q D].
  - eexists. split; [apply evals_call_iff; auto; exists (Er er), wf; split; [exact E|split; reflexivity]|]. apply grown_extend; auto.
  - eexists. split.
    + apply evals_call_iff; auto. exists (Ok fv), w1. split; auto.
      exists vs, (Some (Er er)), wf. split; [eapply in_order_fail; eauto|split; reflexivity].
    + apply grown_extend; auto.
  - destruct (in_body_fail lambda_wrap _ _ _ after _ _ _ _ _ (fun y er er' => grown_with er er' _) IO2 E) as (er' & IB & G).
    exists er'. split; auto. apply evals_call_iff; auto. do 2 eexists. split; [exact EF|].
    exists vs, None, w2. split; auto. eapply invokes_lambda; eauto. intros [X|X]; auto.
  - exists (extend "evaluating cond condition" er). split; auto. apply C20_cond; auto. clear M.
    induction AF as [|c' cs w w2 w3 E1 AF IH]; cbn [app].
    + change (Er (extend "evaluating cond condition" er)) with (with_context (extend "evaluating cond condition") (Er er)).
      apply conds_stop; auto using er_not_ok.
    + eapply conds_skip; eauto.
  - exists er. split; auto. apply C20_cond; auto. clear M.
    induction AF as [|c' cs w w3 w4 E1 AF IH]; cbn [app].
    + eapply conds_pick; eauto.
    + eapply conds_skip; eauto.
  - exists (extend "and operator" er). split; auto. apply C20_and; auto. clear M.
    remember None as s. induction IO; subst; try discriminate; cbn [app].
    + change (Er (extend "and operator" er)) with (with_context (extend "and operator") (Er er)).
      apply ands_stop; auto using er_not_ok.
    + inversion FA; subst. eapply ands_go; eauto.
  - exists (extend "or operator" er). split; auto. apply C20_or; auto. clear M.
    remember None as s. induction IO; subst; try discriminate; cbn [app].
    + change (Er (extend "or operator" er)) with (with_context (extend "or operator") (Er er)).
      apply ors_stop; auto using er_not_ok.
    + inversion FA; subst. eapply ors_go; eauto.
  - exists (extend "evaluating def value" er). split; auto.
    unfold evals, form. rewrite (evals_special _ _ SDef) by auto. cbn [special].
    rewrite ends_val_. vl. unfold ev_def. rewrite runs_ev. exists (Er er), wf. split; [exact E|split; reflexivity].
  - exists (extend "evaluating set value" er). split; auto.
    unfold evals, form. rewrite (evals_special _ _ SSet) by auto. cbn [special].
    rewrite ends_val_. vl. unfold ev_set. rewrite runs_ev. exists (Er er), wf. split; [exact E|split; reflexivity].
  - exists (extend "error operator" er). split; auto.
    unfold evals, form. rewrite (evals_special _ _ SError) by auto. cbn [special].
    rewrite ends_val_. vl. unfold ev_error. rewrite runs_ev. exists (Er er), wf. split; [exact E|split; reflexivity].
  - exists (extend "evaluating let bindings" er). split; auto.
    unfold evals. rewrite (evals_special _ _ SLet) by auto. cbn [special]. unfold ev_let.
    rewrite !vlist_conscell. rewrite ends_op. cbn [exec]. rewrite in_new_mk. cbn [fst snd].
    rewrite ends_bind. exists (Er (extend "evaluating let bindings" er)), wf. split; [|split; reflexivity].
    assert (G : forall u, binds e (w_next w) before u w1 ->
      runs step Inf (let_bindings (vlist (map binding_form (before ++ (s, x) :: after))) e (new_env e w)) u
        (Er (extend "evaluating let bindings" er)) wf); [|apply G; exact BI].
    clear BI. intros u BI. induction BI as [u|s' x' bs u v u1 u2 NT E1 BI IH]; cbn [app map].
    + rewrite vlist_cons. cbn [binding_form let_bindings fst snd]. unfold binding_form at 1. vl.
      cbn [fst snd]. apply runs_ev. exists (Er er), wf. split; [exact E|split; reflexivity].
    + rewrite vlist_cons. cbn [binding_form let_bindings fst snd]. unfold binding_form at 1. vl.
      cbn [fst snd]. apply runs_ev. exists (Ok v), u1. split; [exact E1|].
      apply runs_checked_bind. cbn [exec]. unfold env_set, new_env. apply String.eqb_neq in NT. rewrite NT.
      cbn [fst snd]. now apply IH.
  - destruct (in_body_fail (fun _ => extend "evaluating let body") _ _ _ after _ _ _ _ _
                (fun y er er' => grown_extend er er' _) IO E) as (er' & IB & G).
    exists er'. split; auto. unfold evals. rewrite (evals_special _ _ SLet) by auto. cbn [special]. unfold ev_let.
    rewrite !vlist_conscell. rewrite ends_op. cbn [exec]. rewrite in_new_mk. cbn [fst snd].
    rewrite ends_bind. exists (Ok true), w1. split.
    + assert (H : forall u, binds e (w_next w) bs u w1 ->
        runs step Inf (let_bindings (vlist (map binding_form bs)) e (new_env e w)) u (Ok true) w1); [|apply H; exact BI].
      clear. intros u BI. induction BI as [u|s' x' bs u v u1 u2 NT E1 BI IH]; cbn [map].
      * rewrite vlist_nil. apply runs_ret_.
      * rewrite vlist_cons. cbn [let_bindings]. unfold binding_form at 1. vl.
        cbn [fst snd]. apply runs_ev. exists (Ok v), u1. split; [exact E1|].
        apply runs_checked_bind. cbn [exec]. unfold env_set, new_env. apply String.eqb_neq in NT. rewrite NT.
        cbn [fst snd]. now apply IH.
    + apply body_loop_iff; auto.
  - exists (extend "loop operator" er). split; auto.
    unfold evals, form. rewrite (evals_special _ _ SLoop) by (auto using vlist_conscell).
    cbn [special]. apply ends_tail. clear M. revert IO E. induction R as [w|w us u1 u2 IO1 R IH]; intros IO E.
    + apply (in_order_fail _ _ _ after _ _ _ _ _ IO) in E. eapply loop_stop; eauto.
    + eapply loop_more; eauto.
  - exists (extend "test" (extend ("evaluating test " ++ str x)%string er)). split; auto.
    apply C66_test; auto. exists (Ok v), w1. split; auto. clear M ED.
    induction D as [|x' xs u v' u1 u2 E1 D IH]; cbn [app].
    + change (Er (extend "test" (extend ("evaluating test " ++ str x)%string er)))
        with (with_context (fun er => extend "test" (extend ("evaluating test " ++ str x)%string er)) (Er er)).
      apply tests_stop; auto using er_not_ok.
    + eapply tests_next; eauto.
  - exists er. split; auto. apply C21_try_without_catch; auto.
    exists vs, (Some (Er er)). split; auto. eapply in_order_fail; eauto.
  - exists (extend "catch body" er). split; auto. apply C21_try_catch; auto.
    exists vs, (Some (Er (ECons items))), w1. split; auto.
    exists us, (Some (Er er)). split; auto. eapply in_order_fail; eauto.
  - exists (macro_ctx er). split; [|repeat apply grown_extend; auto].
    change (Er (macro_ctx er)) with (with_context macro_ctx (Er er)).
    eapply C40_failed_expansion; eauto. eapply in_order_fail; eauto.
  - exists er. split; auto. eapply C40_macro_call; eauto.
  - exists (extend "builtin function eval" er). split; auto. apply C39_eval; auto.
    exists (Er er). auto.
Qed.

(** The trace seen at the outside is the original error with entries added at
    the front only, and the state is the one in which the error was raised. *)
Theorem C23_errors_keep_origin :
  forall x e w y e1 w1 er wf,
    deep_inside x e w y e1 w1 -> evals y e1 w1 (Er er) wf ->
    exists er', evals x e w (Er er') wf /\ grown er er'.
Proof.
  intros x e w y e1 w1 er wf D. induction D as [x e w|x e w y e1 w1 z e2 w2 I D IH]; intros E.
  - exists er. auto.
  - destruct (IH E) as (er1 & E1 & G1). destruct (inside_fails _ _ _ _ _ _ _ _ I E1) as (er2 & E2 & G2).
    exists er2. split; auto. eapply grown_trans; eauto.
Qed.
(** What error raises, and what catch therefore sees: a list whose last element
    is the raised datum. *)
Theorem C23_raised_datum_is_last :
  forall x e w y e1 w1 v w2,
    deep_inside x e w (form "error" [y]) e1 w1 -> not_macro "error" e1 w1 -> evals y e1 w1 (Ok v) w2 ->
    exists ctx, evals x e w (Er (ECons (vlist (ctx ++ [v])))) w2.
Proof.
  intros x e w y e1 w1 v w2 D M E.
  assert (R : evals (form "error" [y]) e1 w1 (Er (ECons (VCons v VNil))) w2).
  { unfold evals, form. rewrite (evals_special _ _ SError) by auto. cbn [special].
    rewrite ends_val_. vl. unfold ev_error. rewrite runs_ev. exists (Ok v), w2. split; [exact E|]. apply runs_raise_. }
  destruct (C23_errors_keep_origin _ _ _ _ _ _ _ _ D R) as (er' & E' & ctx & ->).
  exists ctx. replace (vlist (ctx ++ [v])) with (fold_right VCons (VCons v VNil) ctx); auto.
  clear. induction ctx as [|c ctx IH]; [reflexivity|]. cbn [app fold_right]. now rewrite vlist_cons, IH.
Qed.
(** Example: (list 1 (cond ((error (quote boom)) 2))). *)
Example C23_example :
  deep_inside (form "list" [VNum 1; form "cond" (map clause_form [Clause (form "error" [quoted (VAtom "boom")]) (VNum 2) VNil])])
    global_env demo (form "error" [quoted (VAtom "boom")]) global_env demo.
Proof.
  eapply deep_more.
  - apply (in_argument (VAtom "list") [VNum 1] _ []) with (fv := VBuiltin BList) (w1 := demo) (vs := [VNum 1]).
    + intros s X. injection X as <-. split; [reflexivity|exact I].
    + apply evals_atom. vm_compute. auto.
    + econstructor; [now apply evals_num|constructor].
  - eapply deep_more; [|apply deep_here].
    apply (in_cond_test [] (Clause (form "error" [quoted (VAtom "boom")]) (VNum 2) VNil) []); [exact I|constructor].
Qed.
