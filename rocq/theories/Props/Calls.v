(** * Calls through data: apply, eval, macros (C38-C40). *)
From Coq Require Import Lia.
From Verif.Model Require Import Base Syntax World Prog Lex Parse Meta Eval Builtins CoreSrc Main.
From Verif.Proofs Require Import Run Heap Rules Forms Natives.
From Verif.Spec Require Import Vocabulary.
Open Scope prog_scope.
Open Scope list_scope.

(** ** C38 *)
Lemma in_body_settled wrap e xs w r w' : in_body wrap e xs w r w' -> settled r.
Proof.
  induction 1 as [| | |x xs w r w1 N E NO]; auto; try discriminate.
  - eapply evals_settled; eauto.
  - apply evals_settled in E. destruct r; simpl; auto; discriminate.
Qed.
Lemma apply_body_iff wrap e xs : forall ret w r w',
  (xs = [] -> ret = VNil) ->
  runs step Inf (apply_body (vlist xs) ret e) w r w' ->
  exists q, in_body wrap e xs w q w' /\ same_kind r q.
Proof.
  induction xs as [|x [|y xs] IH]; intros ret w r w' HR H.
  - rewrite vlist_nil in H. cbn [apply_body] in H. apply runs_ret in H. destruct H as [-> ->].
    rewrite HR by auto. eexists. split; [constructor|reflexivity].
  - rewrite vlist_cons, vlist_nil in H. cbn [apply_body] in H. apply runs_ev in H.
    destruct H as (q & w1 & N & X). destruct q as [v| | | | |].
    1: apply runs_ret in X.
    all: destruct X as [-> ->]; eexists; split; [apply body_last; exact N|simpl; auto].
    eapply nested_settled; [exact N|reflexivity].
  - rewrite vlist_cons in H. cbn [apply_body] in H. apply runs_ev in H.
    destruct H as (q & w1 & N & X). destruct q as [v| | | | |].
    1: { apply IH in X; [|discriminate]. destruct X as (q & B & K). exists q. split; auto.
         eapply body_next; [discriminate|exact N|exact B]. }
    all: destruct X as [-> ->]; eexists; split; [eapply body_stop; [discriminate|exact N|intros [v Q]; discriminate]|simpl; auto].
    eapply nested_settled; [exact N|reflexivity].
Qed.
Lemma apply_body_complete wrap e xs : forall ret w q w',
  (xs = [] -> ret = VNil) -> in_body wrap e xs w q w' ->
  exists r, runs step Inf (apply_body (vlist xs) ret e) w r w' /\ same_kind r q.
Proof.
  induction xs as [|x [|y xs] IH]; intros ret w q w' HR H.
  - inversion H; subst. rewrite HR by auto. exists (Ok VNil). split; [apply runs_ret_|reflexivity].
  - rewrite vlist_cons, vlist_nil. cbn [apply_body].
    inversion H as [|? ? ? ? E| |]; subst; try congruence.
    exists (with_context (extend "apply") q). split.
    + apply runs_ev. exists q, w'. split; [exact E|]. apply evals_settled in E.
      destruct q; simpl; auto. apply runs_ret_.
    + apply same_kind_wc_l, same_kind_refl. eapply evals_settled; eauto.
  - rewrite vlist_cons. cbn [apply_body]. apply in_body_cons_inv in H.
    destruct H as [(v & w1 & E & B)|(q1 & -> & E & NO)].
    + apply (IH v) in B; [|discriminate]. destruct B as (r & R & K). exists r. split; auto.
      apply runs_ev. exists (Ok v), w1. split; [exact E|exact R].
    + exists (with_context (extend "apply") q1). split.
      * apply runs_ev. exists q1, w'. split; [exact E|]. pose proof (evals_settled _ _ _ _ _ E).
        destruct q1; simpl; auto. apply (ok_not_not _ _ NO).
      * apply same_kind_wc. eapply evals_settled; eauto.
Qed.
Lemma invokes_settled f args e w r w' : invokes f args e w r w' -> settled r.
Proof.
  intros (r1 & w1 & R & X). destruct r1 as [[]| | | | |]; try (destruct X as [-> ->]; discriminate).
  - eapply calls_settled; eauto.
  - destruct (runs_settled _ _ _ _ _ _ R). reflexivity.
Qed.
Definition body_proper (f : val) : Prop :=
  match f with VLam _ _ body _ _ _ => exists xs, body = vlist xs | _ => True end.
Lemma apply_values_sound f args e w r w' :
  body_proper f -> runs step Inf (apply_values f args e) w r w' ->
  exists q, invokes f args e w q w' /\ same_kind r q.
Proof.
  intros BP H. destruct f as [s|n| |a d|ps rest body doc m lenv|b];
    try (cbn [apply_values] in H; apply runs_raise in H; destruct H as [-> ->];
         eexists; split; [apply invokes_other; [discriminate|discriminate|split; reflexivity]|exact I]).
  - destruct BP as (xs & ->). cbn [apply_values] in H. apply runs_op in H. cbn [exec] in H.
    rewrite in_new_mk in H. cbn [fst snd] in H. apply runs_bind in H. destruct H as (r1 & w1 & H & X).
    apply runs_map_err in H. destruct H as (r2 & H & ->).
    destruct (bind_args ps rest args) as [bs|] eqn:B.
    + destruct (t_param_dec ps rest) as [T|T].
      * pose proof (set_lambda_args_t _ _ _ _ _ _ _ T B _ _ H) as [[er ->] [g ->]].
        destruct X as [-> ->].
        exists (Er (lam_ctx er)). split; [|exact I].
        unfold invokes. cbn [call_fn]. rewrite ends_op. cbn [exec]. rewrite in_new_mk. cbn [fst snd].
        rewrite ends_bind. eexists (Er (lam_ctx er)), _. split; [|split; [reflexivity|reflexivity]].
        apply runs_map_err. eexists. split; [exact H|reflexivity].
      * apply (set_lambda_args_ok Inf lenv w ps rest args bs T B) in H. destruct H as [-> ->].
        apply (apply_body_iff lambda_wrap) in X; auto. destruct X as (q & IB & K). exists q. split; auto.
        apply invokes_lambda with (bs := bs); auto.
    + apply (set_lambda_args_bad Inf lenv w ps rest args B) in H. destruct H as [-> ->].
      destruct X as [-> ->]. eexists. split; [apply invokes_arity; [exact B|split; reflexivity]|exact I].
  - cbn [apply_values] in H. apply runs_sub in H. destruct H as (q & w1 & N & X).
    exists (with_context (builtin_ctx b) q). split.
    + apply invokes_builtin. exists q. split; auto.
      destruct q; [apply runs_ret in X|apply runs_raise in X| | | |]; destruct X as [_ ->]; exact N.
    + pose proof (nested_settled _ _ _ _ _ _ N).
      destruct q; [apply runs_ret in X|apply runs_raise in X| | | |]; destruct X as [-> _]; simpl; auto.
Qed.
Lemma apply_values_complete f args e w q w' :
  body_proper f -> invokes f args e w q w' ->
  exists r, runs step Inf (apply_values f args e) w r w' /\ same_kind r q.
Proof.
  intros BP H. destruct f as [s|n| |a d|ps rest body doc m lenv|b];
    try (apply invokes_other in H; [|discriminate|discriminate]; destruct H as [-> ->];
         eexists; split; [apply runs_raise_|exact I]).
  - destruct BP as (xs & ->). destruct (bind_args ps rest args) as [bs|] eqn:B.
    + destruct (t_param_dec ps rest) as [T|T].
      * pose proof (invokes_t _ _ _ _ _ _ _ _ _ _ _ T H) as [er ->].
        unfold invokes in H. cbn [call_fn] in H. rewrite ends_op in H. cbn [exec] in H.
        rewrite in_new_mk in H. cbn [fst snd] in H. rewrite ends_bind in H. destruct H as (r1 & w1 & H & X).
        apply runs_map_err in H. destruct H as (r2 & H & ->).
        pose proof (set_lambda_args_t _ _ _ _ _ _ _ T B _ _ H) as [[er' ->] _]. destruct X as [_ ->].
        exists (Er (extend "apply" er')). split; [|exact I]. cbn [apply_values]. apply runs_op. cbn [exec].
        rewrite in_new_mk. cbn [fst snd]. apply runs_bind_er. apply runs_map_err.
        eexists. split; [exact H|reflexivity].
      * apply (invokes_lambda ps rest xs doc m lenv args bs) in H; auto.
        apply (apply_body_complete lambda_wrap _ _ VNil) in H; auto. destruct H as (r & R & K). exists r. split; auto.
        cbn [apply_values]. apply runs_op. cbn [exec]. rewrite in_new_mk. cbn [fst snd].
        eapply runs_bind_ok; [|exact R]. apply runs_map_err. exists (Ok tt). split; auto.
        apply (set_lambda_args_ok Inf lenv w ps rest args bs T B). auto.
    + apply invokes_arity in H; auto. destruct H as [-> ->].
      exists (Er (extend "apply" (arity_error ps rest args))). split; [|exact I].
      cbn [apply_values]. apply runs_op. cbn [exec]. rewrite in_new_mk. cbn [fst snd].
      apply runs_bind_er. apply runs_map_err. exists (Er (arity_error ps rest args)). split; [|reflexivity].
      apply (set_lambda_args_bad Inf lenv w ps rest args B). auto.
  - apply invokes_builtin in H. destruct H as (q1 & N & ->). cbn [apply_values].
    pose proof (nested_settled step Inf _ _ _ _ N) as ST.
    exists (with_context (extend "apply") q1). split; [|now apply same_kind_wc].
    apply runs_sub. exists q1, w'. split; [exact N|]. destruct q1; simpl; auto; [apply runs_ret_|apply runs_raise_].
Qed.
Lemma apply_prog f mids xs e :
  builtin_prog BApply (f :: mids ++ [vlist xs]) e = apply_values f (mids ++ xs) e.
Proof.
  cbn [builtin_prog]. unfold apply_fn. destruct (mids ++ [vlist xs]) as [|a more] eqn:E; [destruct mids; discriminate|].
  rewrite <- E. rewrite last_last, removelast_last, vlist_conscell, cons_to_exprs_vlist. reflexivity.
Qed.

(** apply ends as the direct call on a1..ak and the elements does: same value,
    same final state; an error in one is an error in the other (only the context
    entries differ: apply adds its own). *)
Theorem C38_apply_is_a_call :
  forall f mids xs e w,
    not_macro "quote" e w -> denotes_native "apply" BApply e w -> body_proper f ->
    (forall r w', evals (form "apply" (map quoted (f :: mids ++ [vlist xs]))) e w r w' ->
       exists q, invokes f (mids ++ xs) e w q w' /\ same_kind r q) /\
    (forall q w', invokes f (mids ++ xs) e w q w' ->
       exists r, evals (form "apply" (map quoted (f :: mids ++ [vlist xs]))) e w r w' /\ same_kind r q).
Proof.
  intros f mids xs e w Q D BP. split.
  - intros r w' H. rewrite (evals_native _ BApply) in H by auto. destruct H as (q & N & ->).
    apply native_iff in N. rewrite apply_prog in N. apply apply_values_sound in N; auto.
    destruct N as (q' & I & K). exists q'. split; auto. now apply same_kind_wc_l.
  - intros q w' H. apply apply_values_complete in H; auto. destruct H as (r & R & K).
    exists (with_context (builtin_ctx BApply) r). split; [|now apply same_kind_wc_l].
    apply (evals_native _ BApply); auto. exists r. split; auto. apply native_iff. now rewrite apply_prog.
Qed.
(** ... where the direct call is this form: *)
Theorem C38_direct_call :
  forall g f vs e w r w',
    ordinary g -> lookup e g w = Some f -> is_macro f = false -> not_macro "quote" e w ->
    evals (form g (map quoted vs)) e w r w' <-> invokes f vs e w r w'.
Proof. intros. now apply evals_call_quoted. Qed.
Theorem C38_apply_needs_a_list :
  forall f mids l e w,
    not_macro "quote" e w -> denotes_native "apply" BApply e w -> (forall xs, l <> vlist xs) ->
    exists er, evals (form "apply" (map quoted (f :: mids ++ [l]))) e w (Er er) w.
Proof.
  intros f mids l e w Q D N.
  assert (H : exists er, native BApply (f :: mids ++ [l])%list e w (Er er) w).
  { apply cons_to_exprs_none in N.
    destruct (is_conscell l) eqn:C.
    - eexists. apply native_iff. cbn [builtin_prog]. unfold apply_fn.
      destruct (mids ++ [l])%list as [|a more] eqn:E; [destruct mids; discriminate|].
      rewrite <- E, last_last, C, N. apply runs_raise_.
    - eexists. apply native_iff. cbn [builtin_prog]. unfold apply_fn.
      destruct (mids ++ [l])%list as [|a more] eqn:E; [destruct mids; discriminate|].
      rewrite <- E, last_last, C. apply runs_raise_. }
  destruct H as (er & H). eexists. apply (evals_native _ BApply); auto. eexists. split; [exact H|reflexivity].
Qed.
Example C38_example :
  denotes_native "apply" BApply global_env demo /\
  exists w', evals (form "apply" [VAtom "list"; VNum 1; VNum 2; quoted (vlist [VNum 3; VNum 4])]) global_env demo
    (Ok (vlist [VNum 1; VNum 2; VNum 3; VNum 4])) w'.
Proof.
  split; [repeat split; discriminate|]. eexists; exists 20%nat; split; [vm_compute; reflexivity|discriminate].
Qed.

(** ** C39 *)
(** The operand is evaluated like any argument, to some form x; then x is
    evaluated in the same environment. *)
Theorem C39_eval :
  forall x e w r w',
    not_macro "quote" e w -> denotes_native "eval" BEval e w ->
    evals (form "eval" [quoted x]) e w r w' <->
    exists q, evals x e w q w' /\ r = with_context (extend "builtin function eval") q.
Proof.
  intros x e w r w' Q D. change [quoted x] with (map quoted [x]). rewrite (evals_native _ BEval) by auto.
  split; intros (q & N & ->); exists q; (split; [|reflexivity]).
  - apply native_iff in N. cbn [builtin_prog arg1] in N. apply runs_ev_wrap in N.
    destruct N as (q1 & N & ->). assert (E : with_context idE q1 = q1) by (destruct q1; reflexivity).
    rewrite E. exact N.
  - apply native_iff. cbn [builtin_prog arg1]. apply runs_ev_wrap. exists q. split; [exact N|].
    destruct q; reflexivity.
Qed.
Example C39_example :
  denotes_native "eval" BEval global_env demo /\
  exists w', evals (form "eval" [quoted (form "+" [VNum 1; VNum 2])]) global_env demo (Ok (VNum 3)) w'.
Proof.
  split; [repeat split; discriminate|]. eexists; exists 20%nat; split; [vm_compute; reflexivity|discriminate].
Qed.

(** ** C40 *)
Lemma macro_body_iff e xs : forall ret w r w',
  runs step Inf (macro_body (vlist xs) ret e) w r w' <->
  exists vs s, in_order e xs w vs s w' /\
    r = match s with None => Ok (last vs ret) | Some q => with_context (extend "evaluating macro expansion") q end.
Proof.
  induction xs as [|x xs IH]; intros ret w r w'.
  - rewrite vlist_nil. cbn [macro_body]. rewrite runs_ret. split.
    + intros [-> ->]. exists [], None. split; [constructor|auto].
    + intros (vs & s & IO & X). apply in_order_nil_inv in IO. destruct IO as (-> & -> & ->). auto.
  - rewrite vlist_cons. cbn [macro_body]. rewrite runs_ev. split.
    + intros (q & w1 & E & X). destruct q as [v| | | | |].
      1: { apply IH in X. destruct X as (vs & s & IO & ->). exists (v :: vs), s.
           split; [econstructor; [exact E|auto]|]. now rewrite last_cons. }
      all: destruct X as [-> ->]; eexists [], (Some _);
        (split; [eapply io_stop; [exact E|intros [v Q]; discriminate]|reflexivity]).
    + intros (vs & s & IO & X). apply in_order_cons_inv in IO.
      destruct IO as [(v & w2 & vs' & -> & E & IO)|(q & -> & -> & E & NO)].
      * exists (Ok v), w2. split; [exact E|]. apply IH. exists vs', s. split; auto.
        rewrite last_cons in X. exact X.
      * exists q, w'. split; [exact E|]. destruct q; auto. apply (ok_not_not _ _ NO).
Qed.
(** One expansion step of the call (m a1 ... an): the body forms in order, with
    the parameters bound to the argument forms, below the caller's environment. *)
Lemma macroexpand1_iff m args ps rest body doc lenv bs e w r w' :
  lookup e m w = Some (VLam ps rest (vlist body) doc true lenv) ->
  ~ In "t" ps -> rest <> "t" -> bind_args ps rest args = Some bs ->
  runs step Inf (macroexpand1 (form m args) e) w r w' <->
  exists vs s, in_order (new_env e w) body (with_frame bs w) vs s w' /\
    r = match s with None => Ok (last vs VNil) | Some q => with_context (extend "evaluating macro expansion") q end.
Proof.
  intros L T1 T2 B. unfold macroexpand1, form. cbn [macro_of].
  rewrite bind_op.
  rewrite runs_op. cbn [exec fst snd]. rewrite L. rewrite bind_ret. rewrite cons_to_exprs_vlist.
  rewrite runs_op. cbn [exec]. rewrite in_new_mk. cbn [fst snd].
  rewrite <- macro_body_iff. rewrite runs_bind.
  assert (T : ~ t_param ps rest) by (intros [X|X]; auto).
  split.
  - intros (r1 & w1 & H & X). apply runs_map_err in H. destruct H as (r2 & H & ->).
    apply (set_lambda_args_ok Inf e w ps rest args bs T B) in H. destruct H as [-> ->]. exact X.
  - intros X. exists (Ok tt), (with_frame bs w). split; [|exact X].
    apply runs_map_err. exists (Ok tt). split; auto.
    apply (set_lambda_args_ok Inf e w ps rest args bs T B). auto.
Qed.
Definition macro_ctx (er : err) : err :=
  extend "eval macroexpansion" (extend "macroexpanson" (extend "evaluating macro expansion" er)).

Lemma eval_expand x e w r w' :
  evals x e w r w' <->
  exists q w1, (match x with VCons (VAtom s) _ => if match lookup e s w with Some (VLam _ _ _ _ b _) => b | _ => false end
                                  then calls step Inf (CExpand x e) w q w1 else q = Ok x /\ w1 = w
                | _ => q = Ok x /\ w1 = w end) /\
    match q with Ok x' => ends Inf (dispatch x' e) w1 r w'
            | _ => r = with_context (extend "eval macroexpansion") q /\ w' = w1 end.
Proof.
  unfold evals. rewrite calls_ends. cbn [step]. unfold step_eval.
  assert (K : ends Inf (dispatch x e) w r w' <->
    exists q w1, (q = Ok x /\ w1 = w) /\
    match q with Ok x' => ends Inf (dispatch x' e) w1 r w'
            | _ => r = with_context (extend "eval macroexpansion") q /\ w' = w1 end).
  { split; [intros H; do 2 eexists; split; [split; reflexivity|exact H]|].
    intros (q & w1 & [-> ->] & H). exact H. }
  destruct x as [| | |a t| |]; try exact K. destruct a as [s| | | | |]; try exact K.
  cbn [macro_of].
  rewrite bind_op.
  rewrite ends_op. cbn [exec fst snd].
  destruct (lookup e s w) as [[| | | |ps rest body doc [] lenv|]|]; rewrite bind_ret; try exact K.
  rewrite ends_sub. split.
  - intros (q & w1 & N & X). exists q, w1. split; [exact N|]. destruct q; auto. now apply ends_raise in X.
  - intros (q & w1 & N & X). exists q, w1. split; [exact N|]. destruct q; auto. now apply ends_raise.
Qed.

(** If the expansion gives a form, evaluating the macro call is evaluating that
    form in the caller's environment, from the state the expansion left (and if
    the form is again a macro call, it is expanded in turn). *)
Theorem C40_macro_call :
  forall m args ps rest body doc lenv bs e w vs w1 r w',
    lookup e m w = Some (VLam ps rest (vlist body) doc true lenv) ->
    ~ In "t" ps -> rest <> "t" -> bind_args ps rest args = Some bs ->
    in_order (new_env e w) body (with_frame bs w) vs None w1 ->
    evals (form m args) e w r w' <-> evals (last vs VNil) e w1 r w'.
Proof.
  intros m args ps rest body doc lenv bs e w vs w1 r w' L T1 T2 B IO.
  assert (M1 : runs step Inf (macroexpand1 (form m args) e) w (Ok (last vs VNil)) w1).
  { eapply macroexpand1_iff; eauto. }
  set (x' := last vs VNil) in *.
  (* the expansion of the call *)
  assert (EX : forall q u, calls step Inf (CExpand (form m args) e) w q u <->
     (match x' with VCons (VAtom s) _ => if match lookup e s w1 with Some (VLam _ _ _ _ b _) => b | _ => false end
                                  then calls step Inf (CExpand x' e) w1 q u else q = Ok x' /\ u = w1
                | _ => q = Ok x' /\ u = w1 end)).
  { intros q u. rewrite calls_ends. cbn [step]. unfold step_expand. rewrite ends_bind.
    assert (K : (exists r1 u1, runs step Inf (map_err (extend "macroexpanson") (macroexpand1 (form m args) e)) w r1 u1 /\
       match r1 with Ok a => ends Inf (bind (macro_of a e) (fun m0 => match m0 with Some _ => Ret (TTail (CExpand a e)) | None => Ret (TVal a) end)) u1 q u
                | _ => q = lift r1 /\ u = u1 end) <->
       ends Inf (bind (macro_of x' e) (fun m0 => match m0 with Some _ => Ret (TTail (CExpand x' e)) | None => Ret (TVal x') end)) w1 q u).
    { split.
      - intros (r1 & u1 & H & X). apply runs_map_err in H. destruct H as (r2 & H & ->).
        destruct (runs_det _ _ _ _ _ _ _ _ H M1) as [-> ->]. exact X.
      - intros X. exists (Ok x'), w1. split; [|exact X]. apply runs_map_err. exists (Ok x'). auto. }
    rewrite K. clear K. destruct x' as [| | |a t| |]; try apply ends_val. destruct a as [s| | | | |]; try apply ends_val.
    cbn [macro_of]. rewrite bind_op.
    rewrite ends_op. cbn [exec fst snd].
    destruct (lookup e s w1) as [[| | | |ps' rest' body' doc' [] lenv'|]|]; rewrite bind_ret; try apply ends_val.
    apply ends_tail. }
  rewrite (eval_expand (form m args)), (eval_expand x').
  cbn [form]. unfold form at 1. rewrite L.
  split; intros (q & u & H & X); exists q, u; (split; [|exact X]); now apply EX.
Qed.
Theorem C40_failed_expansion :
  forall m args ps rest body doc lenv bs e w vs q w1,
    lookup e m w = Some (VLam ps rest (vlist body) doc true lenv) ->
    ~ In "t" ps -> rest <> "t" -> bind_args ps rest args = Some bs ->
    in_order (new_env e w) body (with_frame bs w) vs (Some q) w1 ->
    evals (form m args) e w (with_context macro_ctx q) w1.
Proof.
  intros m args ps rest body doc lenv bs e w vs q w1 L T1 T2 B IO.
  pose proof (in_order_stop_not_ok _ _ _ _ _ _ IO) as NO.
  rewrite eval_expand. unfold form at 1. rewrite L.
  exists (with_context (fun er => extend "macroexpanson" (extend "evaluating macro expansion" er)) q), w1. split.
  - apply calls_ends. cbn [step]. unfold step_expand. rewrite ends_bind.
    eexists _, w1. split.
    + apply runs_map_err. eexists. split; [|reflexivity].
      eapply macroexpand1_iff; eauto.
    + destruct q; simpl; auto. apply (ok_not_not _ _ NO).
  - destruct q; simpl; auto. apply (ok_not_not _ _ NO).
Qed.
(** Wrong number of argument forms: an error, and nothing of the macro is evaluated. *)
Theorem C40_wrong_arity :
  forall m args ps rest body doc lenv e w,
    lookup e m w = Some (VLam ps rest (vlist body) doc true lenv) -> bind_args ps rest args = None ->
    exists er, evals (form m args) e w (Er er) (with_frame [] w).
Proof.
  intros m args ps rest body doc lenv e w L B. eexists. rewrite eval_expand. unfold form at 1. rewrite L.
  eexists (Er _), (with_frame [] w). split; [|cbn; auto].
  apply calls_ends. cbn [step]. unfold step_expand. rewrite ends_bind.
  eexists (Er _), _. split; [|cbn; split; reflexivity].
  apply runs_map_err. eexists (Er _). split; [|reflexivity].
  unfold macroexpand1, form. cbn [macro_of]. rewrite bind_op.
  rewrite runs_op. cbn [exec fst snd]. rewrite L. rewrite bind_ret. rewrite cons_to_exprs_vlist.
  rewrite runs_op. cbn [exec]. rewrite in_new_mk. cbn [fst snd]. apply runs_bind_er.
  apply runs_map_err. eexists (Er _). split; [apply (set_lambda_args_bad Inf e w ps rest args B); auto|reflexivity].
Qed.
(** macroexpand-1 gives that form without evaluating it. *)
Theorem C40_macroexpand_1 :
  forall m args ps rest body doc lenv bs e w vs w1,
    not_macro "quote" e w -> denotes_native "macroexpand-1" BMacroexpand1 e w ->
    lookup e m w = Some (VLam ps rest (vlist body) doc true lenv) ->
    ~ In "t" ps -> rest <> "t" -> bind_args ps rest args = Some bs ->
    in_order (new_env e w) body (with_frame bs w) vs None w1 ->
    evals (form "macroexpand-1" [quoted (form m args)]) e w (Ok (last vs VNil)) w1.
Proof.
  intros. change [quoted (form m args)] with (map quoted [form m args]).
  apply (evals_native _ BMacroexpand1); auto. exists (Ok (last vs VNil)). split; [|reflexivity].
  apply native_iff. cbn [builtin_prog arg1].
  eapply macroexpand1_iff; eauto.
Qed.
(** Example: the macro (m x y) => (list y (quote x)) called with a form that would fail. *)
Definition ex_macro : world :=
  with_frame [("m", VLam ["x"; "y"] "" (vlist [form "list" [quoted (VAtom "list"); VAtom "y"; form "list" [quoted (VAtom "quote"); VAtom "x"]]])
                      VNil true [1%positive])] demo.
Example C40_example :
  (exists w', evals (form "m" [form "boom" [VNum 1]; form "+" [VNum 1; VNum 2]]) [2; 1]%positive ex_macro
     (Ok (vlist [VNum 3; form "boom" [VNum 1]])) w') /\
  (exists w', evals (form "macroexpand-1" [quoted (form "m" [form "boom" [VNum 1]; form "+" [VNum 1; VNum 2]])])
     [2; 1]%positive ex_macro
     (Ok (form "list" [form "+" [VNum 1; VNum 2]; quoted (form "boom" [VNum 1])])) w') /\
  (exists vs w1, in_order (new_env [2; 1]%positive ex_macro)
     [form "list" [quoted (VAtom "list"); VAtom "y"; form "list" [quoted (VAtom "quote"); VAtom "x"]]]
     (with_frame [("x", form "boom" [VNum 1]); ("y", form "+" [VNum 1; VNum 2])] ex_macro) vs None w1).
Proof.
  split; [|split].
  - eexists; exists 20%nat; split; [vm_compute; reflexivity|discriminate].
  - eexists; exists 20%nat; split; [vm_compute; reflexivity|discriminate].
  - do 2 eexists. eapply io_cons; [|constructor]. exists 20%nat; split; [vm_compute; reflexivity|discriminate].
Qed.
