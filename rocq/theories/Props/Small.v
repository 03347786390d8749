(** * Small: small library functions and comment (C70). *)
From Coq Require Import Lia.
From Verif.Model Require Import Base Syntax World Prog Lex Parse Meta Eval Builtins CoreSrc Main.
From Verif.Proofs Require Import Run Heap Rules Forms Natives Core Wp Step Macro Symb Macros Guard Hof Lib Combi.
From Verif.Spec Require Import Vocabulary Library Repeating.
From Verif.Props Require Import Calls Numbers LibPure Choice.
Open Scope prog_scope.
Open Scope list_scope.

Theorem C70_identity x e w : library "identity" e w -> yields (call_on "identity" [x]) e w x.
Proof. intros L. lib_tac (identity_pv x). Qed.

Lemma true_pv x : pv (core_val "true?") [x] (truth (val_equal x VT)).
Proof. intros M e w Q C K; penter i w1; ev. pdone. Qed.
Theorem C70_true x e w : library "true?" e w ->
  exists b, yields (call_on "true?" [x]) e w (truth b) /\ (b = true <-> x = VAtom "t").
Proof.
  intros L. exists (val_equal x VT). split; [lib_tac (true_pv x)|].
  destruct x; cbn; try (split; congruence). rewrite String.eqb_eq. split; congruence.
Qed.

(** list*: the arguments before the last one, in front of the last one. *)
Theorem C70_list_star xs b e w : library "list*" e w ->
  yields (call_on "list*" (xs ++ [b])) e w (fold_right VCons b xs).
Proof.
  intros L. replace (fold_right VCons b xs) with (vapp xs b); [lib_tac (list_star_pv xs b)|].
  induction xs as [|x xs IH]; [reflexivity|]. cbn [fold_right]. rewrite <- IH. reflexivity.
Qed.
Theorem C70_list_star_nothing e w : library "list*" e w -> yields (call_on "list*" []) e w VNil.
Proof. intros L. lib_tac list_star_pv0. Qed.

(** not=: the opposite of =. *)
Lemma not_eq_pv x ys : pv (core_val "not=") (x :: ys) (truth (is_nil (equal_fold x ys))).
Proof.
  intros M e w Q C K; penter i w1; ev.
  eapply wpf_native; [exact I| |].
  - change [VBuiltin BEq; vlist (x :: ys)] with (VBuiltin BEq :: [] ++ [vlist (x :: ys)]). rewrite apply_prog.
    cbn [app apply_values]. apply runs_sub. exists (Ok (equal_fold x ys)). eexists. split; [|apply runs_ret_].
    match goal with |- nested step _ (CBuiltin _ _ ?e1) ?w1 _ ?w2 => assert (X : native BEq (x :: ys) e1 w1 (Ok (equal_fold x ys)) w1) by (apply native_iff; apply runs_ret_); exact X end.
  - ev. pdone.
Qed.
Theorem C70_not_equal x ys e w : library "not=" e w ->
  exists b, yields (call_on "not=" (x :: ys)) e w (truth b) /\ (b = false <-> Forall (same_data x) ys).
Proof.
  intros L. exists (is_nil (equal_fold x ys)). split; [lib_tac (not_eq_pv x ys)|].
  induction ys as [|y ys IH]; [split; [constructor|reflexivity]|]. cbn [equal_fold].
  destruct (val_equal x y) eqn:E.
  - apply val_equal_iff in E. rewrite IH. split; [now constructor|]. intros F. now inversion F.
  - split; [discriminate|]. intros F. inversion F as [|? ? A]; subst. apply val_equal_iff in A. congruence.
Qed.
Lemma wpf_native_fails M d b args e w er w' (Q : val -> world -> Prop) :
  room 1 d -> runs step (dpred d) (builtin_prog b args e) w (Er er) w' -> (forall er', stops M (Er er') w') ->
  wpf M d (VBuiltin b) args e w Q.
Proof.
  intros R X K. unfold wpf. cbn [call_fn].
  assert (N : nested step d (CBuiltin b args e) w (Er er) w').
  { apply nested_room; auto. apply calls_ends. cbn [step]. apply ends_val_. exact X. }
  split.
  - intros r w1 X1. apply ends_sub in X1. destruct X1 as (r1 & w2 & N2 & X1).
    destruct (nested_det _ _ _ _ _ _ _ _ N N2) as [<- <-]. apply ends_raise in X1. destruct X1 as [-> ->]. apply K.
  - intros _. do 2 eexists. apply ends_sub. exists (Er er), w'. split; [exact N|]. apply ends_raise. split; reflexivity.
Qed.
Theorem C70_not_equal_nothing e w : library "not=" e w ->
  exists er w', evals (call_on "not=" []) e w (Er er) w' /\ grows w w'.
Proof.
  intros L. apply fails_only_er. apply wp_call_on; [exact L|vm_compute; reflexivity..|].
  destruct L as [_ C]. penter i w1. ev.
  eapply wpf_native_fails with (er := extend "apply" (base_error "missing argument")); [exact I| |intros; split; [eexists; reflexivity|exact (pureJ_done _ _ _ Gd)]].
  match goal with |- runs step _ (builtin_prog BApply _ ?e1) _ _ _ =>
    change (runs step Inf (apply_values (VBuiltin BEq) [] e1) w1 (Er (extend "apply" (base_error "missing argument"))) w1) end.
  cbn [apply_values]. apply runs_sub. eexists (Er _), w1. split; [|apply runs_raise_].
  match goal with |- nested step _ (CBuiltin _ _ ?e1) _ _ _ =>
    assert (X : native BEq [] e1 w1 (Er (base_error "missing argument")) w1) by (apply native_iff; apply runs_raise_); exact X end.
Qed.

(** comment: nothing of the body is evaluated. *)
Theorem C70_comment xs e w : core w -> allocated w e -> as_loaded ["comment"%string] e w ->
  yields (form "comment" xs) e w VNil.
Proof.
  intros C A L.
  assert (LK : lookup e "comment" w = Some (core_val "comment")).
  { rewrite L by now left. vm_compute. reflexivity. }
  assert (CV : exists doc, core_val "comment" = VLam [] "body" VNil doc true [1%positive]) by (eexists; vm_compute; reflexivity).
  destruct CV as [doc CV]. rewrite CV in LK.
  set (w1 := with_frame [("body"%string, vlist xs)] w). exists w1. split; [|apply grows_with_frame].
  unfold form, evals.
  apply (eval_macro Inf _ _ _ _ _ _ (macro_of_some _ _ (vlist xs) _ _ _ LK eq_refl) I).
  exists (Ok VNil), w1. split; [|cbn [dispatch]; now apply ends_val].
  apply calls_ends. cbn [step]. unfold step_expand.
  match goal with |- ends ?d (bind ?p ?k) _ ?r _ => apply (ends_runs d p k w VNil w1 r w1) end.
  2: { apply ends_bind. exists (Ok None), w1. split; [|now apply ends_val]. cbn [macro_of]. apply runs_ret_. }
  apply runs_map_err. exists (Ok VNil). split; [|reflexivity]. unfold macroexpand1.
  eapply runs_bind_ok; [now apply (macro_of_some _ "comment" (vlist xs) e w _ LK)|]. rewrite cons_to_exprs_vlist.
  apply runs_op. cbn [exec]. rewrite in_new_mk. cbn [fst snd].
  eapply runs_bind_ok; [|cbn [macro_body]; apply runs_ret_].
  apply runs_map_err. exists (Ok tt). split; [|reflexivity].
  eapply set_lambda_args_ok; [|reflexivity|split; reflexivity].
  intros [[]|X]; discriminate.
Qed.
Example C70_case :
  let w := core_world demo_host [] in
  yields (call_on "list*" [VNum 1; VNum 2; vlist [VNum 3; VNum 4]]) global_env w (vlist [VNum 1; VNum 2; VNum 3; VNum 4]) /\
  yields (form "comment" [vlist [VAtom "/"; VNum 1; VNum 0]]) global_env w VNil /\
  (exists b, yields (call_on "not=" [VNum 1; VNum 2]) global_env w (truth b) /\ (b = false <-> Forall (same_data (VNum 1)) [VNum 2])) /\
  ~ Forall (same_data (VNum 1)) [VNum 2].
Proof.
  cbn zeta. split; [|split; [|split]].
  - apply (C70_list_star [VNum 1; VNum 2] (vlist [VNum 3; VNum 4])), library_start.
  - apply C70_comment; [apply core_world_core|repeat constructor|apply start_loaded; vm_compute; reflexivity].
  - apply (C70_not_equal (VNum 1) [VNum 2]), library_start.
  - intros F. inversion F as [|? ? A]. inversion A.
Qed.
