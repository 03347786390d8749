(** * Misc: sleep and version (C81). *)
From Coq Require Import Lia.
From Verif.Model Require Import Base Syntax World Prog Lex Parse Meta Eval Builtins CoreSrc Main.
From Verif.Proofs Require Import Run Rules Forms Natives Core.
From Verif.Spec Require Import Vocabulary Library.
From Verif.Props Require Import Startup.
Open Scope list_scope.

(** (sleep n) pauses the program once, for n milliseconds, or for -n milliseconds if
    n is negative, and gives ().  (Up to 2^63 nanoseconds, some 292 years.) *)
Theorem C81_sleep n e w : standard "sleep" e w -> (Z.abs n * 1000000 < 2 ^ 63)%Z ->
  evals (call_on "sleep" [VNum n]) e w (Ok VNil) (emit (Slept (Z.abs n * 1000000)) w).
Proof.
  intros S B. apply (call_on_iff _ BSleep); [reflexivity|exact S|]. exists (Ok VNil). split; [|reflexivity].
  cbn [builtin_prog arg1]. apply runs_bind_ok with (a := tt) (w1 := emit (Slept (Z.abs n * 1000000)) w); [|apply runs_ret_].
  eapply runs_op_; [|apply runs_ret_]. cbn [exec]. do 3 f_equal. unfold sleep_ns, go_int.
  rewrite (Z.mod_small (Z.abs n)) by lia. destruct (Z.ltb_spec (Z.abs n) (2 ^ 63)); [|lia].
  rewrite Z.mod_small by lia. lia.
Qed.
(** However large n is, there is one pause and nothing else changes. *)
Theorem C81_sleep_once n e w : standard "sleep" e w ->
  exists ns, evals (call_on "sleep" [VNum n]) e w (Ok VNil) (emit (Slept ns) w) /\ (- 2 ^ 63 <= ns < 2 ^ 63)%Z.
Proof.
  intros S. exists (sleep_ns n). split.
  - apply (call_on_iff _ BSleep); [reflexivity|exact S|]. exists (Ok VNil). split; [|reflexivity].
    cbn [builtin_prog arg1]. apply runs_bind_ok with (a := tt) (w1 := emit (Slept (sleep_ns n)) w); [|apply runs_ret_].
    eapply runs_op_; [|apply runs_ret_]. reflexivity.
  - unfold sleep_ns. pose proof (Z.mod_pos_bound (go_int n * 1000000 + 2 ^ 63) (2 ^ 64)). lia.
Qed.
(** Anything else is an error, without a pause. *)
Theorem C81_sleep_rejects vs e w r w' : standard "sleep" e w -> (forall n, vs <> [VNum n]) ->
  evals (call_on "sleep" vs) e w r w' -> is_er r /\ w' = w.
Proof.
  intros S N E. apply (call_on_iff _ BSleep) in E; [|reflexivity|exact S]. destruct E as (q & R & ->).
  cbn [builtin_prog] in R. destruct vs as [|x [|y vs]]; cbn [arg1] in R.
  2: destruct x; try (exfalso; eapply N; reflexivity).
  all: apply runs_raise in R; destruct R as [-> ->]; split; [eexists; reflexivity|reflexivity].
Qed.
(** (version) gives the numbers of the release, whatever the arguments and the
    state, and changes nothing. *)
Theorem C81_version vs e w : standard "version" e w ->
  evals (call_on "version" vs) e w (Ok (vlist [VNum 0; VNum 0; VNum 57; VAtom "dirty"])) w.
Proof.
  intros S. apply (call_on_iff _ BVersion); [reflexivity|exact S|]. exists (Ok (vlist [VNum 0; VNum 0; VNum 57; VAtom "dirty"])).
  split; [|reflexivity]. cbn [builtin_prog]. replace (semver_exprs version_string) with [VNum 0; VNum 0; VNum 57; VAtom "dirty"]; [apply runs_ret_|].
  vm_compute. reflexivity.
Qed.
Example C81_case : standard "sleep" global_env (core_world demo_host []) /\ standard "version" global_env (core_world demo_host []) /\
  evals (call_on "sleep" [VNum (-250)]) global_env demo (Ok VNil) (emit (Slept 250000000) demo) /\
  (forall n, [VAtom "x"] <> [VNum n]).
Proof.
  split; [split; vm_compute; exact I || reflexivity|]. split; [split; vm_compute; exact I || reflexivity|].
  split; [|discriminate]. apply (C81_sleep (-250)); [split; vm_compute; exact I || reflexivity|vm_compute; reflexivity].
Qed.
