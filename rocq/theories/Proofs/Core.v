(** * Core: the state after loading the library. *)
From Coq Require Import Lia FMapPositive.
From Verif.Model Require Import Base Syntax World Prog Lex Parse Meta Eval Builtins CoreSrc Main.
From Verif.Proofs Require Import Run.
From Verif.Spec Require Import Vocabulary Library.
Open Scope list_scope.

Definition core_world (h : host) (stdin : list string) : world :=
  MkWorld (PositiveMap.add 1%positive core_frame (w_frames (init_world h stdin))) 2 0 [] stdin 0 false h.
Lemma core_loads h stdin : startup h stdin = (Ok VNil, core_world h stdin).
Proof. vm_compute. reflexivity. Qed.
Lemma core_loads_runs h stdin :
  Run.runs step Inf (lex_parse_eval raw_core global_env) (init_world h stdin) (Ok VNil) (core_world h stdin).
Proof.
  exists 1000%nat. split; [vm_compute; reflexivity|discriminate].
Qed.
Lemma core_world_core h stdin : core (core_world h stdin).
Proof. split; [reflexivity|]. intros s _. reflexivity. Qed.

Lemma grows_refl w : grows w w.
Proof. repeat split; auto; lia. Qed.
Lemma grows_trans a b c : grows a b -> grows b c -> grows a c.
Proof.
  intros (N1 & F1 & E1) (N2 & F2 & E2). split; [lia|]. split.
  - intros i L. rewrite F2 by lia. apply F1. lia.
  - destruct E1 as (?&?&?&?&?&?), E2 as (?&?&?&?&?&?). repeat split; try congruence; lia.
Qed.
Lemma grows_core w w' : grows w w' -> core w -> core w'.
Proof.
  intros (N & F & _) [L C]. split; [lia|]. intros s I. rewrite F by lia. auto.
Qed.
Lemma grows_with_frame bs w : grows w (with_frame bs w).
Proof.
  split; [cbn; lia|]. split; [|repeat split; cbn; lia].
  intros i L. cbn [with_frame w_next] in L. unfold frame_at, with_frame. cbn [w_frames]. rewrite PositiveMap.gso by lia. reflexivity.
Qed.
Lemma grows_set_frame w0 w i f : (w_next w0 <= i)%positive -> (i < w_next w)%positive -> grows w0 w -> grows w0 (set_frame i f w).
Proof.
  intros L L2 (N & F & E). split; [exact N|]. split; [|exact E].
  intros j Lj. unfold frame_at, set_frame. cbn [w_frames]. cbn [set_frame w_next] in Lj. rewrite PositiveMap.gso by lia. now apply F.
Qed.
