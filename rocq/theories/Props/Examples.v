(** * Examples: further example programs of the project, on every machine (C84). *)
From Verif.Model Require Import Base Syntax World Prog Lex Parse Meta Eval Builtins CoreSrc Main.
From Verif.Proofs Require Import Run Rules Forms Natives Core.
From Verif.Spec Require Import Vocabulary Reader Library Session Programs.
From Verif.Props Require Import Session Everywhere.
Import Vocabulary. Import Verif.Spec.Session.
Open Scope list_scope.

(** examples/hello.l1, examples/fails.l1, examples/badlex.l1. *)
Definition hello_lines : list string := ["#!/usr/bin/env l1"; ";; hello.l1"; "(printl '(hello world))"; ""]%string.
Definition fails_lines : list string :=
  [";; Used to integration-test nonzero exit status:"; "(printl '(This statement should fail:))"; "(is ())"; ""]%string.
Definition badlex_lines : list string :=
  [";; should print an error occurring on line 4:"; "(printl"; " (+ 1"; "    2"; "    3 & 4))"; ""]%string.
(** Run as a file, the program ends with [en] and has put out [out], on every
    host and with every standard input. *)
Definition always (lines : list string) (en : ending) (out : list string) : Prop :=
  forall h stdin file, h_readfile h 0%N file = inr (text_of lines) ->
    exists w', process (Options false false false "" [file]) h stdin en w' /\ rev (w_out w') = map Printed out.

Lemma always_done lines f out : (forall h stdin, exists w', 
    run_prog f Inf (lex_parse_eval (text_of lines) global_env) (tick (core_world h stdin)) = (Ok VNil, w') /\ rev (w_out w') = map Printed out) ->
  always lines (Status 0) out.
Proof.
  intros H h stdin file R. destruct (H h stdin) as (w' & E & O).
  exists w'. split; [|exact O]. apply process_file.
  assert (P : program global_env (text_of lines) (tick (core_world h stdin)) (Ok VNil) w') by (apply C58_program; exists f; split; [exact E|discriminate]).
  rewrite loaded_core. eapply loads_next; [exact R|exact P|constructor].
Qed.
Lemma always_fails lines f out msg : (forall h stdin, exists er w',
    run_prog f Inf (lex_parse_eval (text_of lines) global_env) (tick (core_world h stdin)) = (Er er, w') /\ rev (w_out w') = map Printed out /\ err_text er = msg) ->
  always lines (Status 1) (out ++ [("ERROR:" ++ LF ++ msg ++ LF)%string]).
Proof.
  intros H h stdin file R. destruct (H h stdin) as (er & w' & E & O & M).
  exists (printed ("ERROR:" ++ LF ++ err_text er ++ LF) w'). split.
  - apply process_file. rewrite loaded_core.
    assert (P : program global_env (text_of lines) (tick (core_world h stdin)) (Er er) w') by (apply C58_program; exists f; split; [exact E|discriminate]).
    eapply loads_fails; [exact R|exact P].
  - unfold printed. cbn [emit w_out rev]. rewrite O, M, map_app. reflexivity.
Qed.
(** hello.l1 greets. *)
Theorem C84_hello : always hello_lines (Status 0) [("hello world" ++ LF)%string].
Proof. apply (always_done _ 100). intros h stdin. eexists. split; [vm_compute; reflexivity|reflexivity]. Qed.
(** fails.l1, which tests that failing gives an exit status other than 0, does so. *)
Theorem C84_fails : always fails_lines (Status 1)
  [("This statement should fail:" ++ LF)%string; ("ERROR:" ++ LF ++ "((assertion failed: ()))" ++ LF)%string].
Proof. apply (always_fails _ 100 [("This statement should fail:" ++ LF)%string]). intros h stdin. eexists. eexists. split; [vm_compute; reflexivity|]. split; reflexivity. Qed.
(** badlex.l1 can be read (an ampersand is a symbol): it fails where that symbol is
    evaluated, and prints no line number. *)
Theorem C84_badlex : always badlex_lines (Status 1)
  [("ERROR:" ++ LF ++ "((evaluating function arguments) (evaluating function arguments) (unknown symbol: &))" ++ LF)%string].
Proof. apply (always_fails _ 100 []). intros h stdin. eexists. eexists. split; [vm_compute; reflexivity|]. split; reflexivity. Qed.
