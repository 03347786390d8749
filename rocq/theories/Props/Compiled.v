(** * Compiled: programs built with l1c (C87). *)
From Coq Require Import Lia.
From Verif.Model Require Import Base Syntax World Prog Lex Parse Meta Eval Builtins CoreSrc Main Compiled.
From Verif.Proofs Require Import Run Rules Core.
From Verif.Spec Require Import Vocabulary Reader Library Session.
From Verif.Props Require Import Session.
Open Scope prog_scope.
Open Scope list_scope.

(** A compiled program, started on host [h] with input [stdin], ends with [en] in
    state [w']. *)
Definition compiled_ends (text : string) (h : host) (stdin : list string) (en : ending) (w' : world) : Prop :=
  exists r, runs step Inf (compiled_prog text) (init_world h stdin) r w' /\ ending_of r = Some en.
(** The same text given to l1 with the option -e. *)
Definition with_e (text : string) : options := Options false false false text [].

Lemma compiled_iff text h stdin en w' :
  compiled_ends text h stdin en w' <->
  exists q, program global_env text (loaded h stdin) q w' /\
    match q with Ok _ | Er _ => en = Status 0 | _ => ending_of q = Some en end.
Proof.
  unfold compiled_ends, compiled_prog. split.
  - intros (r & R & E). match type of R with runs _ _ (bind _ ?k) _ _ _ => pose proof (proj1 (starts h stdin k _ _) R) as X end.
    clear R. cbv beta in X. apply runs_bind in X. destruct X as (r1 & w1 & X & Y). apply runs_attempt in X. destruct X as (q & X & ->).
    apply C58_program in X. exists q.
    destruct (program_ending _ _ _ _ _ X) as [[v ->]|[[er ->]|(N1 & N2 & en' & EN)]].
    + apply runs_ret in Y. destruct Y as [-> ->]. injection E as <-. auto.
    + apply runs_ret in Y. destruct Y as [-> ->]. injection E as <-. auto.
    + destruct q; try discriminate; try (elim N1; eexists; reflexivity); destruct Y as [-> ->]; auto.
  - intros (q & P & EN).
    assert (R : exists r, ending_of r = Some en /\
      runs step Inf (attempt (lex_parse_eval text global_env) ;;; Ret tt) (loaded h stdin) r w').
    { apply C58_program in P. destruct q as [v|er|m|c| |]; try discriminate.
      - subst. exists (Ok tt). split; [reflexivity|]. apply runs_bind. exists (Ok (inl v)), w'. split; [|now apply runs_ret].
        apply runs_attempt. exists (Ok v). auto.
      - subst. exists (Ok tt). split; [reflexivity|]. apply runs_bind. exists (Ok (inr er)), w'. split; [|now apply runs_ret].
        apply runs_attempt. exists (Er er). auto.
      - exists (Panicked m). split; [exact EN|]. apply runs_bind. exists (Panicked m), w'. split; [|split; reflexivity].
        apply runs_attempt. exists (Panicked m). auto.
      - exists (Exited c). split; [exact EN|]. apply runs_bind. exists (Exited c), w'. split; [|split; reflexivity].
        apply runs_attempt. exists (Exited c). auto. }
    destruct R as (r & EN' & R). exists r. split; [|exact EN'].
    pose proof (proj2 (starts h stdin (fun _ => attempt (lex_parse_eval text global_env) ;;; Ret tt) r w') R) as S. exact S.
Qed.

(** A compiled program does what the text does, evaluated in the state the
    library leaves; errors are not reported and end the program with status 0. *)
Theorem C87_compiled : forall text h stdin en w',
  compiled_ends text h stdin en w' <->
  (en = Status 0 /\ (program global_env text (loaded h stdin) (Ok VNil) w' \/
                     exists er, program global_env text (loaded h stdin) (Er er) w')) \/
  (exists c, en = Status c /\ program global_env text (loaded h stdin) (Exited c) w') \/
  (exists msg, en = Crashed msg /\ program global_env text (loaded h stdin) (Panicked msg) w').
Proof.
  intros. rewrite compiled_iff. split.
  - intros (q & P & E). destruct q as [v|er|m|c| |]; try discriminate.
    + left. split; [exact E|left]. inversion P as [? ? ? RD IO| ? ? q ? RD IO|?|?]; subst; auto.
      exfalso. clear -IO. remember (Some (Ok v)) as s eqn:S. induction IO; try discriminate; auto.
      injection S as ->. apply H0. now eexists.
    + left. eauto.
    + right. right. injection E as <-. eauto.
    + right. left. injection E as <-. eauto.
  - intros [[-> [P|[er P]]]|[[c [-> P]]|[m [-> P]]]]; (eexists; split; [exact P|]); reflexivity.
Qed.
(** The same text with -e: the same end and the same effects, except that l1
    reports an error, once, and gives status 1. *)
Theorem C87_same_as_e : forall text h stdin en w', text <> EmptyString ->
  compiled_ends text h stdin en w' <->
  (process (with_e text) h stdin en w' /\ en <> Status 1) \/
  (en = Status 0 /\ exists er, program global_env text (loaded h stdin) (Er er) w' /\
     process (with_e text) h stdin (Status 1) (printed (err_text er ++ LF) w')).
Proof.
  intros text h stdin en w' NE. rewrite C87_compiled. split.
  - intros [[-> [P|[er P]]]|[[c [-> P]]|[m [-> P]]]].
    + left. split; [|discriminate]. eapply process_eval; [reflexivity|exact NE|exact P].
    + right. split; [reflexivity|]. exists er. split; [exact P|]. apply process_eval_fails; [reflexivity|exact NE|exact P].
    + left. pose proof (program_status _ _ _ _ _ P) as ->. split; [|discriminate].
      eapply process_eval_ends; [reflexivity|exact NE|exact P|intros [v V]; discriminate|reflexivity].
    + left. split; [|discriminate]. eapply process_eval_ends; [reflexivity|exact NE|exact P|intros [v V]; discriminate|reflexivity].
  - intros [[P NS]|[-> (er & P & _)]]; [|left; eauto].
    inversion P as [V|v w1 V1 N1 PR|er w1 V1 N1 PR|q en1 w1 V1 N1 PR NQ EN|en1 w1 V1 N1 F1|r1 en1 w1 V1 N1 F1]; try discriminate; subst; try contradiction.
    + assert (Q : compiled_ends text h stdin (Status 0) w') by (apply compiled_iff; exists (Ok v); auto). now apply C87_compiled in Q.
    + assert (Q : compiled_ends text h stdin en w').
      { apply compiled_iff. exists q. split; [exact PR|]. destruct q; try discriminate; try exact EN. elim NQ. now eexists. }
      now apply C87_compiled in Q.
Qed.
(** So a compiled program never fails with a status: it ends with status 0, or
    the Go runtime crashes. *)
Theorem C87_status : forall text h stdin c w', compiled_ends text h stdin (Status c) w' -> c = 0%Z.
Proof.
  intros text h stdin c w' P. apply C87_compiled in P. destruct P as [[E _]|[[c' [E P]]|[m [E _]]]]; try discriminate.
  - now injection E.
  - injection E as <-. now apply program_status in P.
Qed.
(** Example: a program that prints, fails, and would have printed more. *)
Example C87_example : exists w',
  compiled_ends "(println 1) (car 2) (println 3)" demo_host [] (Status 0) w' /\
  w_out w' = [Printed ("1" ++ LF)].
Proof.
  pose (r := run_prog 500 Inf (lex_parse_eval "(println 1) (car 2) (println 3)" global_env) (core_world demo_host [])).
  exists (snd r). split; [|vm_compute; reflexivity].
  apply C87_compiled. left. split; [reflexivity|right].
  exists (match fst r with Er er => er | _ => EGo "" end). rewrite loaded_core. apply C58_program.
  exists 500%nat. split; [vm_compute; reflexivity|discriminate].
Qed.
