(** * Random: vocabulary of the library functions that use chance (C76).

    The random source is the host's: asked for the [k]-th time with bound [b], it
    answers with any number; [randint] takes the remainder. *)
From Coq Require Import Lia.
From Verif.Model Require Import Base Syntax World.
From Verif.Spec Require Import Vocabulary Library.
Open Scope list_scope.

(** The [k]-th number drawn after [w], below [b]. *)
Definition draw (w : world) (k : nat) (b : Z) : Z :=
  (h_rand (w_host w) (w_tick w + N.of_nat k) b mod b)%Z.
(** The first [n] of them. *)
Definition draws (w : world) (n : nat) (b : Z) : list Z := map (fun k => draw w k b) (seq 0 n).
(** Exactly [n] numbers were drawn.  Otherwise there are only new environments:
    everything that existed is as before, nothing was printed or read. *)
Definition drew (n : nat) (w w' : world) : Prop :=
  (w_next w <= w_next w')%positive /\
  (forall i, (i < w_next w)%positive -> frame_at w' i = frame_at w i) /\
  w_tick w' = (w_tick w + N.of_nat n)%N /\ w_out w' = w_out w /\ w_stdin w' = w_stdin w /\
  w_screen w' = w_screen w /\ w_host w' = w_host w.

(** The [k]-th letter of the alphabet. *)
Definition letter (k : Z) : val := VAtom (str1 (chr (97 + Z.to_N k))).
