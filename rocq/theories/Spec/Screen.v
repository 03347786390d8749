(** * Screen: the vocabulary of with-screen (C74). *)
From Verif.Model Require Import Base Syntax World Prog Lex Parse Meta Eval Builtins CoreSrc Main.
From Verif.Proofs Require Import Run.
From Verif.Spec Require Import Vocabulary Library Repeating Choosing Binding.
Open Scope list_scope.

(** The names with-screen uses. *)
Definition with_screen_names : list string :=
  ["with-screen"; "progn"; "let"; "screen-start"; "screen-end"; "syntax-quote"; "cons"; "quote"; "concat2"]%string.
(** (with-screen body...) *)
Definition with_screen (body : list val) : val := vlist (VAtom "with-screen" :: body).
(** From [w] to [w']: apart from new environments, the clock of the outside
    world, the screen flag and the effects [fx] (latest first), nothing changes. *)
Definition screen_only (on : bool) (fx : list event) (w w' : world) : Prop :=
  (w_next w <= w_next w')%positive /\
  (forall i, (i < w_next w)%positive \/ (w_next w' <= i)%positive -> frame_at w' i = frame_at w i) /\
  (w_gensym w <= w_gensym w')%N /\ w_out w' = fx ++ w_out w /\ w_stdin w' = w_stdin w /\
  (w_tick w <= w_tick w')%N /\ w_screen w' = on /\ w_host w' = w_host w.
(** What starting the screen comes to: the outside world is asked for a screen
    and then to initialize it. *)
Inductive start_result : Type := Started | NoScreen | NoInit | AlreadyOn.
Definition starting (w : world) : start_result :=
  if w_screen w then AlreadyOn
  else match h_newscreen (w_host w) (w_tick w) with
       | Some _ => NoScreen
       | None => match h_initscreen (w_host w) (N.succ (w_tick w)) with Some _ => NoInit | None => Started end
       end.
(** The screen is ended, if it is on; nothing else changes, except in the private
    environment [k]. *)
Definition ends_screen (k : positive) (w w' : world) : Prop :=
  (forall i, i <> k -> frame_at w' i = frame_at w i) /\ w_next w' = w_next w /\ w_gensym w' = w_gensym w /\
  w_out w' = (if w_screen w then [ScreenEnded] else []) ++ w_out w /\ w_stdin w' = w_stdin w /\
  w_tick w' = w_tick w /\ w_screen w' = false /\ w_host w' = w_host w.
