(** * Stack: the vocabulary of C78, how much stack library calls need.

    [evals_in n x e w r w'] (Vocabulary) is evaluation with room for [n] nested
    calls; a deeper nesting ends with the outcome [Overflow], which is Go's fatal
    stack overflow. *)
From Verif.Model Require Import Base Syntax World Prog Lex Parse Meta Eval Builtins CoreSrc Main.
From Verif.Proofs Require Import Run.
From Verif.Spec Require Import Vocabulary Library Calling.
Open Scope list_scope.

(** Evaluating [x] with room for [n] nested calls gives [v] (and leaves only
    garbage environments behind). *)
Definition yields_in (n : nat) (x : val) (e : env) (w : world) (v : val) : Prop :=
  exists w', evals_in n x e w (Ok v) w' /\ grows w w'.
(** Calling [f] on [args] gives [v] with room for [k] nested calls, in every
    state in which the library is as loaded. *)
Definition computes_in (k : nat) (f : val) (args : list val) (v : val) : Prop :=
  forall w, core w -> yields_in k (VCons (quoted f) (vlist (map quoted args))) global_env w v.
(** [v] is (f (f (f a x1) x2) x3)...; each call needs at most [k]. *)
Fixpoint folds_in (k : nat) (f : val) (a : val) (xs : list val) (v : val) : Prop :=
  match xs with
  | [] => v = a
  | x :: xs => exists y, computes_in k f [a; x] y /\ folds_in k f y xs v
  end.
(** [ys] are the values of [f] on the elements of [xs]. *)
Definition maps_in (k : nat) (f : val) (xs ys : list val) : Prop := Forall2 (fun x y => computes_in k f [x] y) xs ys.
(** The first of [ys] that is not (), or (). *)
Fixpoint first_true (ys : list val) : val :=
  match ys with [] => VNil | VNil :: ys => first_true ys | y :: _ => y end.
(** All of [ys] are different from (). *)
Definition all_true (ys : list val) : Prop := ~ In VNil ys.
