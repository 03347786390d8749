(** * Choosing: the vocabulary of if, when, progn ... (C44). *)
From Verif.Model Require Import Base Syntax World Prog Lex Parse Meta Eval Builtins CoreSrc Main.
From Verif.Proofs Require Import Run.
From Verif.Spec Require Import Vocabulary Library Repeating.
Open Scope list_scope.

(** [x] is evaluated (once, first); if it gives a value, what follows is [k]; if
    not, that is the outcome, an error receiving the context [ctx]. *)
Definition first (d : depth) (ctx : err -> err) (x : val) (e : env) (w : world)
  (k : val -> world -> outcome val -> world -> Prop) (r : outcome val) (w' : world) : Prop :=
  exists q w1, evals_with d x e w q w1 /\
    match q with Ok v => k v w1 r w' | _ => r = with_context ctx q /\ w' = w1 end.
(** The forms in order, all but the last with one unit of stack less, the last
    one with the stack [d] itself (tail position); the value is that of the last
    one, () if there is none; an error receives context [ctx], unless it comes
    from the last form. *)
Fixpoint sequence (d : depth) (ctx : err -> err) (xs : list val) (e : env) (w : world) (r : outcome val) (w' : world) : Prop :=
  match xs with
  | [] => r = Ok VNil /\ w' = w
  | [x] => evals_with d x e w r w'
  | x :: xs => first (less d) ctx x e w (fun _ w1 => sequence d ctx xs e w1) r w'
  end.
Definition cond_context : err -> err := extend "evaluating cond condition".
Definition not_context (er : err) : err := cond_context (extend "evaluating function arguments" er).
Definition let_context : err -> err := extend "evaluating let body".
