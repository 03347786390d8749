(** * LetCall: comparing a let with the call of a function (C89). *)
From Verif.Model Require Import Base Syntax World Prog.
From Verif.Spec Require Import Vocabulary Defining History.
Open Scope list_scope.

(** (let ((s1 x1) ... (sn xn)) body...) and ((lambda (s1 ... sn) body...) x1 ... xn). *)
Definition as_let (bs : list (string * val)) (body : list val) : val :=
  VCons (VAtom "let") (VCons (vlist (map (fun b => vlist [VAtom (fst b); snd b]) bs)) (vlist body)).
Definition as_call (bs : list (string * val)) (body : list val) : val :=
  VCons (lambda_form (vlist (map VAtom (map fst bs))) body) (vlist (map snd bs)).

(** The two outcomes are alike, except for the one line an error is extended
    with: on the left for a failing argument or a failing form [x] of a function
    body, on the right for a failing value form or a failing form of a let body. *)
Inductive alike_but_context (body : list val) : outcome val -> outcome val -> Prop :=
| abc_alike r r' : alike_outcome r r' -> alike_but_context body r r'
| abc_argument x x' : alike_error x x' ->
    alike_but_context body (Er (extend "evaluating function arguments" x)) (Er (extend "evaluating let bindings" x'))
| abc_body x x' b : In b body -> alike_error x x' ->
    alike_but_context body (Er (extend_with (vlist [VAtom "lambda"; b]) x)) (Er (extend "evaluating let body" x')).

(** As [indistinguishable], but for the context of errors. *)
Definition exchangeable (body : list val) (w : world) (A B : outcome val -> world -> Prop) : Prop :=
  (forall r u, A r u -> exists r' u', B r' u' /\ alike_but_context body r r' /\ same_effects w w u u') /\
  (forall r' u', B r' u' -> exists r u, A r u /\ alike_but_context body r r' /\ same_effects w w u u').
