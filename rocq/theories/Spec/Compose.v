(** * Compose: running several texts one after the other. *)
From Verif.Model Require Import Base Syntax World Prog.
From Verif.Spec Require Import Vocabulary Session.
Open Scope list_scope.

(** Each text is run in the state the one before has left, up to the first that
    does not end with a value. *)
Inductive one_after_the_other (e : env) : list string -> world -> outcome val -> world -> Prop :=
| after_all w : one_after_the_other e [] w (Ok VNil) w
| after_next text texts w v w1 r w' :
    program e text w (Ok v) w1 -> one_after_the_other e texts w1 r w' -> one_after_the_other e (text :: texts) w r w'
| after_stop text texts w r w' :
    program e text w r w' -> ~ is_ok r -> one_after_the_other e (text :: texts) w r w'.

(** The texts as one, each on lines of its own. *)
Definition one_text (texts : list string) : string := String.concat LF texts.
