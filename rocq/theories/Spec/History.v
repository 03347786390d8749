(** * History: comparing two runs that differ only in what was computed before. *)
From Verif.Model Require Import Base Syntax World Prog.
From Verif.Spec Require Import Vocabulary.
Open Scope list_scope.

(** Two values that are the same except for which environments the functions
    inside them were made in. *)
Inductive alike : val -> val -> Prop :=
| alike_atom s : alike (VAtom s) (VAtom s)
| alike_num n : alike (VNum n) (VNum n)
| alike_nil : alike VNil VNil
| alike_native b : alike (VBuiltin b) (VBuiltin b)
| alike_cons a a' d d' : alike a a' -> alike d d' -> alike (VCons a d) (VCons a' d')
| alike_function ps rest body body' doc doc' macro e e' :
    alike body body' -> alike doc doc' -> length e = length e' ->
    alike (VLam ps rest body doc macro e) (VLam ps rest body' doc' macro e').
Inductive alike_error : err -> err -> Prop :=
| alike_lisp v v' : alike v v' -> alike_error (ECons v) (ECons v')
| alike_go s : alike_error (EGo s) (EGo s).
Inductive alike_outcome : outcome val -> outcome val -> Prop :=
| alike_ok v v' : alike v v' -> alike_outcome (Ok v) (Ok v')
| alike_er x x' : alike_error x x' -> alike_outcome (Er x) (Er x')
| alike_panic s : alike_outcome (Panicked s) (Panicked s)
| alike_exit c : alike_outcome (Exited c) (Exited c)
| alike_overflow : alike_outcome Overflow Overflow.

(** From [w] to [u] happened what happened from [w'] to [u'], as far as one can
    see from outside: the same was printed, shown, run and slept, and the input
    not read yet, the gensym counter, the number of questions asked to the
    operating system and the screen are the same now. *)
Definition same_effects (w w' u u' : world) : Prop :=
  (exists new, w_out u = new ++ w_out w /\ w_out u' = new ++ w_out w') /\
  w_stdin u' = w_stdin u /\ w_gensym u' = w_gensym u /\
  w_tick u' = w_tick u /\ w_screen u' = w_screen u /\ w_host u' = w_host u.

(** [w'] is [w] plus new environments that nothing in [w] knows of, and possibly
    other output. *)
Definition left_nothing (w w' : world) : Prop :=
  (w_next w <= w_next w')%positive /\
  (forall i, (i < w_next w)%positive \/ (w_next w' <= i)%positive -> frame_at w' i = frame_at w i) /\
  w_stdin w' = w_stdin w /\ w_gensym w' = w_gensym w /\
  w_tick w' = w_tick w /\ w_screen w' = w_screen w /\ w_host w' = w_host w.

(** Two ways of going on, [A] from [w] and [B] from [w'], have the same outcomes,
    up to [alike], and the same effects; and if one never ends, neither does the
    other. *)
Definition indistinguishable (w w' : world) (A B : outcome val -> world -> Prop) : Prop :=
  (forall r u, A r u -> exists r' u', B r' u' /\ alike_outcome r r' /\ same_effects w w' u u') /\
  (forall r' u', B r' u' -> exists r u, A r u /\ alike_outcome r r' /\ same_effects w w' u u').
