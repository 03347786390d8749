(** * Everywhere: programs that ask the outside nothing. *)
From Verif.Model Require Import Base Syntax World Prog Builtins.
From Verif.Spec Require Import Vocabulary Effects.
Open Scope list_scope.

(** The native functions that ask something: standard input, the random source,
    files, other programs, the screen. *)
Definition asking : list builtin :=
  [BReadlist; BRandint; BShuffle; BLoad; BShell;
   BScreenStart; BScreenEnd; BScreenSize; BScreenClear; BScreenGetKey; BScreenWrite].
(** Evaluating [x] calls none of them. *)
Definition self_contained (x : val) (e : env) (w : world) : Prop :=
  forall f b, In b asking -> ~ calls_native f Inf x e w b.
(** Each form of a program is self-contained when its turn comes. *)
Definition all_self_contained (e : env) (xs : list val) (w : world) : Prop :=
  forall pre x post vs w1, xs = pre ++ x :: post -> in_order e pre w vs None w1 -> self_contained x e w1.

(** States with the same variables and gensym counter; what has been printed, the
    standard input, the screen and the operating system may differ. *)
Definition same_variables (w u : world) : Prop :=
  w_frames u = w_frames w /\ w_next u = w_next w /\ w_gensym u = w_gensym w.
(** Machines whose l1 was built with the same tables of letters, digits and character widths. *)
Definition same_tables (h g : host) : Prop :=
  (forall s, h_upper g s = h_upper h s) /\ (forall s, h_lower g s = h_lower h s) /\ (forall s, h_isdigit g s = h_isdigit h s) /\
  (forall s, h_width g s = h_width h s).
(** From [w] to [w'] the same was put out as from [u] to [u']. *)
Definition same_output (w w' u u' : world) : Prop :=
  exists new, w_out w' = new ++ w_out w /\ w_out u' = new ++ w_out u.
(** Nothing of the outside was used up. *)
Definition nothing_asked (w w' : world) : Prop :=
  w_stdin w' = w_stdin w /\ w_tick w' = w_tick w /\ w_screen w' = w_screen w /\ w_host w' = w_host w.
