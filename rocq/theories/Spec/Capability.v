(** * Capability: what a form can get hold of. *)
From Verif.Model Require Import Base Syntax World Prog Builtins.
From Verif.Spec Require Import Vocabulary.
Open Scope list_scope.

(** The values and environments within reach of form [x] in environment [e] in
    state [w]: the form, the elements of lists within reach, the bodies and the
    environments of functions within reach, and the values of the variables of
    environments within reach. *)
Inductive holds (x : val) (e : env) (w : world) : val -> Prop :=
| holds_form : holds x e w x
| holds_car a d : holds x e w (VCons a d) -> holds x e w a
| holds_cdr a d : holds x e w (VCons a d) -> holds x e w d
| holds_body ps r b doc m fe : holds x e w (VLam ps r b doc m fe) -> holds x e w b
| holds_doc ps r b doc m fe : holds x e w (VLam ps r b doc m fe) -> holds x e w doc
| holds_variable e1 i s v : enters x e w e1 -> In i e1 -> fget s (frame_at w i) = Some v -> holds x e w v
with enters (x : val) (e : env) (w : world) : env -> Prop :=
| enters_here : enters x e w e
| enters_function ps r b doc m fe : holds x e w (VLam ps r b doc m fe) -> enters x e w fe.

(** Native function [b] is within reach: as a value, or by its name, in an
    environment in which this name is not bound to anything else. *)
Definition in_reach (b : builtin) (x : val) (e : env) (w : world) : Prop :=
  holds x e w (VBuiltin b) \/
  exists e1 s, enters x e w e1 /\ lookup e1 s w = None /\ lookup_builtin s = Some b.

(** What can be written down: numbers, symbols and lists of them. *)
Fixpoint data (v : val) : Prop :=
  match v with
  | VCons a d => data a /\ data d
  | VLam _ _ _ _ _ _ | VBuiltin _ => False
  | _ => True
  end.
(** Native function [b] is out of reach of everything evaluated in [e]. *)
Definition barred (b : builtin) (e : env) (w : world) : Prop := ~ in_reach b VNil e w.
(** From [w] to [w'] nothing has happened that only [b] does. *)
Definition without (b : builtin) (w w' : world) : Prop :=
  match b with
  | BShell => forall ws, In (Ran ws) (w_out w') -> In (Ran ws) (w_out w)
  | BSleep => forall n, In (Slept n) (w_out w') -> In (Slept n) (w_out w)
  | BReadlist => w_stdin w' = w_stdin w
  | BGensym => w_gensym w' = w_gensym w
  | _ => True
  end.
