(** * Binding: the vocabulary of let* (C69). *)
From Verif.Model Require Import Base Syntax World Prog Lex Parse Meta Eval Builtins CoreSrc Main.
From Verif.Proofs Require Import Run.
From Verif.Spec Require Import Vocabulary Library Repeating Choosing.
Open Scope list_scope.

(** The names the expansions of let* use. *)
Definition let_star_names : list string :=
  ["let*"; "let"; "progn"; "if-not"; "not"; "cond"; "list*"; "car"; "cdr"; "syntax-quote"; "cons"; "quote"; "concat2"]%string.
(** (let* ((s x) ...) body...) *)
Definition let_star (bs : list (string * val)) (body : list val) : val :=
  vlist (VAtom "let*" :: vlist (map (fun b => vlist [VAtom (fst b); snd b]) bs) :: body).
Definition binding_context : err -> err := extend "evaluating let bindings".
(** The state after binding [s] to [v] in environment [j]. *)
Definition with_binding (j : positive) (s : string) (v : val) (w : world) : world :=
  set_frame j (fset s v (frame_at w j)) w.
(** let* can be used in [e]. *)
Definition usable (e : env) (w : world) : Prop :=
  core w /\ allocated w e /\ as_loaded let_star_names e w.

(** One binding after the other: the first value form is evaluated in [e], the
    name bound in a new environment [j], the second value form evaluated in
    [j :: e], and so on; then the body, in the environment of all the bindings.
    [Some r]: the outcome; [None]: a value form redefined a name that let* itself
    needs, and nothing is said from there on. *)
Inductive one_by_one (body : list val) : list (string * val) -> env -> world -> option (outcome val) -> world -> Prop :=
| obo_body e w j w1 r w' :
    opens w j w1 -> sequence Inf let_context body (j :: e) w1 r w' -> one_by_one body [] e w (Some r) w'
| obo_stop s x bs e w j w1 q w2 :
    opens w j w1 -> evals x e w1 q w2 -> ~ is_ok q -> one_by_one body ((s, x) :: bs) e w (Some (with_context binding_context q)) w2
| obo_next s x bs e w j w1 v w2 o w' :
    opens w j w1 -> evals x e w1 (Ok v) w2 -> usable (j :: e) (with_binding j s v w2) ->
    one_by_one body bs (j :: e) (with_binding j s v w2) o w' -> one_by_one body ((s, x) :: bs) e w o w'
| obo_lost s x bs e w j w1 v w2 :
    opens w j w1 -> evals x e w1 (Ok v) w2 -> ~ usable (j :: e) (with_binding j s v w2) ->
    one_by_one body ((s, x) :: bs) e w None w2.
