(** * Vocabulary: the words the property statements are written in.

    Everything a theorem in Props/ says about evaluation is said with the
    relations of this file, which are thin wrappers around "run the modelled
    code until it stops". *)
From Verif.Model Require Import Base Syntax World Prog Lex Parse Meta Eval Builtins CoreSrc Main.
From Verif.Proofs Require Import Run.

(** [evals x e w r w']: evaluating form [x] in environment [e], from state [w],
    stops with outcome [r] in state [w'] (with as much stack as it needs). *)
Definition evals (x : val) (e : env) (w : world) (r : outcome val) (w' : world) : Prop :=
  calls step Inf (CEval x e) w r w'.

(** The same with room for [n] nested calls only. *)
Definition evals_in (n : nat) (x : val) (e : env) (w : world) (r : outcome val) (w' : world) : Prop :=
  calls step (Fin n) (CEval x e) w r w'.

(** The evaluation never stops: no amount of work ends it. *)
Definition diverges (x : val) (e : env) (w : world) : Prop := forall r w', ~ evals x e w r w'.

(** Calling native function [b] on evaluated arguments. *)
Definition native (b : builtin) (args : list val) (e : env) (w : world) (r : outcome val) (w' : world) : Prop :=
  calls step Inf (CBuiltin b args e) w r w'.

Definition is_ok {A} (r : outcome A) : Prop := exists v, r = Ok v.
Definition is_er {A} (r : outcome A) : Prop := exists e, r = Er e.

(** A list form, a call form and quotation, as data. *)
Definition form (head : string) (args : list val) : val := VCons (VAtom head) (vlist args).
Definition quoted (x : val) : val := form "quote" [x].

(** [s] is not the name of a macro in scope. *)
Definition not_macro (s : string) (e : env) (w : world) : Prop :=
  match lookup e s w with Some (VLam _ _ _ _ true _) => False | _ => True end.

(** Adding context to an error ([extend] prepends one list of words). *)
Definition with_context (f : err -> err) (r : outcome val) : outcome val :=
  match r with Er e => Er (f e) | x => x end.

(** Evaluating forms one after the other in one environment: [vs] are the
    values of the forms that succeeded; [stop] is the outcome of the form at
    which evaluation stopped, if one did not give a value. *)
Inductive in_order (e : env) : list val -> world -> list val -> option (outcome val) -> world -> Prop :=
| io_nil w : in_order e [] w [] None w
| io_cons x xs w v w1 vs s w' :
    evals x e w (Ok v) w1 -> in_order e xs w1 vs s w' -> in_order e (x :: xs) w (v :: vs) s w'
| io_stop x xs w r w1 :
    evals x e w r w1 -> ~ is_ok r -> in_order e (x :: xs) w [] (Some r) w1.

(** States of a running process: the initial state, and every state (finished
    or not: the fuel [f] is arbitrary) of every evaluation of something whose
    environments exist. *)
Definition allocated (w : world) (e : env) : Prop := Forall (fun i => (i < w_next w)%positive) e.
Fixpoint closed_val (w : world) (v : val) : Prop :=
  match v with
  | VCons a d => closed_val w a /\ closed_val w d
  | VLam _ _ body doc _ e => closed_val w body /\ closed_val w doc /\ allocated w e
  | _ => True
  end.
Inductive reachable : world -> Prop :=
| reach_init h stdin : reachable (init_world h stdin)
| reach_eval f d x e w :
    reachable w -> closed_val w x -> allocated w e -> reachable (snd (run_call f d (CEval x e) w))
| reach_main f d o h stdin : reachable (snd (run_main f d o h stdin)).

(** Evaluating a body: the forms in order, the last one in place of the body
    (its outcome is the body's); [wrap] is the context added to the errors of
    the earlier ones. *)
Inductive in_body (wrap : val -> err -> err) (e : env) : list val -> world -> outcome val -> world -> Prop :=
| body_none w : in_body wrap e [] w (Ok VNil) w
| body_last x w r w' : evals x e w r w' -> in_body wrap e [x] w r w'
| body_next x xs w v w1 r w' :
    xs <> [] -> evals x e w (Ok v) w1 -> in_body wrap e xs w1 r w' -> in_body wrap e (x :: xs) w r w'
| body_stop x xs w r w1 :
    xs <> [] -> evals x e w r w1 -> ~ is_ok r ->
    in_body wrap e (x :: xs) w (with_context (wrap x) r) w1.

(** The state in which a new environment below [parent] has just been made,
    with bindings [bs] (later ones win). *)
Definition frame_of (bs : list (string * val)) : frame :=
  fold_left (fun f b => fset (fst b) (snd b) f) bs [].
Definition with_frame (bs : list (string * val)) (w : world) : world :=
  MkWorld (FMapPositive.PositiveMap.add (w_next w) (frame_of bs) (w_frames w)) (Pos.succ (w_next w))
          (w_gensym w) (w_out w) (w_stdin w) (w_tick w) (w_screen w) (w_host w).
(** The identity of that environment. *)
Definition new_env (parent : env) (w : world) : env := w_next w :: parent.

(** Parameters of a function and the arguments they receive: [Some bindings]
    when the number of arguments is right. *)
Definition bind_args (params : list string) (rest : string) (args : list val) : option (list (string * val)) :=
  if String.eqb rest "" then
    if Nat.eqb (length args) (length params) then Some (combine params args) else None
  else
    if Nat.leb (length params) (length args)
    then Some ((rest, vlist (skipn (length params) args)) :: combine params args) else None.

(** ** Reachability between environments (for encapsulation). *)

(** Environment (frame) [i] is captured by some function inside value [v]. *)
Fixpoint mentions (v : val) (i : positive) : Prop :=
  match v with
  | VCons a d => mentions a i \/ mentions d i
  | VLam _ _ body doc _ e => mentions body i \/ mentions doc i \/ In i e
  | _ => False
  end.
(** Frames that can be reached from [roots] through the values stored in frames. *)
Inductive reaches (w : world) (roots : positive -> Prop) : positive -> Prop :=
| reaches_root i : roots i -> reaches w roots i
| reaches_step i s v j :
    reaches w roots i -> fget s (frame_at w i) = Some v -> mentions v j -> reaches w roots j.

(** Two states that are equal except for the contents of frames outside [K]. *)
Definition same_on (K : positive -> Prop) (w1 w2 : world) : Prop :=
  (forall i, K i -> frame_at w2 i = frame_at w1 i) /\
  w_next w2 = w_next w1 /\ w_gensym w2 = w_gensym w1 /\ w_out w2 = w_out w1 /\
  w_stdin w2 = w_stdin w1 /\ w_tick w2 = w_tick w1 /\ w_screen w2 = w_screen w1 /\
  w_host w2 = w_host w1.

(** The frames an evaluation starting from [roots] may touch: those it can
    reach, and those it creates. *)
Definition touchable (w : world) (roots : positive -> Prop) (i : positive) : Prop :=
  reaches w roots i \/ (w_next w <= i)%positive.

(** Names that a call form looks up as a variable: not a special form, not [t],
    not one of the c[ad]+r names. *)
Definition ordinary (s : string) : Prop := sform_of s = None /\ is_cxr s = false /\ s <> "t".
Definition is_macro (v : val) : bool := match v with VLam _ _ _ _ m _ => m | _ => false end.

(** A concrete outside world for the examples: no files, no subprocesses. *)
Definition demo_host : host :=
  MkHost (fun _ _ => 0%Z) (fun _ _ => inl "no such file") (fun _ _ => inl "no such command")
         (fun _ => None) (fun _ => None) (fun _ => (80%Z, 24%Z)) (fun _ => [KeyPressed KeyEscape]%list)
         (fun s => s) (fun s => s) (fun _ => false) (fun _ => 1%Z).
Definition demo : world := init_world demo_host [].

(** ** Bindings. *)

(** [i] is the innermost environment of chain [e] that binds [s]. *)
Inductive nearest (w : world) (s : string) : env -> positive -> Prop :=
| nearest_here i e : fget s (frame_at w i) <> None -> nearest w s (i :: e) i
| nearest_up i j e : fget s (frame_at w i) = None -> nearest w s e j -> nearest w s (i :: e) j.
(** No environment of the chain binds [s]. *)
Definition unbound (w : world) (s : string) (e : env) : Prop :=
  forall i, In i e -> fget s (frame_at w i) = None.
(** [w'] is [w] except that [s] is bound to [v] in frame [i]. *)
Definition rebound (i : positive) (s : string) (v : val) (w w' : world) : Prop :=
  (forall j n, fget n (frame_at w' j) =
     if (Pos.eqb j i && String.eqb n s)%bool then Some v else fget n (frame_at w j)) /\
  w_next w' = w_next w /\ w_gensym w' = w_gensym w /\ w_out w' = w_out w /\
  w_stdin w' = w_stdin w /\ w_tick w' = w_tick w /\ w_screen w' = w_screen w /\ w_host w' = w_host w.
(** States with the same content. *)
Definition same_state (w w' : world) : Prop := same_on (fun _ => True) w w'.

(** [name] denotes native function [b]: it is not rebound by the program. *)
Definition denotes_native (name : string) (b : builtin) (e : env) (w : world) : Prop :=
  ordinary name /\ lookup e name w = None /\ lookup_builtin name = Some b.
(** Outcomes that differ at most in the text of the error. *)
Definition same_kind (r q : outcome val) : Prop :=
  match r, q with
  | Ok a, Ok b => a = b
  | Er _, Er _ => True
  | Panicked a, Panicked b => a = b
  | Exited a, Exited b => a = b
  | Overflow, Overflow => True
  | _, _ => False
  end.
(** Error [er'] is error [er] with context entries added at the front. *)
Definition grown (er er' : err) : Prop :=
  match er with
  | ECons items => exists ctx : list val, er' = ECons (fold_right VCons items ctx)
  | EGo msg => er' = EGo msg
  end.

(** ** Calling the native functions. *)

(** [g], the name of a native function, is not rebound by the program (and
    [quote] is not a macro). *)
Definition standard (g : string) (e : env) (w : world) : Prop :=
  lookup e g w = None /\ not_macro "quote" e w.
(** The call form (g 'a1 ... 'an). *)
Definition call_on (g : string) (args : list val) : val := form g (map quoted args).
(** The form gives value [v], raises an error, or crashes the process; in all
    cases without changing the state. (Outcomes are unique: property C08.) *)
Definition gives (x : val) (e : env) (w : world) (v : val) : Prop := evals x e w (Ok v) w.
Definition rejects (x : val) (e : env) (w : world) : Prop := exists er, evals x e w (Er er) w.
Definition crashes (x : val) (e : env) (w : world) : Prop := exists msg, evals x e w (Panicked msg) w.
