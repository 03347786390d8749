(** * Calling: what it means that a library function calls its function argument.

    The properties of map, filter, reduce, ... (C47, C48, C51, C53, C57) say
    which calls of the function argument are made, in which order and with
    which arguments, and what is done with the results.  The function argument
    may have any effect. *)
From Verif.Model Require Import Base Syntax World Prog Lex Parse Meta Eval Builtins CoreSrc Main.
From Verif.Proofs Require Import Run.
From Verif.Spec Require Import Vocabulary Library.
Open Scope list_scope.

(** Native functions whose result depends on the environment of the caller. *)
Definition sees_caller (b : builtin) : bool :=
  match b with BApply | BEval | BForms | BHelp | BLoad | BMacroexpand1 | BSortBy => true | _ => false end.
(** Functions: those made by lambda or defn, and native ones (except those above). *)
Definition function_value (v : val) : Prop :=
  match v with
  | VLam _ _ _ _ mac _ => mac = false
  | VBuiltin b => sees_caller b = false
  | _ => False
  end.
(** A call of function [f], a value, on argument values. *)
Definition applies (f : val) (args : list val) (w : world) (r : outcome val) (w' : world) : Prop :=
  evals (VCons (quoted f) (vlist (map quoted args))) global_env w r w'.

(** From [w] to [w'] nothing visible has changed: the environments that existed
    in [w0], and those that can be reached from them or from the values [ys],
    are the same, and so is everything else but the gensym counter. *)
Definition untouched (w0 : world) (ys : list val) (w w' : world) : Prop :=
  (w_next w <= w_next w')%positive /\
  (forall i, reaches w (fun i => (i < w_next w0)%positive \/ exists y, In y ys /\ mentions y i) i ->
     frame_at w' i = frame_at w i) /\
  (w_gensym w <= w_gensym w')%N /\ w_out w' = w_out w /\ w_stdin w' = w_stdin w /\
  w_tick w' = w_tick w /\ w_screen w' = w_screen w /\ w_host w' = w_host w.

(** A call: a function and its arguments.  A record of calls: each with its
    result. *)
Definition ask : Type := val * list val.
Definition record : Type := list (ask * val).
Definition results (tr : record) : list val := map snd tr.

(** [called w tr w']: from [w] to [w'], the calls in record [tr] were made, in
    this order, and nothing else visible happened. *)
Inductive called (w : world) : record -> world -> Prop :=
| called_none : called w [] w
| called_quiet tr w1 w2 : called w tr w1 -> untouched w (results tr) w1 w2 -> called w tr w2
| called_call tr f args y w1 w2 :
    called w tr w1 -> applies f args w1 (Ok y) w2 -> called w (tr ++ [((f, args), y)]) w2.
(** The same, followed by a call that gave no value: outcome [r], state [w'];
    [Inv] is what is known of the state before that call. *)
Definition broke (w : world) (Inv : record -> world -> Prop) (tr : record) (q : ask) (r : outcome val) (w' : world) : Prop :=
  exists w1, called w tr w1 /\ Inv tr w1 /\ applies (fst q) (snd q) w1 r w' /\ ~ is_ok r.

(** [next tr q]: after the calls in [tr], call [q] may be made.
    [Inv tr w]: any property of the state [w] after the calls in [tr] that
    - holds at the start,
    - implies that the library is as loaded (no reserved name redefined),
    - depends only on what is visible, and
    - is preserved by the calls made. *)
Record tame (w : world) (next : record -> ask -> Prop) (Inv : record -> world -> Prop) : Prop := Tame {
  tame_start : Inv [] w;
  tame_core : forall tr w1, Inv tr w1 -> core w1;
  tame_quiet : forall tr w1 w2, Inv tr w1 -> untouched w [] w1 w2 -> Inv tr w2;
  tame_call : forall tr f args y w1 w2,
    Inv tr w1 -> next tr (f, args) -> applies f args w1 (Ok y) w2 -> Inv (tr ++ [((f, args), y)]) w2 }.
(** All the calls made stop. *)
Definition answers (next : record -> ask -> Prop) (Inv : record -> world -> Prop) : Prop :=
  forall tr f args w1, Inv tr w1 -> next tr (f, args) -> exists r w2, applies f args w1 r w2.

(** [makes_calls x e w next finish Inv]: when evaluating [x] stops, it has made
    calls allowed by [next] and given a value allowed by [finish]; or it stopped
    at the first call that gave no value, with the same kind of outcome (the
    same one, up to the text added to errors).  It does stop if all these calls
    do. *)
Definition makes_calls (x : val) (e : env) (w : world) (next : record -> ask -> Prop)
    (finish : record -> val -> Prop) (Inv : record -> world -> Prop) : Prop :=
  (forall r w', evals x e w r w' ->
     (exists tr v, finish tr v /\ called w tr w' /\ Inv tr w' /\ r = Ok v) \/
     (exists tr q r0, next tr q /\ broke w Inv tr q r0 w' /\ same_kind r0 r)) /\
  (answers next Inv -> exists r w', evals x e w r w').
(** The situation in which a library function is called with functions [fs] and
    other arguments [vs]. *)
Definition calling (g : string) (e : env) (w : world) (fs vs : list val) : Prop :=
  reachable w /\ library g e w /\ Forall function_value fs /\ Forall (closed_val w) fs /\ Forall (closed_val w) vs.

(** The calls planned are made one after the other. *)
Definition planned (plan : list ask) (tr : record) (q : ask) : Prop :=
  exists rest, plan = map fst tr ++ q :: rest.
(** One call per element, in order. *)
Definition each (f : val) (xs : list val) : list ask := map (fun x => (f, [x])) xs.
(** What is passed on by filter and remove: the elements for which the call gave
    something other than (), or (). *)
Definition chosen (b : bool) (xs : list val) (tr : record) : list val :=
  map fst (filter (fun c => Bool.eqb b (negb (is_nil (snd c)))) (combine xs (results tr))).
(** reduce: the calls are (f a x1), (f y1 x2), ... with result [b]. *)
Inductive folded (f : val) : val -> list val -> record -> val -> Prop :=
| folded_nil a : folded f a [] [] a
| folded_snoc a xs tr b x y : folded f a xs tr b -> folded f a (xs ++ [x]) (tr ++ [((f, [b; x]), y)]) y.
Definition fold_next (f a : val) (xs : list val) (tr : record) (q : ask) : Prop :=
  exists done x rest b, xs = done ++ x :: rest /\ folded f a done tr b /\ q = (f, [b; x]).
(** Any number of calls without arguments. *)
Definition endless (f : val) (tr : record) (q : ask) : Prop := q = (f, []).
(** comp: the value of each call is the argument of the next one; [now]: what
    comes next. *)
Inductive piped : list val -> list val -> record -> list val -> Prop :=
| piped_none args : piped [] args [] args
| piped_snoc gs args tr now g y : piped gs args tr now -> piped (gs ++ [g]) args (tr ++ [((g, now), y)]) [y].
Definition pipe_next (gs args : list val) (tr : record) (q : ask) : Prop :=
  exists done g rest now, gs = done ++ g :: rest /\ piped done args tr now /\ q = (g, now).
(** The expression that calls the value of expression [x] on values. *)
Definition call_of (x : val) (args : list val) : val := VCons x (vlist (map quoted args)).
(** The body of a function is a list (as in every function written without a
    dot before its body). *)
Definition plain_body (f : val) : Prop :=
  match f with VLam _ _ body _ _ _ => exists xs, body = vlist xs | _ => True end.
(** Calling [f] on [args] gives [v], in every state in which the library is as
    loaded, and leaves nothing behind but new environments. *)
Definition computes (f : val) (args : list val) (v : val) : Prop :=
  forall w, core w -> exists w', applies f args w (Ok v) w' /\ grows w w'.
