(** * Repeating: the vocabulary of [while] and [dotimes] (C55). *)
From Verif.Model Require Import Base Syntax World Prog Lex Parse Meta Eval Builtins CoreSrc Main.
From Verif.Proofs Require Import Run.
From Verif.Spec Require Import Vocabulary Library.
Open Scope list_scope.

(** Evaluation with stack [d] ([evals] is [evals_with Inf], [evals_in n] is
    [evals_with (Fin n)]), and one unit of stack less. *)
Definition evals_with (d : depth) (x : val) (e : env) (w : world) (r : outcome val) (w' : world) : Prop :=
  calls step d (CEval x e) w r w'.
Definition less (d : depth) : depth := match d with Inf => Inf | Fin n => Fin (Nat.pred n) end.
Definition at_least (k : nat) (d : depth) : Prop := match d with Inf => True | Fin n => (k <= n)%nat end.

(** The names the expansions of while and dotimes use in every round. *)
Definition loop_names : list string :=
  ["when"; "when-not"; "progn"; "let"; "cond"; "not"; "syntax-quote"; "cons"; "quote"; "concat2"; "zero?"; "-"]%string.
(** Symbols as made by [gensym]. *)
Definition generated (s : string) : Prop := exists t, s = ("<gensym" ++ t)%string.

(** [k] is a new, empty environment in [w1]; apart from new environments, [w1]
    is [w]. *)
Definition opens (w : world) (k : positive) (w1 : world) : Prop :=
  grows w w1 /\ (w_next w <= k)%positive /\ (k < w_next w1)%positive /\ frame_at w1 k = [].
(** The environments [e] bind the names [ns] as before, and the library is as
    loaded. *)
Definition unchanged (ns : list string) (e : env) (w w' : world) : Prop :=
  core w' /\
  forall i s, In i e -> In s ns -> fget s (frame_at w' i) = fget s (frame_at w i).
Definition undisturbed (g : string) : env -> world -> world -> Prop := unchanged (g :: loop_names).

(** Names needed to start the loop. *)
Definition start_names : list string := ["while"; "dotimes"; "gensym"; "lambda"; "neg?"]%string ++ loop_names.
(** A function is bound to a generated symbol [g] in the innermost environment
    of [e]; apart from that and new environments, nothing changes. *)
Definition marks (g : string) (e : env) (w w1 : world) : Prop :=
  generated g /\
  exists i e0 f, e = i :: e0 /\ (w_next w <= w_next w1)%positive /\
    (forall j, (j < w_next w)%positive \/ (w_next w1 <= j)%positive -> frame_at w1 j =
       if Pos.eqb j i then fset g f (frame_at w i) else frame_at w j) /\
    (w_gensym w <= w_gensym w1)%N /\ w_out w1 = w_out w /\ w_stdin w1 = w_stdin w /\
    w_tick w1 = w_tick w /\ w_screen w1 = w_screen w /\ w_host w1 = w_host w.

(** The forms one after the other: [None] if all gave values, otherwise the
    outcome that was not a value. *)
Inductive goes (d : depth) (e : env) : list val -> world -> option (outcome val) -> world -> Prop :=
| goes_nil w : goes d e [] w None w
| goes_cons x xs w v w1 s w' :
    evals_with d x e w (Ok v) w1 -> goes d e xs w1 s w' -> goes d e (x :: xs) w s w'
| goes_stop x xs w q w1 : evals_with d x e w q w1 -> ~ is_ok q -> goes d e (x :: xs) w (Some q) w1.

(** Rounds of (while c body...) in environment [e]: the condition, then (if it is
    not ()) the body, then the next round.  Every form is evaluated in a new
    environment below [e], with the same stack [d] in every round.
    Outcome [Some r]: the loop ends with [r]; [None]: the condition or the body
    rebound [g] or a loop name, and nothing is said from there on. *)
Inductive rounds (d : depth) (c : val) (body : list val) (g : string) (e : env)
  : world -> option (outcome val) -> world -> Prop :=
| rounds_end w k w1 w2 :
    opens w k w1 -> evals_with d c (k :: e) w1 (Ok VNil) w2 -> rounds d c body g e w (Some (Ok VNil)) w2
| rounds_stop w k w1 q w2 :
    opens w k w1 -> evals_with d c (k :: e) w1 q w2 -> ~ is_ok q -> rounds d c body g e w (Some q) w2
| rounds_test w k w1 v w2 :
    opens w k w1 -> evals_with d c (k :: e) w1 (Ok v) w2 -> v <> VNil -> ~ undisturbed g (k :: e) w1 w2 ->
    rounds d c body g e w None w2
| rounds_body w k w1 v w2 j w3 q w4 :
    opens w k w1 -> evals_with d c (k :: e) w1 (Ok v) w2 -> v <> VNil -> undisturbed g (k :: e) w1 w2 ->
    opens w2 j w3 -> goes d (j :: k :: e) body w3 (Some q) w4 -> rounds d c body g e w (Some q) w4
| rounds_lost w k w1 v w2 j w3 w4 :
    opens w k w1 -> evals_with d c (k :: e) w1 (Ok v) w2 -> v <> VNil -> undisturbed g (k :: e) w1 w2 ->
    opens w2 j w3 -> goes d (j :: k :: e) body w3 None w4 -> ~ undisturbed g (j :: k :: e) w3 w4 ->
    rounds d c body g e w None w4
| rounds_next w k w1 v w2 j w3 w4 o w' :
    opens w k w1 -> evals_with d c (k :: e) w1 (Ok v) w2 -> v <> VNil -> undisturbed g (k :: e) w1 w2 ->
    opens w2 j w3 -> goes d (j :: k :: e) body w3 None w4 -> undisturbed g (j :: k :: e) w3 w4 ->
    rounds d c body g e w4 o w' -> rounds d c body g e w o w'.

(** The rounds come to an end, wherever the new environments are: the condition
    gives (), or something stops the loop, after finitely many rounds. *)
Inductive comes_to_end (d : depth) (c : val) (body : list val) (g : string) (e : env) : world -> Prop :=
| come w :
    (forall k w1, opens w k w1 ->
       exists q w2, evals_with d c (k :: e) w1 q w2 /\
         forall v, q = Ok v -> v <> VNil ->
           undisturbed g (k :: e) w1 w2 /\
           forall j w3, opens w2 j w3 ->
             exists o w4, goes d (j :: k :: e) body w3 o w4 /\
               (o = None -> undisturbed g (j :: k :: e) w3 w4 /\ comes_to_end d c body g e w4)) ->
    comes_to_end d c body g e w.

(** ** dotimes *)
(** [j] and [k] are new environments in [w1], [j] empty and [k] binding only
    count. *)
Definition opens_turn (w : world) (j k : positive) (n : nat) (w1 : world) : Prop :=
  grows w w1 /\ (w_next w <= j)%positive /\ (j < w_next w1)%positive /\ (w_next w <= k)%positive /\ (k < w_next w1)%positive /\
  frame_at w1 j = [] /\ frame_at w1 k = [("count"%string, VNum (Z.of_nat n))].
(** The body rebinds neither the names of the expansion nor its variable count. *)
Definition intact (g : string) (j k : positive) (e : env) (w w' : world) : Prop :=
  undisturbed g (j :: k :: e) w w' /\ unchanged ["count"%string] [j; k] w w'.
(** [n] turns: the body is evaluated [n] times, each time in a new environment
    below [e] in which count is the number of turns to go, and with the same
    stack [d].  [Some q]: the outcome; [None]: a body rebound a name it must
    not, and nothing is said from there on. *)
Inductive turns (d : depth) (body : list val) (g : string) (e : env) : nat -> world -> option (outcome val) -> world -> Prop :=
| turns_end w w' : grows w w' -> turns d body g e 0 w (Some (Ok VNil)) w'
| turns_stop n w j k w1 q w2 :
    opens_turn w j k (S n) w1 -> goes d (j :: k :: e) body w1 (Some q) w2 -> turns d body g e (S n) w (Some q) w2
| turns_lost n w j k w1 w2 :
    opens_turn w j k (S n) w1 -> goes d (j :: k :: e) body w1 None w2 -> ~ intact g j k e w1 w2 ->
    turns d body g e (S n) w None w2
| turns_next n w j k w1 w2 o w' :
    opens_turn w j k (S n) w1 -> goes d (j :: k :: e) body w1 None w2 -> intact g j k e w1 w2 ->
    turns d body g e n w2 o w' -> turns d body g e (S n) w o w'.
(** Each of the [n] turns comes to an end, wherever the new environments are. *)
Inductive turns_end_well (d : depth) (body : list val) (g : string) (e : env) : nat -> world -> Prop :=
| well_0 w : turns_end_well d body g e 0 w
| well_S n w :
    (forall j k w1, opens_turn w j k (S n) w1 ->
       exists o w2, goes d (j :: k :: e) body w1 o w2 /\
         (o = None -> intact g j k e w1 w2 /\ turns_end_well d body g e n w2)) ->
    turns_end_well d body g e (S n) w.
(** Apart from new environments and generated symbols in [l], nothing changes. *)
Definition quiet (l : positive) (w w' : world) : Prop :=
  (w_next w <= w_next w')%positive /\
  (forall i, (i < w_next w)%positive -> i <> l -> frame_at w' i = frame_at w i) /\
  (forall s, ~ generated s -> fget s (frame_at w' l) = fget s (frame_at w l)) /\
  (w_gensym w <= w_gensym w')%N /\ w_out w' = w_out w /\ w_stdin w' = w_stdin w /\
  w_tick w' = w_tick w /\ w_screen w' = w_screen w /\ w_host w' = w_host w.
(** ... and [p] is a new environment binding only generated symbols. *)
Definition prepares (g : string) (p l : positive) (w w' : world) : Prop :=
  generated g /\ quiet l w w' /\ (w_next w <= p)%positive /\ (p < w_next w')%positive /\
  forall s, ~ generated s -> fget s (frame_at w' p) = None.
