(** * Typing: evaluation with another standard input, and programs typed line by line. *)
From Verif.Model Require Import Base Syntax World Prog Lex Builtins.
From Verif.Spec Require Import Vocabulary Effects Reader Session.
Open Scope list_scope.

(** States that differ at most in what has been printed and in what standard
    input still holds: all variables, the gensym counter, the number of questions
    asked to the operating system, the screen and the system itself are the same. *)
Definition same_inside (w u : world) : Prop :=
  w_frames u = w_frames w /\ w_next u = w_next w /\ w_gensym u = w_gensym w /\
  w_tick u = w_tick w /\ w_screen u = w_screen w /\ w_host u = w_host w.
(** From [w] to [w'] the same was put out as from [u] to [u']. *)
Definition same_output (w w' u u' : world) : Prop :=
  exists new, w_out w' = new ++ w_out w /\ w_out u' = new ++ w_out u.
(** Evaluating [x] never calls readlist. *)
Definition reads_no_input (x : val) (e : env) (w : world) : Prop :=
  forall f, ~ calls_native f Inf x e w BReadlist.

(** None of the forms of a program calls readlist when its turn comes. *)
Definition none_reads_input (e : env) (xs : list val) (w : world) : Prop :=
  forall pre x post vs w1, xs = pre ++ x :: post -> in_order e pre w vs None w1 -> reads_no_input x e w1.

(** A line as it is typed: no newline in it, no carriage return at its end, it fits
    the buffer, it is no shebang line, and it does not end in one of the marks
    that stand before a form (quote, syntax-quote, unquote, comment). *)
Definition typed_line (l : string) : Prop :=
  without_lf l /\ (forall a, l <> a ++ str1 ch_cr)%string /\ (String.length l < buffer)%nat /\
  ~ In XShebang (map lexeme_of (tokens_of [l])) /\
  (forall xs name, map lexeme_of (tokens_of [l]) <> xs ++ [XPrefix name]).
(** Every line is delivered with its newline. *)
Definition typed (lines : list string) : list string := map (fun l => l ++ LF)%string lines.

(** [all] is [a] and [b], each in its order, mixed. *)
Inductive mixed {A} : list A -> list A -> list A -> Prop :=
| mixed_nil : mixed [] [] []
| mixed_left x a b all : mixed a b all -> mixed (x :: a) b (x :: all)
| mixed_right x a b all : mixed a b all -> mixed a (x :: b) (x :: all).
(** What the interactive loop adds to the output (latest first): prompts, and
    apart from these the values in order, and a newline at the end. *)
Definition is_prompt (ev : event) : bool := match ev with Printed s => String.eqb s "> " | _ => false end.
Definition echo_of (vs : list val) (echo : list event) : Prop :=
  filter (fun ev => negb (is_prompt ev)) echo = Printed LF :: rev (map (fun v => Printed (str v ++ LF)) vs).
