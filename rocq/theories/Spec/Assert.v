(** * Assert: the vocabulary of the library macro is (C75). *)
From Verif.Model Require Import Base Syntax World Prog Lex Parse Meta Eval Builtins CoreSrc Main.
From Verif.Proofs Require Import Run.
From Verif.Spec Require Import Vocabulary Library Repeating Choosing Binding.
Open Scope list_scope.

(** The names is uses. *)
Definition is_names : list string :=
  ["is"; "let"; "gensym"; "cond"; "or"; "not"; "list?"; "="; "car"; "len"; "nth"; "list"; "fuse"; "COLON"; "concat"; "error";
   "when"; "when-not"; "progn"; "syntax-quote"; "cons"; "quote"; "concat2"]%string.
(** (is c) and (= a b) *)
Definition is_form (c : val) : val := vlist [VAtom "is"; c].
Definition equation (a b : val) : val := vlist [VAtom "="; a; b].
(** Anything but a list that starts with the symbol = (and has three elements, or
    no proper end). *)
Definition no_equation (c : val) : Prop :=
  forall t, c = VCons (VAtom "=") t -> exists xs, t = vlist xs /\ length xs <> 2%nat.
(** (assertion failed: c); (expression a ==> u is not equal to expression b ==> v) *)
Definition assertion_failed (c : val) : val := vlist [VAtom "assertion"; VAtom "failed:"; c].
Definition not_equal (a u b v : val) : val :=
  vlist [VAtom "expression"; a; VAtom "==>"; u; VAtom "is"; VAtom "not"; VAtom "equal"; VAtom "to";
         VAtom "expression"; b; VAtom "==>"; v].
(** The error (error x) raises. *)
Definition raised (x : val) : outcome val := Er (ECons (vlist [x])).
(** [k] is an environment made for this evaluation; the names is uses, seen from
    it, are as loaded. *)
Definition still_usable (k : positive) (e : env) (w : world) : Prop :=
  core w /\ allocated w (k :: e) /\ as_loaded is_names (k :: e) w.
