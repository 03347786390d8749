(** * Mapping: the vocabulary of C71 (mapcat, foreach). *)
From Verif.Model Require Import Base Syntax World Prog Lex Parse Meta Eval Builtins CoreSrc Main.
From Verif.Proofs Require Import Run.
From Verif.Spec Require Import Vocabulary Library Calling.
Open Scope list_scope.

(** So far all calls gave lists. *)
Definition gave_lists (tr : record) (ls : list (list val)) : Prop := results tr = map vlist ls.
(** The names foreach uses. *)
Definition foreach_names : list string := ["foreach"; "syntax-quote"; "cons"; "quote"; "concat2"; "map"; "lambda"]%string.
(** (lambda (x) body...), (foreach x l body...) *)
Definition function_of (x : string) (body : list val) : val := vlist (VAtom "lambda" :: vlist [VAtom x] :: body).
Definition foreach (x : string) (l : val) (body : list val) : val := vlist (VAtom "foreach" :: VAtom x :: l :: body).
