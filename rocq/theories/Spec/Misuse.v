(** * Misuse: what is wrong with a form, before anything is evaluated. *)
From Verif.Model Require Import Base Syntax World.
From Verif.Spec Require Import Vocabulary Defining Complaints.
Open Scope list_scope.

(** Parameter lists that are none. *)
Inductive bad_parameters : val -> string -> Prop :=
| bad_item x l : ~ is_symbol x -> x <> VNil -> bad_parameters (VCons x l) "argument list item is not an atom"
| bad_unit l : is_list l \/ l = VAtom "" -> bad_parameters (VCons VNil l) "lambda with () argument requires a rest argument"
| bad_rest_unit l : ~ is_list l -> ~ is_symbol l -> bad_parameters (VCons VNil l) "unknown type in lambda arg list"
| bad_rest s l : ~ is_list l -> ~ is_symbol l -> bad_parameters (VCons (VAtom s) l) "unknown type in lambda arg list"
| bad_later s l msg : bad_parameters l msg -> bad_parameters (VCons (VAtom s) l) msg.
(** What follows lambda - an optional name, parameters, and a body - and is none. *)
Definition after_name (xs : list val) (l : val) (body : list val) : Prop :=
  xs = l :: body /\ ~ is_symbol l \/ exists s, xs = VAtom s :: l :: body.
Inductive bad_function : list val -> string -> Prop :=
| nothing_at_all : bad_function [] "missing arguments"
| nothing_but_a_name s : bad_function [VAtom s] "missing arguments"
| no_parameters xs l body : after_name xs l body -> ~ is_list l -> bad_function xs "lambda requires an argument list"
| wrong_parameters xs l body msg : after_name xs l body -> bad_parameters l msg -> bad_function xs msg
| wrong_doc xs l body ps rest d : after_name xs l (VCons (VAtom "doc") d :: body) -> parameters l ps rest -> ~ is_list d ->
    bad_function xs "doc form is not a list".

(** [misuse x reasons]: [x] cannot be evaluated, for these reasons (the last
    tells what). *)
Inductive misuse : val -> list string -> Prop :=
| quote_nothing : misuse (form "quote" []) ["quote needs an argument"%string]
| syntax_quote_nothing : misuse (form "syntax-quote" []) ["syntax-quote needs an argument"%string]
| bind_nothing h : In h ["def"; "set!"]%string -> misuse (form h []) ["missing argument"%string]
| bind_no_value h s : In h ["def"; "set!"]%string -> misuse (form h [VAtom s]) ["missing argument"%string]
| bind_no_name h x xs : In h ["def"; "set!"]%string -> ~ is_symbol x -> h = "def"%string \/ x <> VNil ->
    misuse (form h (x :: xs)) [(h ++ ": first argument must be an atom")%string]
| set_nil xs : misuse (form "set!" (VNil :: xs)) ["set!: first argument cannot be nil!"%string]
| error_nothing : misuse (form "error" []) ["error requires a non-empty argument list"%string]
| errors_nothing : misuse (form "errors" []) ["no error spec given"%string]
| errors_no_signature x xs : ~ is_list x -> misuse (form "errors" (x :: xs)) ["error signature must be a list"%string]
| let_nothing : misuse (form "let" []) ["let requires a binding list"%string]
| let_no_bindings x xs : ~ is_list x -> misuse (form "let" (x :: xs)) ["let bindings must be a list"%string]
| cond_no_pair x xs : ~ (exists test rest, x = VCons test rest) -> misuse (form "cond" (x :: xs)) ["cond requires a list of pairs"%string]
| lambda_wrong xs msg : bad_function xs msg -> misuse (form "lambda" xs) [msg]
| define_nothing h : In h ["defn"; "defmacro"]%string -> misuse (form h []) [(h ++ " requires a function name")%string]
| define_no_name h x xs : In h ["defn"; "defmacro"]%string -> ~ is_symbol x -> misuse (form h (x :: xs)) [(h ++ " name must be an atom")%string]
| define_only_name h s : In h ["defn"; "defmacro"]%string -> misuse (form h [VAtom s]) [(h ++ " requires an argument list")%string]
| define_wrong h s x xs msg : In h ["defn"; "defmacro"]%string -> bad_function (x :: xs) msg ->
    misuse (form h (VAtom s :: x :: xs)) ["creating lambda function"%string; msg]
| define_t h l ps rest body doc forms : In h ["defn"; "defmacro"]%string -> parameters l ps rest -> documented body doc forms ->
    misuse (form h (VAtom "t" :: l :: body)) ["setting defn result"; "cannot bind or set t"]%string
| dotted_call f x : ~ is_list x -> misuse (VCons f x) ["malformed list for eval"%string]
| function_as_form x : is_lambda x \/ is_native_function x -> misuse x [("unknown expression type: " ++ as_text x)%string].
(** The head of a form, if it is a symbol, is not the name of a macro. *)
Definition head_no_macro (x : val) (e : env) (w : world) : Prop := forall s l, x = VCons (VAtom s) l -> not_macro s e w.
(** The error for some reasons. *)
Definition failure (reasons : list string) : err := ECons (vlist (map words_of reasons)).
