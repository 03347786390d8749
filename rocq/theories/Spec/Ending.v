(** * Ending: forms that call no functions of their own. *)
From Verif.Model Require Import Base Syntax World Prog Parse Eval Builtins Main.
From Verif.Spec Require Import Vocabulary Library Defining Session.
Open Scope list_scope.

(** The native functions that call functions, evaluate forms, or wait for
    something outside. *)
Definition calling_or_waiting : list builtin :=
  [BApply; BEval; BMacroexpand1; BSortBy; BLoad; BForms; BHelp;
   BReadlist; BShell; BSleep; BScreenStart; BScreenEnd; BScreenSize; BScreenClear; BScreenGetKey; BScreenWrite].
(** The name of another native function (or one the library gives it). *)
Definition native_name (s : string) : Prop :=
  sform_of s = None /\ exists b, ~ In b calling_or_waiting /\
    match fget s core_frame with Some v => v = VBuiltin b | None => lookup_builtin s = Some b end.
Definition each_form : list string := ["and"; "or"; "swallow"; "test"; "error"; "errors"; "try"]%string.
(** Names that a form may bind: not those of the library, of the native functions
    and of the special forms, and not those of the functions [G] of the program
    (names and values, the latest first). *)
Definition own (G : frame) (s : string) : Prop := ~ In s reserved /\ fget s G = None.

Definition pair_of (p : val * val) : val := vlist [fst p; snd p].
Definition binding_of (p : string * val) : val := vlist [VAtom (fst p); snd p].
(** Forms made of numbers, variables, quoted data, functions and macros that
    are not called, conditionals, and calls of native functions and of functions
    of the library or of [G] with bodies made in the same way (so not of those
    that call themselves, directly or not). *)
Inductive simple (G : frame) : val -> Prop :=
| simple_number n : simple G (VNum n)
| simple_nil : simple G VNil
| simple_name s : simple G (VAtom s)
| simple_quote xs : simple G (form "quote" xs)
| simple_lambda ps xs : is_conscell ps = true -> simple G (form "lambda" (ps :: xs))
| simple_named s ps xs : own G s -> simple G (form "lambda" (VAtom s :: ps :: xs))
| simple_defn s ps xs : own G s -> is_conscell ps = true -> simple G (form "defn" (VAtom s :: ps :: xs))
| simple_defmacro s ps xs : own G s -> is_conscell ps = true -> simple G (form "defmacro" (VAtom s :: ps :: xs))
| simple_def s x : own G s -> simple G x -> simple G (form "def" [VAtom s; x])
| simple_set s x : own G s -> simple G x -> simple G (form "set!" [VAtom s; x])
| simple_each s xs : In s each_form -> all_simple G xs -> simple G (form s xs)
| simple_catch xs s ys : all_simple G xs -> own G s -> all_simple G ys ->
    simple G (form "try" (xs ++ [form "catch" (VAtom s :: ys)]))
| simple_cond ps : all_simple G (map fst ps) -> all_simple G (map snd ps) -> simple G (form "cond" (map pair_of ps))
| simple_let ps xs : Forall (fun p => own G (fst p)) ps -> all_simple G (map snd ps) -> all_simple G xs ->
    simple G (form "let" (vlist (map binding_of ps) :: xs))
| simple_let_star ps xs : Forall (fun p => own G (fst p)) ps -> all_simple G (map snd ps) -> all_simple G xs ->
    simple G (form "let*" (vlist (map binding_of ps) :: xs))
| simple_if s c x y : In s ["if"; "if-not"]%string -> simple G c -> simple G x -> simple G y -> simple G (form s [c; x; y])
| simple_when s c xs : In s ["when"; "when-not"]%string -> simple G c -> all_simple G xs -> simple G (form s (c :: xs))
| simple_progn xs : all_simple G xs -> simple G (form "progn" xs)
| simple_comment xs : simple G (form "comment" xs)
| simple_library s ps rest body doc xs :
    fget s core_frame = Some (VLam ps rest (vlist body) doc false global_env) -> Forall (own G) (rest :: ps) ->
    all_simple G body -> all_simple G xs -> simple G (form s xs)
| simple_function s ps rest body doc xs :
    fget s G = Some (VLam ps rest (vlist body) doc false global_env) -> ordinary s -> s <> "catch"%string -> Forall (own G) (rest :: ps) ->
    all_simple G body -> all_simple G xs -> simple G (form s xs)
| simple_call s xs : native_name s -> all_simple G xs -> simple G (form s xs)
with all_simple (G : frame) : list val -> Prop :=
| all_nil : all_simple G []
| all_cons x xs : simple G x -> all_simple G xs -> all_simple G (x :: xs).

(** The library is as loaded, the functions [G] are defined, and in [e] the names of
    both, those of the native functions and those of the special forms mean what they
    mean globally. *)
Definition defined (G : frame) (e : env) (w : world) : Prop :=
  forall s v, fget s G = Some v -> lookup e s w = Some v /\ lookup global_env s w = Some v.
Definition as_at_start (G : frame) (e : env) (w : world) : Prop :=
  core w /\ allocated w e /\ as_loaded reserved e w /\ defined G e w.

(** Programs of such forms and of definitions of new functions: a function may
    call those defined before it. *)
Inductive not_recursive (G : frame) : list val -> Prop :=
| no_forms : not_recursive G []
| a_form x xs : simple G x -> not_recursive G xs -> not_recursive G (x :: xs)
| a_function s l ps rest body doc forms xs :
    ordinary s -> own G s -> parameters l ps rest -> documented body doc forms ->
    not_recursive ((s, VLam ps rest (vlist forms) doc false global_env) :: G) xs ->
    not_recursive G (defining_form false s l body :: xs).

(** Typed sessions of such forms, and of definitions of new functions typed one
    at a time: the lines [pending], which do not make up complete forms, have
    been typed, and the lines [rest] follow. *)
Inductive typed_forms : frame -> list string -> list string -> Prop :=
| tf_end G pending : typed_forms G pending []
| tf_more G pending l rest : (0 < open_parens (pending ++ [l]))%Z ->
    typed_forms G (pending ++ [l]) rest -> typed_forms G pending (l :: rest)
| tf_excess G pending l rest : (open_parens (pending ++ [l]) < 0)%Z ->
    typed_forms G [] rest -> typed_forms G pending (l :: rest)
| tf_unreadable G pending l rest : open_parens (pending ++ [l]) = 0%Z ->
    (forall xs, read_lines (pending ++ [l]) <> POk xs) -> typed_forms G [] rest -> typed_forms G pending (l :: rest)
| tf_forms G pending l rest xs : open_parens (pending ++ [l]) = 0%Z -> read_lines (pending ++ [l]) = POk xs ->
    all_simple G xs -> typed_forms G [] rest -> typed_forms G pending (l :: rest)
| tf_function G pending l rest s ps params others body doc forms : open_parens (pending ++ [l]) = 0%Z ->
    read_lines (pending ++ [l]) = POk [defining_form false s ps body] ->
    ordinary s -> own G s -> parameters ps params others -> documented body doc forms ->
    typed_forms ((s, VLam params others (vlist forms) doc false global_env) :: G) [] rest -> typed_forms G pending (l :: rest).
