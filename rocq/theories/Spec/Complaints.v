(** * Complaints: what the native functions say of arguments they reject. *)
From Coq Require Import Sorted.
From Verif.Model Require Import Base Syntax.
Open Scope list_scope.

(** Kinds of values. *)
Definition is_number (v : val) : Prop := exists n, v = VNum n.
Definition is_symbol (v : val) : Prop := exists s, v = VAtom s.
Definition is_list (v : val) : Prop := v = VNil \/ exists a d, v = VCons a d.
Definition is_lambda (v : val) : Prop := exists ps rest body doc m e, v = VLam ps rest body doc m e.
Definition is_native_function (v : val) : Prop := exists b, v = VBuiltin b.
Definition same_kind (a b : val) : Prop :=
  is_number a /\ is_number b \/ is_symbol a /\ is_symbol b \/ is_list a /\ is_list b \/
  is_lambda a /\ is_lambda b \/ is_native_function a /\ is_native_function b.
(** A list that ends in [tail] instead of (). *)
Definition ends_in (v tail : val) : Prop :=
  exists x xs, v = fold_right VCons tail (x :: xs) /\ ~ is_list tail.

(** How values are shown: as such, between apostrophes, or (the end of a list
    that is none) between quotation marks, with escapes. *)
Definition shown (v : val) : string := ("'" ++ str v ++ "'")%string.
Definition as_text (v : val) : string := go_quote (str v).

(** The number of arguments. *)
Definition counts : list (string * (nat * string)) :=
  [("atom?", (1, "atom? expects a single argument")); ("body", (1, "missing argument"));
   ("car", (1, "missing argument")); ("cdr", (1, "missing argument")); ("cons", (2, "missing argument"));
   ("doc", (1, "missing argument")); ("downcase", (1, "downcase requires one argument"));
   ("eval", (1, "missing argument")); ("fuse", (1, "fuse expects a single argument"));
   ("isqrt", (1, "isqrt expects a single argument")); ("len", (1, "len expects a single argument"));
   ("list?", (1, "list? expects a single argument")); ("load", (1, "load expects a single argument"));
   ("macroexpand-1", (1, "macroexpand-1 expects a single argument")); ("not", (1, "not expects a single argument"));
   ("number?", (1, "number? expects a single argument")); ("printl", (1, "missing argument"));
   ("randint", (1, "randint expects a single argument")); ("rem", (2, "rem requires two arguments"));
   ("screen-get-key", (0, "getkey expects no arguments")); ("screen-write", (3, "screen-write expects 3 arguments"));
   ("shell", (1, "shell expects a single argument")); ("shuffle", (1, "shuffle expects a single argument"));
   ("sleep", (1, "sleep expects a single argument")); ("sort", (1, "sort expects a single argument"));
   ("sort-by", (2, "sort-by expects two arguments")); ("source", (1, "source expects a single argument"));
   ("split", (1, "split expects a single argument")); ("upcase", (1, "upcase expects a single argument"))]%string.
(** The kind of the only argument, where the message does not show it. *)
Definition wants : list (string * ((val -> Prop) * string)) :=
  [("fuse", (is_list, "fuse expects a list")); ("isqrt", (is_number, "isqrt expects a number"));
   ("load", (is_symbol, "load expects a filename")); ("upcase", (is_symbol, "upcase expects an atom"));
   ("split", (fun v => is_symbol v \/ is_number v, "split expects an atom or a number"));
   ("shell", (fun v => exists xs, xs <> [] /\ v = vlist xs /\ Forall (fun x => is_symbol x \/ is_number x) xs,
              "shell argument must be a nonempty list of strings"));
   ("gensym", (is_symbol, "gensym expects an atom as its first argument"))]%string.
(** And where it does. *)
Definition wants_shown : list (string * ((val -> Prop) * (string * string))) :=
  [("car", (is_list, ("", " is not a list"))); ("cdr", (is_list, ("", " is not a list")));
   ("len", (is_list, ("", " is not a list"))); ("sort", (is_list, ("", " is not a list")));
   ("shuffle", (is_list, ("", " is not a list"))); ("printl", (is_list, ("expected list, got ", "")));
   ("randint", (is_number, ("", " is not a number"))); ("sleep", (is_number, ("", " is not a number")));
   ("downcase", (is_symbol, ("expected atom, got ", ""))); ("body", (is_lambda, ("expected lambda function, got ", "")));
   ("doc", (fun v => is_lambda v \/ is_native_function v, ("", " is not a function")));
   ("source", (fun v => is_lambda v \/ is_native_function v, ("", " is not a function")))]%string.
Definition comparisons : list (string * (Z -> Z -> Prop)) :=
  [("<", Z.lt); ("<=", Z.le); (">", Z.gt); (">=", Z.ge)]%string.

(** [complaint f args reasons]: [f] rejects [args], for these reasons (the first
    tells where, the last what). *)
Inductive complaint : string -> list val -> list string -> Prop :=
| wrong_count f n msg vs : In (f, (n, msg)) counts -> length vs <> n -> complaint f vs [msg]
| no_arguments f : In f ["-"; "/"; "="; "<"; "<="; ">"; ">="]%string -> complaint f [] ["missing argument"%string]
| gensym_count vs : (2 <= length vs)%nat -> complaint "gensym" vs ["gensym expects 0 or 1 arguments"%string]
| apply_count vs : (length vs < 2)%nat -> complaint "apply" vs ["apply: not enough arguments"%string]
| wrong_kind f K msg v : In (f, (K, msg)) wants -> ~ K v -> complaint f [v] [msg]
| wrong_kind_shown f K before after v : In (f, (K, (before, after))) wants_shown -> ~ K v ->
    complaint f [v] [(before ++ shown v ++ after)%string]
| native_source v : is_native_function v -> complaint "source" [v] [("cannot get source of builtin function " ++ str v)%string]
| not_an_operand f ns v more : In f ["+"; "-"; "*"]%string -> ~ is_number v ->
    complaint f (map VNum ns ++ v :: more) [("expected number, got " ++ shown v)%string]
| not_an_operand_div ns v more : Forall (fun n => n <> 0%Z) (tl ns) -> ~ is_number v ->
    complaint "/" (map VNum ns ++ v :: more) [("expected number, got " ++ shown v)%string]
| zero_divisor n ns more : Forall (fun n => n <> 0%Z) ns ->
    complaint "/" (map VNum (n :: ns ++ [0%Z]) ++ more) ["division by zero"%string]
| zero_modulus n : complaint "rem" [VNum n; VNum 0] ["division by zero"%string]
| rem_first v u : ~ is_number v -> complaint "rem" [v; u] [("expected number, got " ++ shown v)%string]
| rem_second n v : ~ is_number v -> complaint "rem" [VNum n; v] [("expected number, got " ++ shown v)%string]
| not_comparable f R ns v more : In (f, R) comparisons -> Sorted R ns -> ~ is_number v ->
    complaint f (map VNum ns ++ v :: more) [(shown v ++ " is not a number")%string]
| zero_range : complaint "randint" [VNum 0] ["randint expects a non-zero argument"%string]
| broken_list f v tail : In f ["sort"; "shuffle"]%string -> ends_in v tail ->
    complaint f [v] [(f ++ " consToExprs")%string; ("expected list, got " ++ as_text tail)%string]
| unlike x like y more : Forall (same_kind x) like -> ~ same_kind x y ->
    complaint "sort" [vlist (x :: like ++ y :: more)] [(str y ++ " is not same type as " ++ str x)%string]
| unsortable x like : Forall (same_kind x) like -> ~ is_number x -> ~ is_symbol x ->
    complaint "sort" [vlist (x :: like)] [(shown x ++ " is not a sortable type")%string]
| apply_no_list f vs v : ~ is_list v -> complaint "apply" (f :: vs ++ [v]) [(shown v ++ " is not a list")%string]
| apply_broken_list f vs v tail : ends_in v tail ->
    complaint "apply" (f :: vs ++ [v]) ["apply"%string; ("expected list, got " ++ as_text tail)%string]
| apply_no_function f vs xs : ~ is_lambda f -> ~ is_native_function f ->
    complaint "apply" (f :: vs ++ [vlist xs]) [(str f ++ " is not a function")%string]
| sort_by_no_list f v : ~ is_list v -> complaint "sort-by" [f; v] [(shown v ++ " is not a list")%string]
| sort_by_broken_list f v tail : ends_in v tail ->
    complaint "sort-by" [f; v] ["sort consToExprs"%string; ("expected list, got " ++ as_text tail)%string]
| write_column x y l : ~ is_number x -> complaint "screen-write" [x; y; l] [(shown x ++ " is not a number")%string]
| write_row x y l : is_number x -> ~ is_number y -> complaint "screen-write" [x; y; l] [(shown y ++ " is not a number")%string]
| write_text x y l : is_number x -> is_number y -> ~ is_list l -> complaint "screen-write" [x; y; l] [(shown l ++ " is not a list")%string].

(** The native functions that fail for no other reason: all but those that call
    functions, evaluate forms or reach outside. *)
Definition plain_natives : list string :=
  ["+"; "-"; "*"; "/"; "="; "rem"; "<"; "<="; ">"; ">="; "atom?"; "body"; "car"; "cdr"; "cons"; "doc"; "downcase";
   "exit"; "fuse"; "gensym"; "isqrt"; "len"; "list"; "list?"; "not"; "number?"; "print"; "println"; "printl";
   "randint"; "shuffle"; "sleep"; "sort"; "source"; "split"; "upcase"; "version"]%string.

(** The error that a call of [f] rejected for [reasons] raises: a list, its
    innermost reason last. *)
Definition words_of (s : string) : val := vlist (map VAtom (split_on ch_sp s)).
Definition rejection (f : string) (reasons : list string) : err :=
  ECons (vlist (map words_of (("builtin function " ++ f)%string :: reasons))).
