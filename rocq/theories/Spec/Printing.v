(** * Printing: the written form of values (C86). *)
From Coq Require Import List.
From Verif.Model Require Import Base Syntax.
From Verif.Props Require Import Lists Text Reader.
Open Scope list_scope.
Open Scope string_scope.

(** [printed v s]: the value [v] is written as [s].
    - a symbol is written as it is, a number in decimal without leading zeros;
    - a list in parentheses, its elements separated by single blanks; the end of
      a list that does not end in () follows a dot;
    - functions, macros and native functions are written in angle brackets, with
      their parameters or their name. *)
Inductive printed : val -> string -> Prop :=
| printed_symbol s : printed (VAtom s) s
| printed_number n ds : digits_of (Z.abs n) ds ->
    printed (VNum n) ((if Z.ltb n 0 then "-" else "") ++ numeral_text ds)
| printed_list xs ss : Forall2 printed xs ss -> printed (vlist xs) ("(" ++ spaced ss ++ ")")
| printed_dotted xs ss d s :
    xs <> nil -> ~ is_list d -> Forall2 printed xs ss -> printed d s ->
    printed (list_with_cdr xs d) ("(" ++ spaced ss ++ " . " ++ s ++ ")")
| printed_function ps body doc macro e :
    printed (VLam ps "" body doc macro e) ("<lambda(" ++ spaced ps ++ ")>")
| printed_variadic ps rest body doc macro e :
    rest <> "" -> printed (VLam ps rest body doc macro e) ("<lambda(" ++ spaced ps ++ " . " ++ rest ++ ")>")
| printed_native name b :
    lookup_builtin name = Some b -> printed (VBuiltin b) ("<builtin: " ++ name ++ ">").
