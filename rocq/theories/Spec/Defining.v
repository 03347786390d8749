(** * Defining: the vocabulary of lambda, defn and defmacro (C67, C79). *)
From Verif.Model Require Import Base Syntax World Prog Lex Parse Meta Eval Builtins CoreSrc Main.
Open Scope list_scope.

(** The list of [xs] with [tail] after the dot. *)
Fixpoint dotted_list (xs : list val) (tail : val) : val :=
  match xs with [] => tail | x :: xs => VCons x (dotted_list xs tail) end.

(** [parameters l ps rest]: parameter list [l] has the positional parameters
    [ps] and the rest parameter [rest] ("" if there is none):
    (p1 ... pn), (p1 ... pn . rest) and (p1 ... pn () . rest). *)
Inductive parameters : val -> list string -> string -> Prop :=
| par_list ps : parameters (dotted_list (map VAtom ps) VNil) ps ""
| par_rest p ps rest : parameters (dotted_list (map VAtom (p :: ps)) (VAtom rest)) (p :: ps) rest
| par_unit ps rest : rest <> ""%string ->
    parameters (dotted_list (map VAtom ps ++ [VNil]) (VAtom rest)) ps rest.

(** [documented body doc forms]: the forms of a function, as written in [body],
    are documentation [doc] (the contents of a leading (doc ...) form; () if
    there is none, if it is empty or if it starts with ()) and the forms to be
    evaluated, [forms]. *)
Inductive documented : list val -> val -> list val -> Prop :=
| doc_absent body : (forall d forms, body <> VCons (VAtom "doc") d :: forms) -> documented body VNil body
| doc_empty forms : documented (VCons (VAtom "doc") VNil :: forms) VNil forms
| doc_omitted d forms : documented (VCons (VAtom "doc") (VCons VNil d) :: forms) VNil forms
| doc_present x d forms : x <> VNil -> documented (VCons (VAtom "doc") (VCons x d) :: forms) (VCons x d) forms.

(** The defining forms: (lambda l body...), (lambda f l body...), and
    (defn f l body...) or (defmacro f l body...). *)
Definition lambda_form (l : val) (body : list val) : val := VCons (VAtom "lambda") (VCons l (vlist body)).
Definition named_lambda_form (f : string) (l : val) (body : list val) : val :=
  VCons (VAtom "lambda") (VCons (VAtom f) (VCons l (vlist body))).
Definition defining_form (macro : bool) (f : string) (l : val) (body : list val) : val :=
  VCons (VAtom (if macro then "defmacro" else "defn")) (VCons (VAtom f) (VCons l (vlist body))).
