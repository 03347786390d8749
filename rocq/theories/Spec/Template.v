(** * Template: the vocabulary of syntax-quote (C42). *)
From Verif.Model Require Import Base Syntax World Prog Lex Parse Meta Eval Builtins CoreSrc Main.
From Verif.Proofs Require Import Run.
From Verif.Spec Require Import Vocabulary Library.
Open Scope list_scope.

(** Templates: symbols, numbers, holes (unquoted expressions), and lists whose
    elements are templates or splices (expressions whose value, a list, is
    inserted element by element). *)
Inductive template : Type :=
| TAtom (s : string)
| TNum (n : Z)
| THole (x : val)
| TList (is : items)
with items : Type :=
| Done
| Put (t : template) (is : items)
| Splice (x : val) (is : items).

(** The template as it is written after the backquote: ~x stands for
    (unquote x), ~@x for (splicing-unquote x). *)
Fixpoint written (t : template) : val :=
  match t with
  | TAtom s => VAtom s
  | TNum n => VNum n
  | THole x => form "unquote" [x]
  | TList is => written_items is
  end
with written_items (is : items) : val :=
  match is with
  | Done => VNil
  | Put t is => VCons (written t) (written_items is)
  | Splice x is => VCons (form "splicing-unquote" [x]) (written_items is)
  end.

(** Reading a template is unambiguous: no list starts with the symbol unquote,
    and no list inside another one starts with the symbol splicing-unquote. *)
Definition headed (s : string) (t : template) : bool :=
  match t with TList (Put (TAtom a) _) => String.eqb a s | _ => false end.
Fixpoint clear (t : template) : Prop :=
  match t with TList is => headed "unquote" t = false /\ clear_items is | _ => True end
with clear_items (is : items) : Prop :=
  match is with
  | Done => True
  | Put t is => headed "splicing-unquote" t = false /\ clear t /\ clear_items is
  | Splice _ is => clear_items is
  end.

(** ** Holes without effects. *)
(** The template filled in, where [value x] is the value of hole [x]. *)
Definition elements (v : val) : list val :=
  match cons_to_exprs v with Some l => l | None => [] end.
Fixpoint instance (value : val -> val) (t : template) : val :=
  match t with
  | TAtom s => VAtom s
  | TNum n => VNum n
  | THole x => value x
  | TList is => vlist (instance_items value is)
  end
with instance_items (value : val -> val) (is : items) : list val :=
  match is with
  | Done => []
  | Put t is => instance value t :: instance_items value is
  | Splice x is => elements (value x) ++ instance_items value is
  end.
(** The expressions in the holes and splices, in order of occurrence. *)
Fixpoint holes (t : template) : list val :=
  match t with THole x => [x] | TList is => holes_in is | _ => [] end
with holes_in (is : items) : list val :=
  match is with
  | Done => []
  | Put t is => holes t ++ holes_in is
  | Splice x is => x :: holes_in is
  end.
Fixpoint splices (t : template) : list val :=
  match t with TList is => splices_in is | _ => [] end
with splices_in (is : items) : list val :=
  match is with
  | Done => []
  | Put t is => splices t ++ splices_in is
  | Splice x is => x :: splices_in is
  end.

(** ** Holes with effects. *)
(** The names a syntax-quoted template uses mean what they meant at start-up. *)
Definition template_names : list string := ["cons"; "concat2"; "quote"; "syntax-quote"]%string.
Definition ready (e : env) (w : world) : Prop := as_loaded template_names e w /\ core w.

(** [fills e t w K]: evaluated in order of occurrence, with only new environments
    made in between, all holes give values, all splices lists, and the names
    stay as they are; the filled template and the final state satisfy [K]. *)
Fixpoint fills (e : env) (t : template) (w : world) (K : val -> world -> Prop) : Prop :=
  match t with
  | TAtom s => K (VAtom s) w
  | TNum n => K (VNum n) w
  | THole x => exists v w1, evals x e w (Ok v) w1 /\ ready e w1 /\ K v w1
  | TList is => fills_items e is w (fun vs w1 => K (vlist vs) w1)
  end
with fills_items (e : env) (is : items) (w : world) (K : list val -> world -> Prop) : Prop :=
  match is with
  | Done => K [] w
  | Put t is => fills e t w (fun v w1 => fills_items e is w1 (fun vs w2 => K (v :: vs) w2))
  | Splice x is =>
      exists l w1, evals x e w (Ok (vlist l)) w1 /\ ready e w1 /\
        fills_items e is w1 (fun vs w2 => forall w3, grows w2 w3 -> K (l ++ vs) w3)
  end.

(** [filled e t w o w']: what the evaluation of a template does, whatever the
    holes do.  [Some (Ok v)]: all holes gave values and [v] is the filled
    template; [Some r] with another [r]: the first hole that gave no value
    stopped with [r], or a splice is not a list, which is an error; [None]: the
    evaluation of a hole redefined one of the names, and nothing is said from
    there on. *)
Inductive filled (e : env) : template -> world -> option (outcome val) -> world -> Prop :=
| filled_atom s w : filled e (TAtom s) w (Some (Ok (VAtom s))) w
| filled_num n w : filled e (TNum n) w (Some (Ok (VNum n))) w
| filled_hole x w r w' : evals x e w r w' -> filled e (THole x) w (Some r) w'
| filled_lost x w v w' : evals x e w (Ok v) w' -> ~ ready e w' -> filled e (THole x) w None w'
| filled_list is w vs w' : filled_items e is w (inl vs) w' -> filled e (TList is) w (Some (Ok (vlist vs))) w'
| filled_list_stop is w o w' : filled_items e is w (inr o) w' -> filled e (TList is) w o w'
with filled_items (e : env) : items -> world -> list val + option (outcome val) -> world -> Prop :=
| items_done w : filled_items e Done w (inl []) w
| items_put t is w v w1 vs w' :
    filled e t w (Some (Ok v)) w1 -> filled_items e is w1 (inl vs) w' -> filled_items e (Put t is) w (inl (v :: vs)) w'
| items_put_stop t is w q w1 : filled e t w (Some q) w1 -> ~ is_ok q -> filled_items e (Put t is) w (inr (Some q)) w1
| items_put_lost t is w w1 : filled e t w None w1 -> filled_items e (Put t is) w (inr None) w1
| items_put_next t is w v w1 o w' :
    filled e t w (Some (Ok v)) w1 -> filled_items e is w1 (inr o) w' -> filled_items e (Put t is) w (inr o) w'
| items_splice x is w l w1 vs w2 w' :
    evals x e w (Ok (vlist l)) w1 -> filled_items e is w1 (inl vs) w2 -> grows w2 w' ->
    filled_items e (Splice x is) w (inl (l ++ vs)) w'
| items_splice_bad x is w v w1 vs w2 er w' :
    evals x e w (Ok v) w1 -> (forall l, v <> vlist l) -> filled_items e is w1 (inl vs) w2 -> grows w2 w' ->
    filled_items e (Splice x is) w (inr (Some (Er er))) w'
| items_splice_stop x is w q w1 : evals x e w q w1 -> ~ is_ok q -> filled_items e (Splice x is) w (inr (Some q)) w1
| items_splice_lost x is w v w1 : evals x e w (Ok v) w1 -> ~ ready e w1 -> filled_items e (Splice x is) w (inr None) w1
| items_splice_next x is w v w1 o w' :
    evals x e w (Ok v) w1 -> filled_items e is w1 (inr o) w' -> filled_items e (Splice x is) w (inr o) w'.
