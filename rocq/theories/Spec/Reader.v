(** * Reader: what a text means, as a grammar over its lexemes. *)
From Verif.Model Require Import Base Syntax Lex Parse.

(** Lexemes: tokens without their line numbers, and without the text of those
    whose text is never used. *)
Inductive lexeme : Set :=
| XNum (s : string) | XAtom (s : string) | XOpen | XClose | XPrefix (name : string) | XDot | XShebang | XBad.
Definition lexeme_of (t : token) : lexeme :=
  match t_typ t with
  | TNumber => XNum (t_val t)
  | TAtom => XAtom (t_val t)
  | TLeftParen => XOpen
  | TRightParen => XClose
  | TForwardQuote => XPrefix "quote"
  | TSyntaxQuote => XPrefix "syntax-quote"
  | TUnquote => XPrefix "unquote"
  | TSplicingUnquote => XPrefix "splicing-unquote"
  | TCommentNext => XPrefix "comment"
  | TDot => XDot
  | TShebang => XShebang
  | TError => XBad
  end.

(** [form xs v]: the lexemes [xs] are one form, with value [v].
    [forms xs vs]: they are a sequence of forms.
    [body xs vs]: the same, possibly after a first shebang line (the reader
    accepts one at the start of every list, too). *)
Inductive form : list lexeme -> val -> Prop :=
| form_num s : form [XNum s] (VNum (big_of_string s))
| form_atom s : form [XAtom s] (VAtom s)
| form_prefix name xs v : form xs v -> form (XPrefix name :: xs) (vlist [VAtom name; v])
| form_list xs vs : body xs vs -> form (XOpen :: xs ++ [XClose]) (vlist vs)
| form_dotted xs vs ys c rest : body xs vs -> body ys (c :: rest) ->
    form (XOpen :: xs ++ XDot :: ys ++ [XClose]) (list_with_cdr vs c)
with forms : list lexeme -> list val -> Prop :=
| forms_nil : forms [] []
| forms_cons xs v ys vs : form xs v -> forms ys vs -> forms (xs ++ ys) (v :: vs)
with body : list lexeme -> list val -> Prop :=
| body_plain xs vs : forms xs vs -> body xs vs
| body_shebang xs vs : forms xs vs -> body (XShebang :: xs) vs.

(** Nesting: starting [k] parentheses deep, read [xs] without ever closing one
    that is not open; the depth at the end.  Without [dots], a dot outside all
    parentheses is not allowed. *)
Fixpoint depth_after (dots : bool) (k : nat) (xs : list lexeme) : option nat :=
  match xs with
  | [] => Some k
  | XOpen :: r => depth_after dots (S k) r
  | XClose :: r => match k with O => None | S k' => depth_after dots k' r end
  | XDot :: r => if dots then depth_after dots k r
                 else match k with O => None | S _ => depth_after dots k r end
  | _ :: r => depth_after dots k r
  end.
Definition balanced (xs : list lexeme) : Prop := depth_after true 0 xs = Some O.
(** Balanced, with no dot outside inner parentheses. *)
Definition closed (xs : list lexeme) : Prop := depth_after false 0 xs = Some O.

(** The texts that crash the reader: everything before the crash is readable,
    and the crash is a dot followed by no form before the parenthesis that
    closes its list. *)
Inductive crash : list lexeme -> Prop :=
| crash_prefix name xs : crash xs -> crash (XPrefix name :: xs)
| crash_items xs rest : crash_body xs -> closed xs -> crash (XOpen :: xs ++ XClose :: rest)
| crash_cars xs ys : crash_body xs -> closed xs -> crash (XOpen :: xs ++ XDot :: ys)
| crash_cdr xs vs ys rest : body xs vs -> crash_body ys -> balanced ys -> crash (XOpen :: xs ++ XDot :: ys ++ XClose :: rest)
| crash_empty xs vs ys rest : body xs vs -> body ys [] -> crash (XOpen :: xs ++ XDot :: ys ++ XClose :: rest)
with crash_body : list lexeme -> Prop :=
| crash_at sh xs vs ys : sh = [] \/ sh = [XShebang] -> forms xs vs -> crash ys -> crash_body (sh ++ xs ++ ys).

Scheme form_ind2 := Induction for form Sort Prop
  with forms_ind2 := Induction for forms Sort Prop
  with body_ind2 := Induction for body Sort Prop.
Combined Scheme grammar_ind from form_ind2, forms_ind2, body_ind2.
Scheme crash_ind2 := Induction for crash Sort Prop
  with crash_body_ind2 := Induction for crash_body Sort Prop.
Combined Scheme crashes_ind from crash_ind2, crash_body_ind2.

(** The lexemes of a text, and reading it. *)
Definition lexemes (text : string) : list lexeme := map lexeme_of (lex_items (split_on ch_lf text)).
Definition read (text : string) : presult (list val) := lex_and_parse (split_on ch_lf text).
