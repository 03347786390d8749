(** * Faults: what a reading error says about the text. *)
From Verif.Model Require Import Base Syntax.
From Verif.Spec Require Import Reader.
Open Scope list_scope.

(** The error [e] ends with the message [msg] (what precedes it tells which
    functions of the reader were at work). *)
Definition error_says (e : err) (msg : string) : Prop :=
  exists context, e = ECons (vlist (context ++ [vlist (map VAtom (split_on ch_sp msg))])).

(** The lexeme [x] stands on line [n] of the text (the first line is line 1),
    after the lexemes [before] and before the lexemes [after]. *)
Definition on_line (text : string) (n : Z) (before : list lexeme) (x : lexeme) (after : list lexeme) : Prop :=
  exists earlier line later p q,
    split_on ch_lf text = earlier ++ line :: later /\ n = (Z.of_nat (length earlier) + 1)%Z /\
    lexemes line = p ++ x :: q /\
    before = flat_map lexemes earlier ++ p /\ after = q ++ flat_map lexemes later.

(** Lexemes that start some readable text. *)
Definition can_continue (xs : list lexeme) : Prop := exists more vs, body (xs ++ more) vs.
(** An open parenthesis that none of the lexemes [xs] after it closes. *)
Definition never_closes (xs : list lexeme) : Prop :=
  forall p q, xs = p ++ q -> exists k, depth_after true 1 p = Some (S k).

(** How a lexeme that cannot stand where it is is named in the message. *)
Definition named (x : lexeme) (shown : string) : Prop :=
  match x with
  | XDot => shown = "."%string
  | XShebang => exists rest, shown = ("#!" ++ rest)%string
  | XBad => exists c, shown = ("unexpected character " ++ c ++ " in input")%string
  | _ => False
  end.

(** What each message means. *)
Inductive explains (text : string) : string -> Prop :=
| stray_close n before after :
    on_line text n before XClose after -> can_continue before -> balanced before ->
    explains text ("unexpected right paren on line " ++ str (VNum n))
| stray_lexeme n before x after shown :
    on_line text n before x after -> can_continue before -> named x shown ->
    explains text ("unexpected lexeme '" ++ shown ++ "' on line " ++ str (VNum n))
| unclosed before after :
    lexemes text = before ++ XOpen :: after -> can_continue before -> never_closes after ->
    explains text "unbalanced parens"
| nothing_marked before name after details :
    lexemes text = before ++ XPrefix name :: after -> can_continue before ->
    after = [] \/ (exists r, after = XClose :: r \/ after = XDot :: r) ->
    explains text ("unexpected end of input; " ++ details).
