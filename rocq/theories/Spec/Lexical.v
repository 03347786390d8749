(** * Lexical: how the lexemes of a line of text are written. *)
From Verif.Model Require Import Base Syntax.
From Verif.Spec Require Import Reader.
Open Scope list_scope.

Definition all_chars (P : ascii -> Prop) (s : string) : Prop := forall i c, String.get i s = Some c -> P c.
Definition begins_with (P : ascii -> Prop) (s : string) : Prop := exists c r, s = String c r /\ P c.

(** Characters with a meaning of their own. *)
Definition punctuation : list ascii :=
  [ch_sp; ch_tab; ch_lf; ch_cr; "("%char; ")"%char; "~"%char; "@"%char; "#"%char; ";"%char; "`"%char; "'"%char].
Definition digit_chars : list ascii :=
  ["0"; "1"; "2"; "3"; "4"; "5"; "6"; "7"; "8"; "9"]%char.
(** Symbols that can be written down: not empty, no punctuation, not starting
    like a number (digit, or sign and digit) or with a dot. *)
Definition readable (s : string) : Prop :=
  exists c r, s = String c r /\ all_chars (fun c => ~ In c punctuation) s /\
    ~ In c digit_chars /\ c <> "."%char /\
    (c = "+"%char \/ c = "-"%char -> forall d r', r = String d r' -> ~ In d digit_chars).

(** Marks that stand for a lexeme wherever one may start. *)
Definition marks : list (string * lexeme) :=
  [("(", XOpen); (")", XClose); (".", XDot); ("'", XPrefix "quote"); ("`", XPrefix "syntax-quote");
   ("~@", XPrefix "splicing-unquote"); ("#_", XPrefix "comment")]%string.

(** [spells line xs]: the text [line] of one line is made of the lexemes [xs].
    - blanks before, between and after lexemes do not matter, and a semicolon
      hides the rest of the line, as does a shebang;
    - a number is an optional sign and as many digits as there are;
    - a symbol is as many characters as there are up to the next punctuation. *)
Inductive spells : string -> list lexeme -> Prop :=
| spells_end : spells "" []
| spells_blank c rest xs : In c [ch_sp; ch_tab; ch_cr] -> spells rest xs -> spells (String c rest) xs
| spells_comment text : spells (";" ++ text) []
| spells_shebang text : spells ("#!" ++ text) [XShebang]
| spells_mark mark x rest xs : In (mark, x) marks -> spells rest xs -> spells (mark ++ rest) (x :: xs)
| spells_unquote rest xs : ~ begins_with (eq "@"%char) rest -> spells rest xs ->
    spells ("~" ++ rest) (XPrefix "unquote" :: xs)
| spells_number sign ds rest xs : In sign [""; "+"; "-"]%string ->
    ds <> ""%string -> all_chars (fun c => In c digit_chars) ds ->
    ~ begins_with (fun c => In c digit_chars) rest -> spells rest xs ->
    spells (sign ++ ds ++ rest) (XNum (sign ++ ds) :: xs)
| spells_symbol s rest xs : readable s -> ~ begins_with (fun c => ~ In c punctuation) rest -> spells rest xs ->
    spells (s ++ rest) (XAtom s :: xs).

(** The lines of a text, and the lexemes of the whole. *)
Definition text_lines (text : string) (ls : list string) : Prop :=
  ls <> [] /\ Forall (all_chars (fun c => c <> ch_lf)) ls /\ text = String.concat (str1 ch_lf) ls.
Definition text_spells (text : string) (xs : list lexeme) : Prop :=
  exists ls xss, text_lines text ls /\ Forall2 spells ls xss /\ xs = concat xss.
