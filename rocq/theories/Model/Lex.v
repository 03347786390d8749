(** * Lex: the tokenizer (lex.go).

    lex.go drives github.com/eigenhombre/lexutil, a state-machine lexer in the
    style of Go's text/template whose source is not in /repo.  Its interface is
    modelled as that design has it: [Next] advances, [Backup] undoes one
    [Next], [Emit] emits the text between the last reset point and the current
    position and moves the reset point here, [Ignore] moves the reset point
    here, [Errorf] emits an error item and does not move it.  The text since
    the reset point is the argument [cur].  Runes are handled as bytes: every
    character the lexer distinguishes is ASCII and Go decodes any other rune
    from bytes >= 128, so the classification of bytes and of runes coincide. *)
From Verif.Model Require Import Base Syntax.

(** Token types (lex.go:19-32), in [iota] order. *)
Inductive toktype : Set :=
| TNumber | TAtom | TLeftParen | TRightParen | TForwardQuote | TSyntaxQuote
| TUnquote | TSplicingUnquote | TDot | TCommentNext | TShebang | TError.

Definition toktype_num (t : toktype) : N :=
  match t with
  | TNumber => 0 | TAtom => 1 | TLeftParen => 2 | TRightParen => 3 | TForwardQuote => 4
  | TSyntaxQuote => 5 | TUnquote => 6 | TSplicingUnquote => 7 | TDot => 8
  | TCommentNext => 9 | TShebang => 10 | TError => 11
  end.

(** Token (lex.go:13-16). *)
Record token : Set := Tok { t_typ : toktype; t_val : string; t_line : N }.

(** isSpace (lex.go:86-88). *)
Definition is_space (c : ascii) : bool :=
  Ascii.eqb c ch_sp || Ascii.eqb c ch_tab || Ascii.eqb c ch_lf || Ascii.eqb c ch_cr.

Definition ch_lp : ascii := "("%char.
Definition ch_rp : ascii := ")"%char.
Definition ch_quote : ascii := "'"%char.
Definition ch_bq : ascii := "`"%char.
Definition ch_tilde : ascii := "~"%char.
Definition ch_at : ascii := "@"%char.
Definition ch_dot : ascii := "."%char.
Definition ch_hash : ascii := "#"%char.
Definition ch_semi : ascii := ";"%char.
Definition ch_plus : ascii := "+"%char.
Definition ch_minus : ascii := "-"%char.

(** not in disallowedForAtomAfterStart (lex.go:134). *)
Definition atom_char (c : ascii) : bool :=
  negb (is_space c || Ascii.eqb c ch_lp || Ascii.eqb c ch_rp || Ascii.eqb c ch_tilde
        || Ascii.eqb c ch_at || Ascii.eqb c ch_hash || Ascii.eqb c ch_semi
        || Ascii.eqb c ch_bq || Ascii.eqb c ch_quote).
(** isAtomStart (lex.go:135-139). *)
Definition atom_start (c : ascii) : bool :=
  atom_char c && negb (is_digit_ch c || Ascii.eqb c ch_plus || Ascii.eqb c ch_minus
                       || Ascii.eqb c ch_dot).

(** [%q] of a rune: the quoted character.  Simplification: the rune is a byte,
    escapes other than the ones of [quote_byte] are not distinguished. *)
Definition quote_rune (c : option ascii) : string :=
  match c with
  | None => ("'" ++ rune_error ++ "'")%string
  | Some c =>
      (if Ascii.eqb c ch_quote then "'\''"
       else if (byte c =? 34)%N then String ch_quote (String c "'")
       else "'" ++ quote_byte c ++ "'")%string
  end.
Definition unexpected (c : option ascii) : string :=
  ("unexpected character " ++ quote_rune c ++ " in input")%string.

(** The lexer states, with the text scanned since the reset point:
    - [LStart cur] : lexStart (lex.go:98-132)
    - [LComment cur] : inside ignoreToEndOfLine (lex.go:90-96)
    - [LInt cur] : lexInt after the optional sign (lex.go:198-207)
    - [LDigits cur] : AcceptRun of digits (lex.go:202)
    - [LAtom cur] : lexAtom (lex.go:155-162)
    - [LTilde cur] : lexUnquote after the tilde (lex.go:186-196)
    - [LHash cur] : lexHashSugar after the hash (lex.go:164-184)
    - [LBang cur] : the shebang loop (lex.go:173-180).
    [cur] is kept reversed. *)
Inductive lexst : Set :=
| LStart | LComment | LInt | LDigits | LAtom | LTilde | LHash | LBang.

Fixpoint rev_str (acc s : string) : string :=
  match s with EmptyString => acc | String c r => rev_str (String c acc) r end.

Section Lexer.
  Variable line : N.
  Definition emit_tok (t : toktype) (cur : string) : token := Tok t (rev_str EmptyString cur) line.

  (** What lexStart does on one rune. Returns the tokens emitted, the next
      state and the text since the reset point. *)
  Definition start_char (c : ascii) (cur : string) : list token * lexst * string :=
    if is_space c then ([], LStart, EmptyString)
    else if Ascii.eqb c ch_semi then ([], LComment, String c cur)
    else if is_digit_ch c then ([], LDigits, String c cur)
    else if Ascii.eqb c ch_minus || Ascii.eqb c ch_plus then ([], LInt, String c cur)
    else if Ascii.eqb c ch_lp then ([emit_tok TLeftParen (String c cur)], LStart, EmptyString)
    else if Ascii.eqb c ch_rp then ([emit_tok TRightParen (String c cur)], LStart, EmptyString)
    else if atom_start c then ([], LAtom, String c cur)
    else if Ascii.eqb c ch_quote then ([emit_tok TForwardQuote (String c cur)], LStart, EmptyString)
    else if Ascii.eqb c ch_bq then ([emit_tok TSyntaxQuote (String c cur)], LStart, EmptyString)
    else if Ascii.eqb c ch_tilde then ([], LTilde, String c cur)
    else if Ascii.eqb c ch_dot then ([emit_tok TDot (String c cur)], LStart, EmptyString)
    else if Ascii.eqb c ch_hash then ([], LHash, String c cur)
    else ([Tok TError (unexpected (Some c)) line], LStart, String c cur).

  (** One rune in any state. *)
  Definition lex_char (st : lexst) (c : ascii) (cur : string) : list token * lexst * string :=
    match st with
    | LStart => start_char c cur
    | LComment => if Ascii.eqb c ch_lf then ([], LStart, String c cur)
                  else ([], LComment, String c cur)
    | LInt =>
        if is_digit_ch c then ([], LDigits, String c cur)
        else if atom_char c then ([], LAtom, String c cur)
        else let '(ts, st', cur') := start_char c EmptyString in (emit_tok TAtom cur :: ts, st', cur')
    | LDigits =>
        if is_digit_ch c then ([], LDigits, String c cur)
        else let '(ts, st', cur') := start_char c EmptyString in (emit_tok TNumber cur :: ts, st', cur')
    | LAtom =>
        if atom_char c then ([], LAtom, String c cur)
        else let '(ts, st', cur') := start_char c EmptyString in (emit_tok TAtom cur :: ts, st', cur')
    | LTilde =>
        if Ascii.eqb c ch_at then ([emit_tok TSplicingUnquote (String c cur)], LStart, EmptyString)
        else let '(ts, st', cur') := start_char c EmptyString in (emit_tok TUnquote cur :: ts, st', cur')
    | LHash =>
        if Ascii.eqb c "_"%char then ([emit_tok TCommentNext (String c cur)], LStart, EmptyString)
        else if Ascii.eqb c "!"%char then ([], LBang, String c cur)
        else let '(ts, st', cur') := start_char c cur in
             (Tok TError (unexpected (Some c)) line :: ts, st', cur')
    | LBang =>
        if Ascii.eqb c ch_lf then
          (* Backup, emit; lexStart then ignores the newline *)
          ([emit_tok TShebang cur], LStart, EmptyString)
        else ([], LBang, String c cur)
    end.

  (** End of input. *)
  Definition lex_end (st : lexst) (cur : string) : list token :=
    match st with
    | LStart | LComment => []
    | LInt | LAtom => [emit_tok TAtom cur]
    | LDigits => [emit_tok TNumber cur]
    | LTilde => [emit_tok TUnquote cur]
    | LHash => [Tok TError (unexpected None) line]
    | LBang => [emit_tok TShebang cur]
    end.

  Fixpoint lex_from (st : lexst) (cur s : string) : list token :=
    match s with
    | EmptyString => lex_end st cur
    | String c r => let '(ts, st', cur') := lex_char st c cur in ts ++ lex_from st' cur' r
    end.

  Definition lex_line (s : string) : list token := lex_from LStart EmptyString s.
End Lexer.

(** LexItems (lex.go:210-221). *)
Fixpoint lex_items_from (line : N) (ss : list string) : list token :=
  match ss with
  | [] => []
  | s :: r => lex_line line s ++ lex_items_from (N.succ line) r
  end.
Definition lex_items (ss : list string) : list token := lex_items_from 1 ss.

(** IsBalanced (lex.go:224-238): [None] is the error "too many right parens". *)
Definition paren_delta (t : token) : Z :=
  match t_typ t with TLeftParen => 1 | TRightParen => -1 | _ => 0 end.
Fixpoint paren_level (ts : list token) : Z :=
  match ts with [] => 0 | t :: r => paren_delta t + paren_level r end.
Definition is_balanced (ts : list token) : option bool :=
  let l := paren_level ts in
  if (l <? 0)%Z then None else Some (l =? 0)%Z.
