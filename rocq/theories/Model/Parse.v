(** * Parse: tokens to S-expressions (parse.go). *)
From Verif.Model Require Import Base Syntax Lex.

(** Result of a parsing function: value, error, run-time panic ([cdrList[0]] on
    an empty slice), or the model's own recursion bound hit (proved unreachable,
    Proofs/ParseFacts.v). *)
Inductive presult (A : Type) : Type :=
| POk (a : A)
| PErr (e : err)
| PPanic
| PFuel.
Arguments POk {A} a.
Arguments PErr {A} e.
Arguments PPanic {A}.
Arguments PFuel {A}.

Definition pbind {A B} (r : presult A) (f : A -> presult B) : presult B :=
  match r with
  | POk a => f a
  | PErr e => PErr e
  | PPanic => PPanic
  | PFuel => PFuel
  end.
Definition pwrap {A} (msg : string) (r : presult A) : presult A :=
  match r with PErr e => PErr (extend msg e) | _ => r end.

(** [%v] of a token and of a token slice (the structs of lex.go:13-16). *)
Definition show_token (t : token) : string :=
  ("{{" ++ N_to_dec (toktype_num (t_typ t)) ++ " " ++ t_val t ++ "} " ++ N_to_dec (t_line t) ++ "}")%string.
Definition show_tokens (ts : list token) : string :=
  ("[" ++ join " " (map show_token ts) ++ "]")%string.
Definition end_of_input (toks : list token) (i : nat) : err :=
  base_error ("unexpected end of input; index=" ++ nat_to_dec i ++ ", tokens=" ++ show_tokens toks).

(** listChunk (parse.go:121-140): index of the closing parenthesis of the list
    starting at the first token, or of a dot directly inside it, and whether it
    was a dot. *)
Fixpoint list_chunk (level : Z) (i : nat) (toks : list token) : option (nat * bool) :=
  match toks with
  | [] => None
  | t :: r =>
      match t_typ t with
      | TLeftParen => list_chunk (level + 1) (S i) r
      | TRightParen =>
          if (level - 1 =? 0)%Z then Some (i, false) else list_chunk (level - 1) (S i) r
      | TDot => if (level =? 1)%Z then Some (i, true) else list_chunk level (S i) r
      | _ => list_chunk level (S i) r
      end
  end.

(** dotChunk (parse.go:142-156). *)
Fixpoint dot_chunk (level : Z) (i : nat) (toks : list token) : option nat :=
  match toks with
  | [] => None
  | t :: r =>
      match t_typ t with
      | TLeftParen => dot_chunk (level + 1) (S i) r
      | TRightParen =>
          if (level - 1 =? 0)%Z then Some i else dot_chunk (level - 1) (S i) r
      | _ => dot_chunk level (S i) r
      end
  end.

Definition unbalanced : err := base_error "unbalanced parens".

(** The slice toks[i:j]. *)
Definition slice (i j : nat) (toks : list token) : list token := firstn (j - i) (skipn i toks).

(** The [operatorName]s of parseNext (parse.go:25-54). *)
Definition quote_op (t : toktype) : option (string * string) :=
  match t with
  | TForwardQuote => Some ("quote", "itemForwardQuote")
  | TSyntaxQuote => Some ("syntax-quote", "itemSyntaxQuote")
  | TUnquote => Some ("unquote", "itemUnquote")
  | TSplicingUnquote => Some ("splicing-unquote", "itemSplicingUnquote")
  | TCommentNext => Some ("comment", "itemCommentNext")
  | _ => None
  end.

(** parseNext (parse.go:15-66) with handleQuoteItem (parse.go:3-13), parseList
    (parse.go:91-115) and the loop of Parse (parse.go:69-88).  [fuel] bounds the
    nesting of calls. *)
Fixpoint parse_next (fuel : nat) (toks : list token) (i : nat) {struct fuel}
  : presult (val * nat) :=
  match fuel with
  | O => PFuel
  | S f =>
      match nth_error toks i with
      | None => PErr (end_of_input toks i)
      | Some t =>
          match t_typ t with
          | TNumber => POk (VNum (big_of_string (t_val t)), 1%nat)
          | TAtom => POk (VAtom (t_val t), 1%nat)
          | TLeftParen =>
              pwrap "parseNext itemLeftParen parseList" (parse_list f (skipn i toks))
          | TRightParen =>
              PErr (base_error ("unexpected right paren on line " ++ N_to_dec (t_line t)))
          | ty =>
              match quote_op ty with
              | Some (name, tag) =>
                  pwrap ("parseNext " ++ tag ++ " handleQuoteItem")
                    (if (S i <? length toks)%nat then
                       pbind (pwrap "handleQuoteItem parseNext" (parse_next f toks (S i)))
                         (fun r => POk (vlist [VAtom name; fst r], S (snd r)))
                     else PErr (end_of_input toks (S i)))
              | None =>
                  PErr (base_error ("unexpected lexeme '" ++ t_val t ++ "' on line "
                                    ++ N_to_dec (t_line t)))
              end
          end
      end
  end
with parse_list (fuel : nat) (toks : list token) {struct fuel} : presult (val * nat) :=
  match fuel with
  | O => PFuel
  | S f =>
      match list_chunk 0 0 toks with
      | None => PErr unbalanced
      | Some (chunk_end, true) =>
          pbind (parse_toks f (slice 1 chunk_end toks)) (fun cars =>
          match dot_chunk 1 0 (skipn chunk_end toks) with
          | None => PErr unbalanced
          | Some chunk2_end =>
              pbind (parse_toks f (slice (chunk_end + 1) (chunk_end + chunk2_end) toks)) (fun cdrs =>
              match cdrs with
              | [] => PPanic
              | c :: _ => POk (list_with_cdr cars c, (chunk_end + chunk2_end + 1)%nat)
              end)
          end)
      | Some (chunk_end, false) =>
          pbind (parse_toks f (slice 1 chunk_end toks)) (fun items =>
          POk (vlist items, (chunk_end + 1)%nat))
      end
  end
with parse_toks (fuel : nat) (toks : list token) {struct fuel} : presult (list val) :=
  match fuel with
  | O => PFuel
  | S f =>
      let start := match toks with
                   | t :: _ => match t_typ t with TShebang => 1%nat | _ => 0%nat end
                   | [] => 0%nat
                   end in
      parse_loop f toks start
  end
with parse_loop (fuel : nat) (toks : list token) (i : nat) {struct fuel} : presult (list val) :=
  match fuel with
  | O => PFuel
  | S f =>
      if (i <? length toks)%nat then
        pbind (pwrap "parse parseNext" (parse_next f toks i)) (fun r =>
        pbind (parse_loop f toks (i + snd r)) (fun rest =>
        POk (fst r :: rest)))
      else POk []
  end.

(** Parse (parse.go:69-88).  Every recursive call is on a shorter slice or at a
    later index, so four levels per token (plus slack) are enough. *)
Definition parse_fuel (toks : list token) : nat := (4 * length toks + 4)%nat.
Definition parse (toks : list token) : presult (list val) := parse_toks (parse_fuel toks) toks.

(** lexAndParse (parse.go:117-119). *)
Definition lex_and_parse (ss : list string) : presult (list val) := parse (lex_items ss).
