(** * Base: Go standard-library string operations used by the interpreter.

    Go strings are byte strings; they are modelled by Coq's [string] (a list
    of 8-bit [ascii] characters), so non-ASCII text is its UTF-8 encoding,
    exactly as in Go.  This file models the handful of Go library functions
    that /repo/lisp calls on strings ([strings.Split], [strings.Contains],
    [strings.Join], [strings.ToUpper/ToLower] on ASCII, [utf8.DecodeRuneInString],
    [big.Int.Text/SetString], [strconv.Quote]).  They are library behaviour, not
    repo code, and are part of the trusted base (DESIGN.md). *)
From Coq Require Export String Ascii List ZArith NArith Bool.
Export ListNotations.
Open Scope string_scope.
Open Scope list_scope.

(** Byte tests. *)
Definition byte (c : ascii) : N := N_of_ascii c.
Definition chr (n : N) : ascii := ascii_of_N n.
Definition ch_lf : ascii := chr 10.
Definition ch_cr : ascii := chr 13.
Definition ch_tab : ascii := chr 9.
Definition ch_sp : ascii := chr 32.
Definition str1 (c : ascii) : string := String c EmptyString.

Definition is_digit_ch (c : ascii) : bool :=
  (48 <=? byte c)%N && (byte c <=? 57)%N.

(** [strings.ContainsRune(set, r)] for a byte and an ASCII set. *)
Fixpoint mem_ch (c : ascii) (set : string) : bool :=
  match set with
  | EmptyString => false
  | String d r => Ascii.eqb c d || mem_ch c r
  end.

Fixpoint prefix_of (p s : string) : bool :=
  match p, s with
  | EmptyString, _ => true
  | String a p', String b s' => Ascii.eqb a b && prefix_of p' s'
  | String _ _, EmptyString => false
  end.

(** [strings.Contains(s, sub)]. *)
Fixpoint contains (s sub : string) : bool :=
  prefix_of sub s ||
  match s with
  | EmptyString => false
  | String _ r => contains r sub
  end.

(** [strings.Split(s, sep)] for a one-byte separator: always at least one piece. *)
Fixpoint split_on (sep : ascii) (s : string) : list string :=
  match s with
  | EmptyString => [EmptyString]
  | String c r =>
      if Ascii.eqb c sep then EmptyString :: split_on sep r
      else match split_on sep r with
           | [] => [str1 c]
           | p :: ps => String c p :: ps
           end
  end.

(** [strings.Join(ss, sep)]. *)
Fixpoint join (sep : string) (ss : list string) : string :=
  match ss with
  | [] => EmptyString
  | [s] => s
  | s :: rest => s ++ sep ++ join sep rest
  end.

(** Drop the last byte of a string ([s[:len(s)-1]]). *)
Fixpoint drop_last (s : string) : string :=
  match s with
  | EmptyString => EmptyString
  | String _ EmptyString => EmptyString
  | String c r => String c (drop_last r)
  end.

(** [s[1:]]. *)
Definition drop_first (s : string) : string :=
  match s with EmptyString => EmptyString | String _ r => r end.

Fixpoint str_forall (p : ascii -> bool) (s : string) : bool :=
  match s with
  | EmptyString => true
  | String c r => p c && str_forall p r
  end.

Fixpoint str_map (f : ascii -> ascii) (s : string) : string :=
  match s with
  | EmptyString => EmptyString
  | String c r => String (f c) (str_map f r)
  end.

(** Longest prefix whose bytes satisfy [p], and the rest. *)
Fixpoint span (p : ascii -> bool) (s : string) : string * string :=
  match s with
  | EmptyString => (EmptyString, EmptyString)
  | String c r =>
      if p c then let (a, b) := span p r in (String c a, b)
      else (EmptyString, s)
  end.

(** ** Byte-wise string order ([<] on Go strings). *)
Fixpoint str_ltb (a b : string) : bool :=
  match a, b with
  | EmptyString, EmptyString => false
  | EmptyString, String _ _ => true
  | String _ _, EmptyString => false
  | String x a', String y b' =>
      if (byte x <? byte y)%N then true
      else if (byte y <? byte x)%N then false
      else str_ltb a' b'
  end.

(** ** Decimal numbers. *)
Definition digit_ch (n : N) : ascii := chr (48 + n).
Definition digit_val (c : ascii) : Z := Z.of_N (byte c) - 48.

(** Decimal digits of a non-negative number, most significant first, put in
    front of [acc].  [fuel] bounds the number of digits. *)
Fixpoint dec_digits (fuel : nat) (n : N) (acc : string) : string :=
  match fuel with
  | O => acc
  | S f =>
      let acc' := String (digit_ch (n mod 10)) acc in
      if (n <? 10)%N then acc' else dec_digits f (n / 10) acc'
  end.

(** Decimal text of an [N] ([%d] on a non-negative int). *)
Definition N_to_dec (n : N) : string := dec_digits (S (N.size_nat n)) n EmptyString.

(** [big.Int.Text(10)]. *)
Definition Z_to_dec (z : Z) : string :=
  match z with
  | Zneg p => String (chr 45) (N_to_dec (Npos p))
  | _ => N_to_dec (Z.to_N z)
  end.

(** Value of a digit prefix: consumes digits up to the first other byte. *)
Fixpoint dec_value (acc : Z) (s : string) : Z :=
  match s with
  | String c r => if is_digit_ch c then dec_value (10 * acc + digit_val c) r else acc
  | EmptyString => acc
  end.

(** [n.bi.SetString(s, 10)] on a zero [big.Int], ignoring the [ok] result as
    math.go:100 does.  For [[+-]?[0-9]+] this is the number denoted.  For any
    other text Go documents the value as undefined; the implementation leaves
    the value of the longest numeric prefix (0 if there is none), which is what
    is modelled here. *)
Definition big_of_string (s : string) : Z :=
  match s with
  | String c r =>
      if Ascii.eqb c (chr 45) then - dec_value 0 r
      else if Ascii.eqb c (chr 43) then dec_value 0 r
      else dec_value 0 s
  | EmptyString => 0
  end.

(** ** UTF-8 ([utf8.DecodeRuneInString]). *)
Definition rune_error : string :=
  String (chr 239) (String (chr 191) (String (chr 189) EmptyString)).

Definition in_range (lo hi : N) (c : ascii) : bool := (lo <=? byte c)%N && (byte c <=? hi)%N.
Definition cont (c : ascii) : bool := in_range 128 191 c.

(** Length in bytes of the first rune if it is well formed, else [None]
    (Unicode table 3-7, as in Go's [utf8.first]). *)
Definition rune_len (s : string) : option nat :=
  match s with
  | EmptyString => None
  | String a r =>
      if (byte a <? 128)%N then Some 1%nat
      else match r with
      | EmptyString => None
      | String b r2 =>
          if in_range 194 223 a && cont b then Some 2%nat
          else match r2 with
          | EmptyString => None
          | String c r3 =>
              if ((in_range 224 224 a && in_range 160 191 b)
                 || (in_range 225 236 a && cont b)
                 || (in_range 237 237 a && in_range 128 159 b)
                 || (in_range 238 239 a && cont b)) && cont c then Some 3%nat
              else match r3 with
              | EmptyString => None
              | String d _ =>
                  if ((in_range 240 240 a && in_range 144 191 b)
                     || (in_range 241 243 a && cont b)
                     || (in_range 244 244 a && in_range 128 143 b)) && cont c && cont d
                  then Some 4%nat else None
              end
          end
      end
  end.

Fixpoint str_take (n : nat) (s : string) : string :=
  match n, s with
  | S n', String c r => String c (str_take n' r)
  | _, _ => EmptyString
  end.
Fixpoint str_drop (n : nat) (s : string) : string :=
  match n, s with
  | S n', String _ r => str_drop n' r
  | _, _ => s
  end.

(** First rune, re-encoded with [string(r)], and how many bytes it took.  An
    ill-formed byte decodes to U+FFFD with width 1. *)
Definition first_rune (s : string) : string * nat :=
  match rune_len s with
  | Some n => (str_take n s, n)
  | None => (rune_error, match s with EmptyString => 0%nat | _ => 1%nat end)
  end.

(** ** Case mapping on ASCII bytes. *)
Definition up_ch (c : ascii) : ascii := if in_range 97 122 c then chr (byte c - 32) else c.
Definition low_ch (c : ascii) : ascii := if in_range 65 90 c then chr (byte c + 32) else c.
Definition is_ascii_str (s : string) : bool := str_forall (fun c => (byte c <? 128)%N) s.

(** ** [strconv.Quote] ([%q] on a string).  Exact on ASCII; every well-formed
    non-ASCII rune is taken to be printable and copied, ill-formed bytes are
    written [\xNN] (simplification: Go's [unicode.IsPrint] table is not
    modelled).  Only used inside error messages. *)
Definition hex_ch (n : N) : ascii := if (n <? 10)%N then chr (48 + n) else chr (87 + n).
Definition quote_byte (c : ascii) : string :=
  let n := byte c in
  if (n =? 34)%N then String (chr 92) (str1 c)
  else if (n =? 92)%N then String (chr 92) (str1 c)
  else if (n =? 7)%N then String (chr 92) "a"
  else if (n =? 8)%N then String (chr 92) "b"
  else if (n =? 12)%N then String (chr 92) "f"
  else if (n =? 10)%N then String (chr 92) "n"
  else if (n =? 13)%N then String (chr 92) "r"
  else if (n =? 9)%N then String (chr 92) "t"
  else if (n =? 11)%N then String (chr 92) "v"
  else if ((n <? 32) || (n =? 127))%N
       then String (chr 92) (String "x"%char (String (hex_ch (n / 16)) (str1 (hex_ch (n mod 16)))))
  else str1 c.
Fixpoint quote_body (fuel : nat) (s : string) : string :=
  match fuel, s with
  | S f, String c r =>
      if (byte c <? 128)%N then quote_byte c ++ quote_body f r
      else match rune_len s with
           | Some n => str_take n s ++ quote_body f (str_drop n s)
           | None => String (chr 92) (String "x"%char (String (hex_ch (byte c / 16))
                       (str1 (hex_ch (byte c mod 16))))) ++ quote_body f r
           end
  | _, _ => EmptyString
  end.
Definition go_quote (s : string) : string :=
  String (chr 34) (quote_body (String.length s) s ++ str1 (chr 34)).

Definition nat_to_dec (n : nat) : string := N_to_dec (N.of_nat n).
