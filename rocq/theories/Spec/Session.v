(** * Session: texts, line input, interactive sessions and processes (C58-C61). *)
From Verif.Model Require Import Base Syntax World Prog Lex Parse Meta Eval Builtins CoreSrc Main.
From Verif.Proofs Require Import Run.
From Verif.Spec Require Import Vocabulary Reader Library.
Open Scope list_scope.

Definition LF : string := str1 ch_lf.
Definition printed (s : string) (w : world) : world := emit (Printed s) w.

(** ** C58: a program text. *)

(** Running [text] in environment [e]: nothing is evaluated unless all of it can
    be read; then the forms are evaluated in order up to the first that gives no
    value, whose outcome is the program's. *)
Inductive program (e : env) (text : string) (w : world) : outcome val -> world -> Prop :=
| program_done xs vs w' :
    read text = POk xs -> in_order e xs w vs None w' -> program e text w (Ok VNil) w'
| program_stops xs vs q w' :
    read text = POk xs -> in_order e xs w vs (Some q) w' -> program e text w q w'
| program_unreadable er : read text = PErr er -> program e text w (Er er) w
| program_crash : read text = PPanic -> program e text w (Panicked "index out of range") w.

(** The same with every value printed as it is computed and the error printed
    where evaluation stops: [None] when the input has been dealt with (by values
    or by an error), [Some q] when evaluation ended the process. *)
Inductive echoed (e : env) : list val -> world -> option (outcome val) -> world -> Prop :=
| echoed_all w : echoed e [] w None w
| echoed_value x xs w v w1 q w' :
    evals x e w (Ok v) w1 -> echoed e xs (printed (str v ++ LF) w1) q w' -> echoed e (x :: xs) w q w'
| echoed_error x xs w er w1 :
    evals x e w (Er er) w1 -> echoed e (x :: xs) w None (printed ("ERROR:" ++ LF ++ err_text er ++ LF) w1)
| echoed_end x xs w q w1 :
    evals x e w q w1 -> ~ is_ok q -> ~ is_er q -> echoed e (x :: xs) w (Some q) w1.

(** ** C60: one line of standard input.

    Standard input is a list of deliveries: what successive reads from the
    operating system return, each at least one byte.  [one_line ds r lost rest]:
    reading a line from deliveries [ds] gives [r], loses the bytes [lost], and
    leaves [rest]. *)
Definition joined (ds : list string) : string := fold_right String.append EmptyString ds.
Definition without_lf (s : string) : Prop := forall a b, s <> (a ++ LF ++ b)%string.
Definition buffer : nat := 4096.
(** A line without the carriage return that precedes its newline. *)
Inductive chomped : string -> string -> Prop :=
| chomped_cr s : chomped (s ++ str1 ch_cr) s
| chomped_plain s : (forall a, s <> a ++ str1 ch_cr)%string -> chomped s s.
(** What is left of a delivery stays available. *)
Definition left_over (kept : string) (rest : list string) : list string :=
  match kept with EmptyString => rest | _ => kept :: rest end.

Inductive one_line : list string -> line_result -> string -> list string -> Prop :=
| line_complete ds a more kept rest line :           (* a newline arrives while the buffer is not full *)
    without_lf (joined ds) -> without_lf a ->
    (let got := String.length (joined ds ++ a ++ LF ++ more) in
     got <= buffer /\ (kept = EmptyString \/ got = buffer))%nat ->
    chomped (joined ds ++ a) line ->
    one_line (ds ++ [a ++ LF ++ more ++ kept]%string ++ rest) (Line line) more (left_over kept rest)
| line_long ds a kept rest line :                     (* 4096 bytes without a newline *)
    without_lf (joined ds) -> without_lf a -> a <> EmptyString ->
    String.length (joined ds ++ a) = buffer -> chomped (joined ds ++ a) line ->
    one_line (ds ++ [a ++ kept]%string ++ rest) (Line line) EmptyString (left_over kept rest)
| line_last ds :                                      (* the input ends without a newline *)
    ds <> [] -> without_lf (joined ds) -> (String.length (joined ds) < buffer)%nat ->
    one_line ds (Line (joined ds)) EmptyString []
| line_none : one_line [] LineEOF EmptyString [].

(** Reading a line in a state. *)
Definition line_read (w : world) (r : line_result) (w' : world) : Prop :=
  exists lost rest, one_line (w_stdin w) r lost rest /\ w' = set_stdin rest w.
(** The deliveries are not empty (read(2) returns no bytes only at the end). *)
Definition delivered (w : world) : Prop := Forall (fun d => d <> EmptyString) (w_stdin w).

(** ** C59: an interactive session. *)

(** Open parentheses minus closing parentheses in lines of text. *)
Definition tokens_of (lines : list string) : list token := flat_map (fun l => lex_items [l]) lines.
Definition open_parens (lines : list string) : Z :=
  fold_right (fun x n => match x with XOpen => n + 1 | XClose => n - 1 | _ => n end)%Z 0%Z
    (map lexeme_of (tokens_of lines)).
(** What the lines say, taken together. *)
Definition read_lines (lines : list string) : presult (list val) := parse (tokens_of lines).

(** The prompt is shown when nothing is pending. *)
Definition prompted (pending : list string) (w : world) : world :=
  match pending with [] => printed "> " w | _ => w end.

(** [session e pending w r w']: a session in state [w], in which lines [pending]
    have been entered but not evaluated yet, ends with [r] in [w']. *)
Inductive session (e : env) : list string -> world -> outcome val -> world -> Prop :=
| session_end pending w w1 :
    line_read (prompted pending w) LineEOF w1 -> session e pending w (Ok VNil) (printed LF w1)
| session_more pending w line w1 r w' :
    line_read (prompted pending w) (Line line) w1 -> (0 < open_parens (pending ++ [line]))%Z ->
    session e (pending ++ [line]) w1 r w' -> session e pending w r w'
| session_excess pending w line w1 r w' :
    line_read (prompted pending w) (Line line) w1 -> (open_parens (pending ++ [line]) < 0)%Z ->
    session e [] (printed ("ERROR:" ++ LF ++ "too many right parens" ++ LF) w1) r w' ->
    session e pending w r w'
| session_unreadable pending w line w1 er r w' :
    line_read (prompted pending w) (Line line) w1 -> open_parens (pending ++ [line]) = 0%Z ->
    read_lines (pending ++ [line]) = PErr er ->
    session e [] (printed (err_text er ++ LF) w1) r w' -> session e pending w r w'
| session_evaluated pending w line w1 xs w2 r w' :
    line_read (prompted pending w) (Line line) w1 -> open_parens (pending ++ [line]) = 0%Z ->
    read_lines (pending ++ [line]) = POk xs -> echoed e xs w1 None w2 ->
    session e [] w2 r w' -> session e pending w r w'
| session_ended pending w line w1 xs q w2 :
    line_read (prompted pending w) (Line line) w1 -> open_parens (pending ++ [line]) = 0%Z ->
    read_lines (pending ++ [line]) = POk xs -> echoed e xs w1 (Some q) w2 ->
    session e pending w q w2
| session_crash pending w line w1 :
    line_read (prompted pending w) (Line line) w1 -> open_parens (pending ++ [line]) = 0%Z ->
    read_lines (pending ++ [line]) = PPanic ->
    session e pending w (Panicked "index out of range") w1.

(** ** C61: a process. *)

(** How a process ends: with an exit status, or by a crash of the Go runtime. *)
Inductive ending : Type := Status (code : Z) | Crashed (msg : string).
Definition ending_of {A} (r : outcome A) : option ending :=
  match r with
  | Ok _ => Some (Status 0)
  | Exited c => Some (Status c)
  | Panicked m => Some (Crashed m)
  | _ => None
  end.
(** The state in which the core library has been loaded. *)
Definition loaded (h : host) (stdin : list string) : world := snd (startup h stdin).

(** Loading files one after the other. *)
Inductive loads : list string -> world -> ending -> world -> Prop :=
| loads_none w : loads [] w (Status 0) w
| loads_missing f fs w msg :
    h_readfile (w_host w) (w_tick w) f = inl msg ->
    loads (f :: fs) w (Status 1) (printed ("ERROR:" ++ LF ++ msg ++ LF) (tick w))
| loads_next f fs w text v w1 en w' :
    h_readfile (w_host w) (w_tick w) f = inr text -> program global_env text (tick w) (Ok v) w1 ->
    loads fs w1 en w' -> loads (f :: fs) w en w'
| loads_fails f fs w text er w1 :
    h_readfile (w_host w) (w_tick w) f = inr text -> program global_env text (tick w) (Er er) w1 ->
    loads (f :: fs) w (Status 1) (printed ("ERROR:" ++ LF ++ err_text er ++ LF) w1)
| loads_ends f fs w text q en w1 :
    h_readfile (w_host w) (w_tick w) f = inr text -> program global_env text (tick w) q w1 ->
    ~ is_ok q -> ending_of q = Some en -> loads (f :: fs) w en w1.

(** All of the files are loaded without an error. *)
Inductive all_loaded : list string -> world -> world -> Prop :=
| all_none w : all_loaded [] w w
| all_next f fs w text v w1 w' :
    h_readfile (w_host w) (w_tick w) f = inr text -> program global_env text (tick w) (Ok v) w1 ->
    all_loaded fs w1 w' -> all_loaded (f :: fs) w w'.

(** What l1 does, for every command line without -doc. *)
Inductive process (o : options) (h : host) (stdin : list string) : ending -> world -> Prop :=
| process_version : o_version o = true ->
    process o h stdin (Status 0) (printed (version_string ++ LF) (init_world h stdin))
| process_eval v w' : o_version o = false -> o_eval o <> EmptyString ->
    program global_env (o_eval o) (loaded h stdin) (Ok v) w' -> process o h stdin (Status 0) w'
| process_eval_fails er w' : o_version o = false -> o_eval o <> EmptyString ->
    program global_env (o_eval o) (loaded h stdin) (Er er) w' ->
    process o h stdin (Status 1) (printed (err_text er ++ LF) w')
| process_eval_ends q en w' : o_version o = false -> o_eval o <> EmptyString ->
    program global_env (o_eval o) (loaded h stdin) q w' -> ~ is_ok q -> ending_of q = Some en ->
    process o h stdin en w'
| process_files en w' : o_version o = false -> o_eval o = EmptyString -> o_files o <> [] ->
    loads (o_files o) (loaded h stdin) en w' -> process o h stdin en w'
| process_interactive r en w' : o_version o = false -> o_eval o = EmptyString -> o_files o = [] ->
    session global_env [] (loaded h stdin) r w' -> ending_of r = Some en -> process o h stdin en w'.
