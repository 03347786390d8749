(** * World: the mutable state of the process and the primitive operations on it.

    Everything in /repo/lisp that is mutable or external is collected here: the
    [syms] maps of environments (env.go), the gensym counter (state.go:5), the
    screen (term.go:10), standard output, standard input, and a [host] record of
    oracles standing for the operating system and for Go library tables that are
    not modelled.  Every theorem quantifies over all hosts. *)
From Coq Require Import FMapPositive.
From Verif.Model Require Import Base Syntax.

(** A [syms] map (env.go:9): association list without duplicate keys.  Go's map
    iteration order is random; the only code that iterates is EnvKeys
    (env.go:22-31), see [env_keys]. *)
Definition frame := list (string * val).

Fixpoint fget (s : string) (f : frame) : option val :=
  match f with
  | [] => None
  | (k, v) :: r => if String.eqb k s then Some v else fget s r
  end.

Fixpoint fset (s : string) (v : val) (f : frame) : frame :=
  match f with
  | [] => [(s, v)]
  | (k, x) :: r => if String.eqb k s then (k, v) :: r else (k, x) :: fset s v r
  end.

(** Observable output events, in order. *)
Inductive event : Type :=
| Printed (s : string)               (* bytes written to stdout *)
| ScreenStarted | ScreenEnded | ScreenCleared
| ScreenCell (x y : Z) (main comb : string) (* screen.SetContent: a rune and the runes combined with it, term.go:59 *)
| ScreenShown                        (* screen.Show after a text, term.go:62 *)
| Slept (ns : Z)                     (* time.Sleep of so many nanoseconds, builtin.go:1124 *)
| Ran (argv : list string).          (* exec.Command ... Run, shell.go:48-52 *)

(** What screen.PollEvent delivers (term.go:79-83): a key event, with the key the
    switch of termGetKey tells apart (term.go:85-115; [KeyOther]: any other key
    code), or another kind of event (a resize, a mouse event ...). *)
Inductive key : Type :=
| KeyRune (r : string)
| KeyCtrlC | KeyCtrlD | KeyCtrlL | KeyBackspace | KeyBackspace2 | KeyDelete
| KeyDown | KeyEnd | KeyLeft | KeyRight | KeyUp | KeyEnter | KeyEscape | KeyOther.
Inductive screen_event : Type := KeyPressed (k : key) | OtherEvent.

(** Result of running a subprocess (shell.go:48-60): it could not be started
    ([inl] the error text) or it ran: stdout, stderr, exit status. *)
Definition shell_result : Type := (string + (string * string * Z))%type.

(** The operating system and unmodelled library tables, as oracles.  The [N]
    argument is the number of host calls made so far, so an oracle may answer
    differently each time it is asked. *)
Record host : Type := MkHost {
  h_rand : N -> Z -> Z;                       (* rand.Intn; reduced mod the bound by [ORand] *)
  h_readfile : N -> string -> string + string; (* os.ReadFile: inl error text, inr contents *)
  h_shell : N -> list string -> shell_result;
  h_newscreen : N -> option string;           (* tcell.NewScreen: error text *)
  h_initscreen : N -> option string;          (* screen.Init: error text *)
  h_screensize : N -> Z * Z;
  h_events : N -> list screen_event;          (* what PollEvent delivers during one termGetKey, term.go:78-83; after these, nil *)
  h_upper : string -> string;                 (* strings.ToUpper on non-ASCII strings *)
  h_lower : string -> string;                 (* strings.ToLower on non-ASCII strings *)
  h_isdigit : string -> bool;                 (* unicode.IsDigit on a non-ASCII first rune *)
  h_width : string -> Z                       (* runewidth.RuneWidth, term.go:52 *)
}.

Record world : Type := MkWorld {
  w_frames : PositiveMap.t frame;
  w_next : positive;            (* next unused frame identifier *)
  w_gensym : N;                 (* gensymCounter, state.go:5 *)
  w_out : list event;           (* latest first *)
  w_stdin : list string;        (* what successive read(2) calls on stdin deliver *)
  w_tick : N;                   (* host calls made *)
  w_screen : bool;              (* screen != nil, term.go:10 *)
  w_host : host
}.

(** Content of frame [i]; an identifier never allocated denotes the empty map. *)
Definition frame_at (w : world) (i : positive) : frame :=
  match PositiveMap.find i (w_frames w) with Some f => f | None => [] end.

Definition set_frame (i : positive) (f : frame) (w : world) : world :=
  MkWorld (PositiveMap.add i f (w_frames w)) (w_next w) (w_gensym w) (w_out w)
          (w_stdin w) (w_tick w) (w_screen w) (w_host w).
Definition emit (ev : event) (w : world) : world :=
  MkWorld (w_frames w) (w_next w) (w_gensym w) (ev :: w_out w)
          (w_stdin w) (w_tick w) (w_screen w) (w_host w).
Definition tick (w : world) : world :=
  MkWorld (w_frames w) (w_next w) (w_gensym w) (w_out w)
          (w_stdin w) (N.succ (w_tick w)) (w_screen w) (w_host w).
Definition set_stdin (i : list string) (w : world) : world :=
  MkWorld (w_frames w) (w_next w) (w_gensym w) (w_out w)
          i (w_tick w) (w_screen w) (w_host w).
Definition set_screen (b : bool) (w : world) : world :=
  MkWorld (w_frames w) (w_next w) (w_gensym w) (w_out w)
          (w_stdin w) (w_tick w) b (w_host w).

(** ** Environments. *)

(** ( *Env).Lookup (env.go:34-42). *)
Fixpoint lookup (e : env) (s : string) (w : world) : option val :=
  match e with
  | [] => None
  | i :: parent =>
      match fget s (frame_at w i) with
      | Some v => Some v
      | None => lookup parent s w
      end
  end.

(** ( *Env).Set (env.go:45-51).  The empty chain is the nil pointer and does
    not occur. *)
Definition env_set (e : env) (s : string) (v : val) (w : world) : option err * world :=
  if String.eqb s "t" then (Some (base_error "cannot bind or set t"), w)
  else match e with
       | [] => (None, w)
       | i :: _ => (None, set_frame i (fset s v (frame_at w i)) w)
       end.

(** The outermost environment of a chain. *)
Fixpoint toplevel (e : env) : env :=
  match e with
  | [] => []
  | [i] => [i]
  | _ :: parent => toplevel parent
  end.

(** ( *Env).SetTopLevel (env.go:54-59). *)
Definition env_set_top (e : env) (s : string) (v : val) (w : world) : option err * world :=
  env_set (toplevel e) s v w.

(** ( *Env).Update (env.go:62-74). *)
Fixpoint env_update_loop (e : env) (s : string) (v : val) (w : world) : option err * world :=
  match e with
  | [] => (Some (base_error (s ++ " is not bound in any environment")), w)
  | i :: parent =>
      match fget s (frame_at w i) with
      | Some _ => (None, set_frame i (fset s v (frame_at w i)) w)
      | None => env_update_loop parent s v w
      end
  end.
Definition env_update (e : env) (s : string) (v : val) (w : world) : option err * world :=
  if String.eqb s "t" then (Some (base_error "cannot bind or set t"), w)
  else env_update_loop e s v w.

(** mkEnv (env.go:14-19). *)
Definition mk_env (parent : env) (w : world) : env * world :=
  let i := w_next w in
  (i :: parent,
   MkWorld (PositiveMap.add i [] (w_frames w)) (Pos.succ i) (w_gensym w) (w_out w)
           (w_stdin w) (w_tick w) (w_screen w) (w_host w)).

(** EnvKeys (env.go:22-31): own keys, then the parents' keys.  Simplification:
    within a frame the order is insertion order where Go's is random. *)
Fixpoint env_keys (e : env) (w : world) : list string :=
  match e with
  | [] => []
  | i :: parent => map fst (frame_at w i) ++ env_keys parent w
  end.

(** gensym (state.go:9-12). *)
Definition gensym (prefix : string) (w : world) : string * world :=
  let n := N.succ (w_gensym w) in
  (("<gensym" ++ prefix ++ "-" ++ N_to_dec n ++ ">")%string,
   MkWorld (w_frames w) (w_next w) n (w_out w)
           (w_stdin w) (w_tick w) (w_screen w) (w_host w)).

(** ** Standard input.

    ReadLine (builtin.go:38-48) makes a new [bufio.Reader] (buffer of 4096
    bytes) for every line, so whatever the reader had buffered beyond the first
    newline is lost.  [bufio.ReadLine] reads until the buffer holds a newline,
    is full, or the input ends. *)
Definition bufsize : nat := 4096.

Fixpoint has_lf (s : string) : bool :=
  match s with EmptyString => false | String c r => Ascii.eqb c ch_lf || has_lf r end.
(** Text before the first newline. *)
Fixpoint before_lf (s : string) : string :=
  match s with
  | EmptyString => EmptyString
  | String c r => if Ascii.eqb c ch_lf then EmptyString else String c (before_lf r)
  end.
(** Drop one trailing carriage return. *)
Fixpoint drop_cr (s : string) : string :=
  match s with
  | EmptyString => EmptyString
  | String c EmptyString => if Ascii.eqb c ch_cr then EmptyString else s
  | String c r => String c (drop_cr r)
  end.

Inductive line_result : Type := Line (s : string) | LineEOF.

Fixpoint read_line (acc : string) (chunks : list string) : line_result * list string :=
  if has_lf acc then (Line (drop_cr (before_lf acc)), chunks)
  else if (bufsize <=? String.length acc)%nat then (Line (drop_cr acc), chunks)
  else match chunks with
       | [] => (match acc with EmptyString => LineEOF | _ => Line acc end, [])
       | c :: rest =>
           let room := (bufsize - String.length acc)%nat in
           if (String.length c <=? room)%nat then read_line (acc ++ c) rest
           else (* the kernel keeps what does not fit *)
             let got := (acc ++ str_take room c)%string in
             if has_lf got then (Line (drop_cr (before_lf got)), str_drop room c :: rest)
             else (Line (drop_cr got), str_drop room c :: rest)
       end.

(** ** Initial state: InitGlobals (builtin.go:17-35). *)
Definition global_env : env := [1%positive].

Definition initial_bindings : frame :=
  [("SPACE", VAtom " "); ("NEWLINE", VAtom (str1 ch_lf)); ("TAB", VAtom (str1 ch_tab));
   ("BANG", VAtom "!"); ("QMARK", VAtom "?"); ("PERIOD", VAtom "."); ("COMMA", VAtom ",");
   ("COLON", VAtom ":"); ("HASH", VAtom "#"); ("ATSIGN", VAtom "@");
   ("CHECK", VAtom (String (chr 226) (String (chr 156) (str1 (chr 147)))));
   ("QUOTE", VAtom "'"); ("BQUOTE", VAtom "`"); ("DQUOTE", VAtom (str1 (chr 34)));
   ("UPLINE", VAtom (String (chr 27) "[F"))].

Definition init_world (h : host) (stdin : list string) : world :=
  MkWorld (PositiveMap.add 1%positive initial_bindings (PositiveMap.empty frame))
          2%positive 0%N [] stdin 0%N false h.
