(** * Prog: the shape of a Go computation of the interpreter.

    A Go function of /repo/lisp is modelled by a program tree [prog]: it
    returns, fails with an error, panics, exits the process, performs a
    primitive operation on the world, or calls one of the recursive entry
    points ([call]) and continues with its result or its error.  The tree makes
    the recursion explicit, so that properties of executions can be proved
    once, by induction on the tree, for all the code. *)
From Verif.Model Require Import Base Syntax World Lex.

(** ** Primitive operations and their result types. *)
Inductive op : Type -> Type :=
| OLookup (e : env) (s : string) : op (option val)
| OSet (e : env) (s : string) (v : val) : op (option err)
| OSetTop (e : env) (s : string) (v : val) : op (option err)
| OUpdate (e : env) (s : string) (v : val) : op (option err)
| OMkEnv (parent : env) : op env
| OKeys (e : env) : op (list string)
| OGensym (prefix : string) : op string
| OEmit (ev : event) : op unit
| OReadLine : op line_result
| ORand (bound : Z) : op Z
| OReadFile (name : string) : op (string + string)
| OShell (argv : list string) : op shell_result
| OScreen : op bool                      (* screen != nil *)
| OSetScreen (b : bool) : op unit
| ONewScreen : op (option string)
| OInitScreen : op (option string)
| OScreenSize : op (Z * Z)
| OEvents : op (list screen_event)
| OUpper (s : string) : op string
| OLower (s : string) : op string
| OIsDigit (s : string) : op bool
| OWidth (r : string) : op Z.

Definition exec {B} (o : op B) (w : world) : B * world :=
  match o with
  | OLookup e s => (lookup e s w, w)
  | OSet e s v => env_set e s v w
  | OSetTop e s v => env_set_top e s v w
  | OUpdate e s v => env_update e s v w
  | OMkEnv p => mk_env p w
  | OKeys e => (env_keys e w, w)
  | OGensym p => gensym p w
  | OEmit ev => (tt, emit ev w)
  | OReadLine => let (r, rest) := read_line EmptyString (w_stdin w) in (r, set_stdin rest w)
  | ORand b => ((h_rand (w_host w) (w_tick w) b mod b)%Z, tick w)
  | OReadFile n => (h_readfile (w_host w) (w_tick w) n, tick w)
  | OShell argv => (h_shell (w_host w) (w_tick w) argv, tick (emit (Ran argv) w))
  | OScreen => (w_screen w, w)
  | OSetScreen b => (tt, set_screen b w)
  | ONewScreen => (h_newscreen (w_host w) (w_tick w), tick w)
  | OInitScreen => (h_initscreen (w_host w) (w_tick w), tick w)
  | OScreenSize => (h_screensize (w_host w) (w_tick w), tick w)
  | OEvents => (h_events (w_host w) (w_tick w), tick w)
  | OUpper s => (if is_ascii_str s then str_map up_ch s else h_upper (w_host w) s, w)
  | OLower s => (if is_ascii_str s then str_map low_ch s else h_lower (w_host w) s, w)
  | OIsDigit s =>
      (match s with
       | EmptyString => false
       | String c _ => if (byte c <? 128)%N then is_digit_ch c
                       else h_isdigit (w_host w) (fst (first_rune s))
       end, w)
  | OWidth r => (h_width (w_host w) r, w)
  end.

(** ** The recursive entry points. *)
Inductive call : Type :=
| CEval (x : val) (e : env)                          (* eval, lisp.go:375 *)
| CExpand (x : val) (e : env)                        (* macroexpand, lisp.go:275 *)
| CLoop (body : val) (e : env)                       (* the body of `loop`, lisp.go:490-503 *)
| CBuiltin (b : builtin) (args : list val) (e : env) (* builtin.Fn(args, e), lisp.go:717 *)
| CRepl (toks : list token) (fresh : bool) (e : env). (* repl, main.go:13-47 *)

Inductive prog (A : Type) : Type :=
| Ret (a : A)
| Raise (er : err)
| Panic (why : string)
| Exit (code : Z)
| Op {B : Type} (o : op B) (k : B -> prog A)
| Sub (c : call) (k : val -> prog A) (h : err -> prog A).
Arguments Ret {A} a.
Arguments Raise {A} er.
Arguments Panic {A} why.
Arguments Exit {A} code.
Arguments Op {A B} o k.
Arguments Sub {A} c k h.

(** How a call ends: with a value, or by jumping back to the top of an entry
    point with new arguments (the [goto top] statements of lisp.go), which does
    not use Go stack. *)
Inductive tres : Type := TVal (v : val) | TTail (c : call).

Fixpoint bind {A B} (p : prog A) (f : A -> prog B) : prog B :=
  match p with
  | Ret a => f a
  | Raise e => Raise e
  | Panic s => Panic s
  | Exit c => Exit c
  | Op o k => Op o (fun b => bind (k b) f)
  | Sub c k h => Sub c (fun v => bind (k v) f) (fun e => bind (h e) f)
  end.

(** Rewrite the error a program returns ([if err != nil { return f(err) }]). *)
Fixpoint map_err {A} (f : err -> err) (p : prog A) : prog A :=
  match p with
  | Ret a => Ret a
  | Raise e => Raise (f e)
  | Panic s => Panic s
  | Exit c => Exit c
  | Op o k => Op o (fun b => map_err f (k b))
  | Sub c k h => Sub c (fun v => map_err f (k v)) (fun e => map_err f (h e))
  end.

(** Keep the error as a value ([_, err := f()] with the error not returned). *)
Fixpoint attempt {A} (p : prog A) : prog (A + err) :=
  match p with
  | Ret a => Ret (inl a)
  | Raise e => Ret (inr e)
  | Panic s => Panic s
  | Exit c => Exit c
  | Op o k => Op o (fun b => attempt (k b))
  | Sub c k h => Sub c (fun v => attempt (k v)) (fun e => attempt (h e))
  end.

Declare Scope prog_scope.
Delimit Scope prog_scope with prog.
Notation "x <- p ;; q" := (bind p (fun x => q))
  (at level 61, p at next level, right associativity) : prog_scope.
Notation "p ;;; q" := (bind p (fun _ => q)) (at level 61, right associativity) : prog_scope.

Definition do {B} (o : op B) : prog B := Op o Ret.
(** eval with the error passed through [f]. *)
Definition ev_wrap (f : err -> err) (x : val) (e : env) : prog val :=
  Sub (CEval x e) Ret (fun er => Raise (f er)).
(** An operation whose Go result is an error or nil. *)
Definition checked (f : err -> err) (o : op (option err)) : prog unit :=
  Op o (fun r => match r with Some er => Raise (f er) | None => Ret tt end).
Definition val_ (p : prog val) : prog tres := bind p (fun v => Ret (TVal v)).
Definition idE (e : err) : err := e.

(** ** Running. *)

(** Go stack available: [Inf] is an unlimited stack, [Fin n] room for [n] more
    nested calls.  Simplification: one unit per nested entry-point call; the
    real size of Go frames and the stack used by helper recursions (String,
    Equal, Parse, list construction, Lookup) are not modelled. *)
Inductive depth : Type := Inf | Fin (n : nat).
Definition deeper (d : depth) : option depth :=
  match d with
  | Inf => Some Inf
  | Fin O => None
  | Fin (S n) => Some (Fin n)
  end.

Definition recast {A B} (r : outcome A) (ok : A -> outcome B) : outcome B :=
  match r with
  | Ok a => ok a
  | Er e => Er e
  | Panicked s => Panicked s
  | Exited c => Exited c
  | Overflow => Overflow
  | OutOfFuel => OutOfFuel
  end.

Fixpoint interp {A} (sub : call -> world -> outcome val * world) (p : prog A) (w : world)
  : outcome A * world :=
  match p with
  | Ret a => (Ok a, w)
  | Raise e => (Er e, w)
  | Panic s => (Panicked s, w)
  | Exit c => (Exited c, w)
  | Op o k => let (b, w') := exec o w in interp sub (k b) w'
  | Sub c k h =>
      match sub c w with
      | (Ok v, w') => interp sub (k v) w'
      | (Er e, w') => interp sub (h e) w'
      | (r, w') => (recast r (fun _ => OutOfFuel), w')
      end
  end.

Section Run.
  Variable step : call -> prog tres.

  Fixpoint run (fuel : nat) (d : depth) (c : call) (w : world) {struct fuel}
    : outcome val * world :=
    match fuel with
    | O => (OutOfFuel, w)
    | S f =>
        let sub c' w' :=
          match deeper d with
          | Some d' => run f d' c' w'
          | None => (Overflow, w')
          end in
        match interp sub (step c) w with
        | (Ok (TVal v), w') => (Ok v, w')
        | (Ok (TTail c'), w') => run f d c' w'
        | (r, w') => (recast r (fun _ => OutOfFuel), w')
        end
    end.

  (** What a nested call sees. *)
  Definition subcall (fuel : nat) (d : depth) (c : call) (w : world) : outcome val * world :=
    match deeper d with
    | Some d' => run fuel d' c w
    | None => (Overflow, w)
    end.
End Run.
