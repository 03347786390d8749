(** * Syntax: S-expressions, printing, equality, errors. *)
From Verif.Model Require Import Base.

(** An [*Env] pointer (env.go:8-11) is represented by the chain of frame
    identifiers from the environment itself up to the global one: the first
    element names the environment's own [syms] map, the tail is [parent].
    [parent] is written only by [mkEnv] (env.go:14-19), so the chain of a
    pointer never changes; the mutable [syms] maps live in the world (World.v). *)
Definition env := list positive.

(** Built-in functions: one constructor for each key of the [builtins] map
    (builtin.go:206-1316). *)
Inductive builtin : Set :=
| BAdd | BSub | BMul | BDiv | BEq | BRem | BLt | BLe | BGt | BGe
| BApply | BAtomP | BBody | BCar | BCdr | BCons | BDoc | BDowncase | BEval | BExit
| BForms | BFuse | BGensym | BHelp | BIsqrt | BLen | BList | BListP | BLoad
| BMacroexpand1 | BNot | BNumberP | BPrint | BPrintln | BPrintl | BRandint | BReadlist
| BScreenStart | BScreenEnd | BScreenSize | BScreenClear | BScreenGetKey | BScreenWrite
| BShell | BShuffle | BSleep | BSort | BSortBy | BSource | BSplit | BUpcase | BVersion.

(** The dynamic types behind the [Sexpr] interface (lisp.go:11-14): [Atom]
    (atom.go:4-6), [Number] (math.go:9-11, a [big.Int], here a [Z]), [*ConsCell]
    (cons.go:4-7; [VNil] is the nil pointer [Nil], cons.go:17), [*lambdaFn]
    (lambda.go:7-14) and [*Builtin] (builtin.go:51-61).  Cons cells and lambdas
    are never mutated and never compared by address (except against nil), so
    they are modelled as immutable trees.  [lambdaFn.args] is always built by
    [stringsToList] (lambda.go:81, lisp.go:46), hence a list of names;
    [lbody]/[ldoc] are the [*ConsCell] fields. *)
Inductive val : Type :=
| VAtom (s : string)
| VNum (n : Z)
| VNil
| VCons (a d : val)
| VLam (largs : list string) (lrest : string) (lbody ldoc : val) (lmacro : bool) (lenv : env)
| VBuiltin (b : builtin).

(** builtin.go:206-1316, the [Name] fields / map keys. *)
Definition builtin_name (b : builtin) : string :=
  match b with
  | BAdd => "+" | BSub => "-" | BMul => "*" | BDiv => "/" | BEq => "=" | BRem => "rem"
  | BLt => "<" | BLe => "<=" | BGt => ">" | BGe => ">=" | BApply => "apply"
  | BAtomP => "atom?" | BBody => "body" | BCar => "car" | BCdr => "cdr" | BCons => "cons"
  | BDoc => "doc" | BDowncase => "downcase" | BEval => "eval" | BExit => "exit"
  | BForms => "forms" | BFuse => "fuse" | BGensym => "gensym" | BHelp => "help"
  | BIsqrt => "isqrt" | BLen => "len" | BList => "list" | BListP => "list?" | BLoad => "load"
  | BMacroexpand1 => "macroexpand-1" | BNot => "not" | BNumberP => "number?"
  | BPrint => "print" | BPrintln => "println" | BPrintl => "printl" | BRandint => "randint"
  | BReadlist => "readlist" | BScreenStart => "screen-start" | BScreenEnd => "screen-end"
  | BScreenSize => "screen-size" | BScreenClear => "screen-clear"
  | BScreenGetKey => "screen-get-key" | BScreenWrite => "screen-write" | BShell => "shell"
  | BShuffle => "shuffle" | BSleep => "sleep" | BSort => "sort" | BSortBy => "sort-by"
  | BSource => "source" | BSplit => "split" | BUpcase => "upcase" | BVersion => "version"
  end.

Definition all_builtins : list builtin :=
  [BAdd; BSub; BMul; BDiv; BEq; BRem; BLt; BLe; BGt; BGe;
   BApply; BAtomP; BBody; BCar; BCdr; BCons; BDoc; BDowncase; BEval; BExit;
   BForms; BFuse; BGensym; BHelp; BIsqrt; BLen; BList; BListP; BLoad;
   BMacroexpand1; BNot; BNumberP; BPrint; BPrintln; BPrintl; BRandint; BReadlist;
   BScreenStart; BScreenEnd; BScreenSize; BScreenClear; BScreenGetKey; BScreenWrite;
   BShell; BShuffle; BSleep; BSort; BSortBy; BSource; BSplit; BUpcase; BVersion].

(** [builtins[a.s]] (lisp.go:24). *)
Definition lookup_builtin (s : string) : option builtin :=
  find (fun b => String.eqb (builtin_name b) s) all_builtins.

(** [True] (atom.go:23). *)
Definition VT : val := VAtom "t".

(** [x == Nil] on an interface value. *)
Definition is_nil (v : val) : bool := match v with VNil => true | _ => false end.
(** the type assertion [x.( *ConsCell)] succeeds. *)
Definition is_conscell (v : val) : bool :=
  match v with VNil | VCons _ _ => true | _ => false end.
Definition truth (b : bool) : val := if b then VT else VNil.

(** mkListAsConsWithCdr (util.go:10-15). *)
Fixpoint list_with_cdr (xs : list val) (cdr : val) : val :=
  match xs with
  | [] => cdr
  | x :: r => VCons x (list_with_cdr r cdr)
  end.

(** list (util.go:56-59). *)
Definition vlist (xs : list val) : val := list_with_cdr xs VNil.

(** stringsToList (util.go:48-54). *)
Definition strings_to_list (ss : list string) : val := vlist (map VAtom ss).

(** consToExprs (util.go:17-28); [None] is the error on an improper list
    (the offending tail is what the message prints, see [improper_tail]). *)
Fixpoint cons_to_exprs (v : val) : option (list val) :=
  match v with
  | VNil => Some []
  | VCons a d => match cons_to_exprs d with Some l => Some (a :: l) | None => None end
  | _ => None
  end.
Fixpoint improper_tail (v : val) : val :=
  match v with
  | VCons _ d => improper_tail d
  | _ => v
  end.

(** ** String() methods. *)

(** (c *ConsCell) String (cons.go:19-37), Atom.String (atom.go:8-10),
    Number.String (math.go:14-16), ( *lambdaFn).String (lambda.go:95-103, with
    unwrapList of the argument list, util.go:66-69: names joined by spaces),
    Builtin.String (builtin.go:63-65). *)
Definition str_lambda (args : list string) (rest : string) : string :=
  "<lambda(" ++ join " " args
    ++ (if String.eqb rest "" then "" else " . " ++ rest) ++ ")>".

Fixpoint str (v : val) : string :=
  match v with
  | VAtom s => s
  | VNum n => Z_to_dec n
  | VNil => "()"
  | VLam args rest _ _ _ _ => str_lambda args rest
  | VBuiltin b => "<builtin: " ++ builtin_name b ++ ">"
  | VCons a d =>
      ("(" ++ str a ++
      (fix str_tail (d : val) : string :=
         match d with
         | VNil => ")"
         | VCons a' d' => " " ++ str a' ++ str_tail d'
         | _ => " . " ++ str d ++ ")"
         end) d)%string
  end.

(** unwrapList (util.go:66-69): drop the first and last byte. *)
Definition unwrap_list (v : val) : string := drop_last (drop_first (str v)).

(** ** Equal methods: Atom.Equal (atom.go:14-19), Number.Equal (math.go:59-64),
    ConsCell.Equal (cons.go:45-57), lambdaFn.Equal (lambda.go:105-107, always
    false), Builtin.Equal (builtin.go:74-79: the argument is tested against the
    value type [Builtin] while every built-in in circulation is a [*Builtin],
    so the test always fails). *)
Fixpoint val_equal (x y : val) : bool :=
  match x, y with
  | VAtom a, VAtom b => String.eqb a b
  | VNum a, VNum b => Z.eqb a b
  | VNil, VNil => true
  | VCons a d, VCons a' d' => val_equal a a' && val_equal d d'
  | _, _ => false
  end.

(** ** Errors (error.go).  A Go [error] is either a [*ConsCell] (cons.go:11-13)
    or an error of the Go library, kept as its text. *)
Inductive err : Type :=
| ECons (v : val)
| EGo (msg : string).

(** err.Error(). *)
Definition err_text (e : err) : string :=
  match e with ECons v => str v | EGo m => m end.

(** stringsToList(strings.Split(msg, " ")...) *)
Definition words (msg : string) : val := strings_to_list (split_on ch_sp msg).

(** extendWithList (error.go:8-14). *)
Definition extend_with (l : val) (e : err) : err :=
  match e with ECons v => ECons (VCons l v) | EGo _ => e end.
(** extendError (error.go:16-18). *)
Definition extend (msg : string) (e : err) : err := extend_with (words msg) e.
(** baseError / baseErrorf (error.go:24-31), startStacktrace (error.go:20-22). *)
Definition base_error (msg : string) : err := ECons (VCons (words msg) VNil).

(** fmt.Sprintf fragments on S-expressions: %s and %q. *)
Definition sq_ (v : val) : string := "'" ++ str v ++ "'".
Definition dq_ (v : val) : string := go_quote (str v).

(** ** Outcomes of a Go call that returns (A, error).
    [Ok] and [Er] are the two normal returns.  [Panicked] is a run-time panic or
    fatal error: nothing in /repo recovers, so the process dies.  [Exited] is
    os.Exit(code).  [Overflow] is exhaustion of the Go stack (also fatal), and
    [OutOfFuel] is the model's own step budget running out (no counterpart in
    Go: the call has not returned yet). *)
Inductive outcome (A : Type) : Type :=
| Ok (a : A)
| Er (e : err)
| Panicked (why : string)
| Exited (code : Z)
| Overflow
| OutOfFuel.
Arguments Ok {A} a.
Arguments Er {A} e.
Arguments Panicked {A} why.
Arguments Exited {A} code.
Arguments Overflow {A}.
Arguments OutOfFuel {A}.
