(** * Eval: special forms, macros, function application (lisp.go, lambda.go). *)
From Verif.Model Require Import Base Syntax World Prog Lex Parse Meta.
Open Scope prog_scope.

(** A failed Go type assertion on an interface value. *)
Definition cast_panic {A} : prog A := Panic "interface conversion".
(** Dereferencing a nil [*ConsCell]. *)
Definition nil_panic {A} : prog A := Panic "nil pointer dereference".
Definition fail {A} (msg : string) : prog A := Raise (base_error msg).

(** ** cxr functions *)

(** isCxr (lisp.go:32-36): the regexp ^c([ad]+)r$ and not car or cdr. *)
Fixpoint cxr_tail (s : string) : bool :=
  match s with
  | String c EmptyString => Ascii.eqb c "r"%char
  | String c r => (Ascii.eqb c "a"%char || Ascii.eqb c "d"%char) && cxr_tail r
  | EmptyString => false
  end.
Definition is_cxr (s : string) : bool :=
  match s with
  | String c (String a r) =>
      Ascii.eqb c "c"%char && (Ascii.eqb a "a"%char || Ascii.eqb a "d"%char) && cxr_tail r
      && negb (String.eqb s "car") && negb (String.eqb s "cdr")
  | _ => false
  end.

(** The letters strictly between the first and the last byte, last first
    (extractCxrLambda, lisp.go:39-44). *)
Fixpoint cxr_path (acc : val) (s : string) : val :=
  match s with
  | EmptyString => acc
  | String _ EmptyString => acc
  | String c r => cxr_path (VCons (VAtom (str1 c)) acc) r
  end.
(** extractCxrLambda (lisp.go:38-52). *)
Definition cxr_lambda (s : string) (e : env) : val :=
  VLam ["xs"] ""
    (vlist [vlist [VAtom "c*r"; vlist [VAtom "quote"; cxr_path VNil (drop_first s)]; VAtom "xs"]])
    VNil false e.

(** evAtom (lisp.go:16-29). *)
Definition ev_atom (s : string) (e : env) : prog val :=
  if String.eqb s "t" then Ret VT
  else Op (OLookup e s) (fun r =>
    match r with
    | Some v => Ret v
    | None => match lookup_builtin s with
              | Some b => Ret (VBuiltin b)
              | None => fail ("unknown symbol: " ++ s)
              end
    end).

(** ** Lambdas *)

(** The argument-list loop of mkLambda (lambda.go:37-62): argument names, the
    rest argument ("" if none), or an error. *)
Fixpoint lambda_args (l : val) : err + (list string * string) :=
  match l with
  | VCons VNil d =>
      (* () in the list: the loop stops after this element *)
      match d with
      | VAtom r =>
          if String.eqb r "" then inl (base_error "lambda with () argument requires a rest argument")
          else inr ([], r)
      | VNil | VCons _ _ => inl (base_error "lambda with () argument requires a rest argument")
      | _ => inl (base_error "unknown type in lambda arg list")
      end
  | VCons (VAtom a) d =>
      match d with
      | VAtom r => inr ([a], r)
      | VNil | VCons _ _ =>
          match lambda_args d with
          | inl er => inl er
          | inr (args, rest) => inr (a :: args, rest)
          end
      | _ => inl (base_error "unknown type in lambda arg list")
      end
  | VCons _ _ => inl (base_error "argument list item is not an atom")
  | _ => inr ([], "")
  end.

(** The `doc` form at the head of a body (lambda.go:63-79): the saved doc and
    the remaining body. [None] is the error, [Some None] a panic. *)
Inductive docsplit : Type := DocOk (doc body : val) | DocErr (e : err) | DocPanic.
Definition split_doc (body : val) : docsplit :=
  match body with
  | VCons (VCons h t) rest =>
      if val_equal h (VAtom "doc") then
        if is_conscell t then
          let doc := match t with
                     | VCons a _ => if is_nil a then VNil else t
                     | _ => VNil
                     end in
          if is_conscell rest then DocOk doc rest else DocPanic
        else DocErr (base_error "doc form is not a list")
      else DocOk VNil body
  | _ => DocOk VNil body
  end.

(** mkLambda after the optional name (lambda.go:30-92). *)
Definition mk_lambda_rest (name : string) (cdr : val) (macro : bool) (e : env) : prog val :=
  match cdr with
  | VCons arglist rest =>
      if is_conscell arglist then
        match lambda_args arglist with
        | inl er => Raise er
        | inr (args, restarg) =>
            if is_conscell rest then
              match split_doc rest with
              | DocErr er => Raise er
              | DocPanic => cast_panic
              | DocOk doc body =>
                  let f := VLam args restarg body doc macro e in
                  if String.eqb name "" then Ret f
                  else Op (OSet e name f) (fun _ => Ret f)
              end
            else cast_panic
        end
      else fail "lambda requires an argument list"
  | _ => fail "missing arguments"
  end.

(** mkLambda (lambda.go:18-93). *)
Definition mk_lambda (cdr : val) (macro : bool) (e : env) : prog val :=
  match cdr with
  | VCons (VAtom name) d =>
      if is_conscell d then mk_lambda_rest name d macro e else cast_panic
  | VCons _ _ => mk_lambda_rest "" cdr macro e
  | _ => fail "missing arguments"
  end.

(** The binding loop of setLambdaArgsInEnv (lisp.go:193-210). *)
Fixpoint bind_params (e : env) (names : list string) (vals : list val) : prog unit :=
  match names, vals with
  | n :: ns, v :: vs =>
      checked (extend "setting lambda arg") (OSet e n v) ;;; bind_params e ns vs
  | _, _ => Ret tt
  end.

(** setLambdaArgsInEnv (lisp.go:170-211). *)
Definition set_lambda_args (e : env) (args : list string) (rest : string) (vals : list val)
  : prog unit :=
  let n := length args in
  if negb (String.eqb rest "") then
    if (length vals <? n)%nat then fail "not enough arguments for function"
    else checked idE (OSet e rest (vlist (skipn n vals))) ;;; bind_params e args vals
  else if (n <? length vals)%nat then fail "too many arguments for function"
  else if (length vals <? n)%nat then fail "not enough arguments for function"
  else bind_params e args vals.

(** ** Macros *)

(** isMacroCall (lisp.go:213-234): the macro if the expression is a call of one. *)
Definition macro_of (x : val) (e : env) : prog (option val) :=
  match x with
  | VCons (VAtom s) _ =>
      Op (OLookup e s) (fun r =>
        match r with
        | Some (VLam a r b d true l) => Ret (Some (VLam a r b d true l))
        | _ => Ret None
        end)
  | _ => Ret None
  end.

(** The body loop of macroexpand1 (lisp.go:257-272). *)
Fixpoint macro_body (body : val) (ret : val) (e : env) : prog val :=
  match body with
  | VNil => Ret ret
  | VCons x d =>
      v <- ev_wrap (extend "evaluating macro expansion") x e ;;
      macro_body d v e
  | _ => fail "macro body must be a list"
  end.

Definition expected_list (v : val) : err := base_error ("expected list, got " ++ dq_ (improper_tail v)).

(** macroexpand1 (lisp.go:236-273).  The expansion is computed in a new frame
    whose parent is the caller's environment [e]. *)
Definition macroexpand1 (x : val) (e : env) : prog val :=
  m <- macro_of x e ;;
  match m, x with
  | Some (VLam args rest body _ _ _), VCons _ cdr =>
      match cons_to_exprs cdr with
      | None => Raise (extend "converting macro call to list" (expected_list cdr))
      | Some actuals =>
          Op (OMkEnv e) (fun ne =>
            map_err (extend "setting macro call arguments") (set_lambda_args ne args rest actuals) ;;;
            macro_body body VNil ne)
      end
  | _, _ => Ret x
  end.

(** macroexpand (lisp.go:275-287). *)
Definition step_expand (x : val) (e : env) : prog tres :=
  r <- map_err (extend "macroexpanson") (macroexpand1 x e) ;;
  m <- macro_of r e ;;
  match m with
  | Some _ => Ret (TTail (CExpand r e))
  | None => Ret (TVal r)
  end.

(** ** Syntax quote (lisp.go:289-342) *)

(** listStartsWith (lisp.go:289-298). *)
Definition starts_with (v : val) (s : string) : bool :=
  match v with VCons (VAtom a) _ => String.eqb a s | _ => false end.

(** syntaxQuote (lisp.go:326-342) and splicingUnquote (lisp.go:303-324); [None]
    is a panic: an unquote form whose argument is missing or not a list. *)
Definition second_of (v : val) : option val :=
  match v with VCons _ (VCons a _) => Some a | _ => None end.

Fixpoint syntax_quote (x : val) : option val :=
  match x with
  | VAtom _ | VNum _ => Some (vlist [VAtom "quote"; x])
  | VNil => Some VNil
  | VCons a d =>
      if starts_with x "unquote" then second_of x
      else (fix splice (l : val) : option val :=
              match l with
              | VCons elt cdr =>
                  if is_conscell cdr then
                    match splice cdr with
                    | None => None
                    | Some nxt =>
                        if starts_with elt "splicing-unquote" then
                          match second_of elt with
                          | Some arg => Some (vlist [VAtom "concat2"; arg; nxt])
                          | None => None
                          end
                        else match syntax_quote elt with
                             | Some q => Some (vlist [VAtom "cons"; q; nxt])
                             | None => None
                             end
                    end
                  else Some l
              | _ => Some VNil
              end) x
  | _ => Some x
  end.

(** ** Special forms *)

Inductive sform : Set :=
| SQuote | SSyntaxQuote | STest | SCond | SAnd | SOr | SLoop | SSwallow | SDef | SSet
| SDefn | SDefmacro | SError | SErrors | STry | SLet | SLambda.

(** The [case] labels of the switch in eval (lisp.go:403-660). *)
Definition sform_of (s : string) : option sform :=
  if String.eqb s "quote" then Some SQuote
  else if String.eqb s "syntax-quote" then Some SSyntaxQuote
  else if String.eqb s "test" then Some STest
  else if String.eqb s "cond" then Some SCond
  else if String.eqb s "and" then Some SAnd
  else if String.eqb s "or" then Some SOr
  else if String.eqb s "loop" then Some SLoop
  else if String.eqb s "swallow" then Some SSwallow
  else if String.eqb s "def" then Some SDef
  else if String.eqb s "set!" then Some SSet
  else if String.eqb s "defn" then Some SDefn
  else if String.eqb s "defmacro" then Some SDefmacro
  else if String.eqb s "error" then Some SError
  else if String.eqb s "errors" then Some SErrors
  else if String.eqb s "try" then Some STry
  else if String.eqb s "let" then Some SLet
  else if String.eqb s "lambda" then Some SLambda
  else None.

Definition print (s : string) : prog unit := do (OEmit (Printed s)).

(** The loop of evalTest (lisp.go:358-372). *)
Fixpoint test_loop (l : val) (e : env) : prog val :=
  match l with
  | VNil => print (String (chr 226) (String (chr 156) (String (chr 147) (str1 ch_lf)))) ;;; Ret VNil
  | VCons x d =>
      _ <- ev_wrap (extend ("evaluating test " ++ str x)) x e ;;
      print "." ;;;
      test_loop d e
  | _ => fail "test body must be a list"
  end.
(** evalTest (lisp.go:344-373). *)
Definition ev_test (body : val) (e : env) : prog val :=
  match body with
  | VCons desc d =>
      v <- ev_wrap (extend "evaluating test description") desc e ;;
      print ("TEST " ++ str v ++ " ") ;;;
      test_loop d e
  | _ => Ret VNil
  end.

(** cond (lisp.go:421-449). *)
Fixpoint cond_loop (l : val) (e : env) : prog tres :=
  match l with
  | VNil => Ret (TVal VNil)
  | VCons clause rest =>
      match clause with
      | VCons test body =>
          v <- ev_wrap (extend "evaluating cond condition") test e ;;
          if is_nil v then cond_loop rest e
          else match body with
               | VCons x _ => Ret (TTail (CEval x e))
               | _ => fail "cond requires a list of pairs"
               end
      | _ => fail "cond requires a list of pairs"
      end
  | _ => cast_panic
  end.

(** and (lisp.go:451-468). *)
Fixpoint and_loop (l : val) (e : env) : prog val :=
  match l with
  | VNil => Ret VT
  | VCons x d =>
      v <- ev_wrap (extend "and operator") x e ;;
      if is_nil v then Ret VNil else and_loop d e
  | _ => fail "and requires a list of expressions"
  end.

(** or (lisp.go:470-487). *)
Fixpoint or_loop (l : val) (e : env) : prog val :=
  match l with
  | VNil => Ret VNil
  | VCons x d =>
      v <- ev_wrap (extend "or operator") x e ;;
      if is_nil v then or_loop d e else Ret v
  | _ => fail "or requires a list of expressions"
  end.

(** One round of loop (lisp.go:491-502). *)
Fixpoint loop_body (l : val) (e : env) : prog unit :=
  match l with
  | VNil => Ret tt
  | VCons x d => _ <- ev_wrap (extend "loop operator") x e ;; loop_body d e
  | _ => cast_panic
  end.
(** loop (lisp.go:488-503). *)
Definition step_loop (body : val) (e : env) : prog tres :=
  loop_body body e ;;; Ret (TTail (CLoop body e)).

(** swallow (lisp.go:504-515). *)
Fixpoint swallow_loop (l : val) (e : env) : prog val :=
  match l with
  | VNil => Ret VNil
  | VCons x d => Sub (CEval x e) (fun _ => swallow_loop d e) (fun _ => Ret VT)
  | _ => cast_panic
  end.

(** evDef (lisp.go:54-76). *)
Definition ev_def (args : val) (e : env) : prog val :=
  match args with
  | VCons (VAtom name) d =>
      match d with
      | VCons x _ =>
          v <- ev_wrap (extend "evaluating def value") x e ;;
          checked (extend "setting def result") (OSetTop e name v) ;;;
          Ret v
      | _ => fail "missing argument"
      end
  | VCons _ _ => fail "def: first argument must be an atom"
  | _ => fail "missing argument"
  end.

(** evSet (lisp.go:78-103). *)
Definition ev_set (args : val) (e : env) : prog val :=
  match args with
  | VCons VNil _ => fail "set!: first argument cannot be nil!"
  | VCons (VAtom name) d =>
      match d with
      | VCons x _ =>
          v <- ev_wrap (extend "evaluating set value") x e ;;
          checked (extend "updating set result") (OUpdate e name v) ;;;
          Ret v
      | _ => fail "missing argument"
      end
  | VCons _ _ => fail "set!: first argument must be an atom"
  | _ => fail "missing argument"
  end.

(** evDefn (lisp.go:105-131). *)
Definition ev_defn (args : val) (macro : bool) (e : env) : prog val :=
  let pre := if macro then "defmacro" else "defn" in
  match args with
  | VCons (VAtom name) d =>
      match d with
      | VCons _ _ =>
          f <- map_err (extend "creating lambda function") (mk_lambda d macro e) ;;
          checked (extend "setting defn result") (OSetTop e name f) ;;;
          Ret VNil
      | VNil => fail (pre ++ " requires an argument list")
      | _ => cast_panic
      end
  | VCons _ _ => fail (pre ++ " name must be an atom")
  | _ => fail (pre ++ " requires a function name")
  end.

(** error (lisp.go:524-532). *)
Definition ev_error (args : val) (e : env) : prog val :=
  match args with
  | VCons x _ =>
      v <- ev_wrap (extend "error operator") x e ;;
      Raise (ECons (VCons v VNil))
  | _ => fail "error requires a non-empty argument list"
  end.

(** The loop of evErrors (lisp.go:151-165). *)
Fixpoint errors_loop (sig : string) (all l : val) (e : env) : prog val :=
  match l with
  | VNil => fail ("error not found in " ++ str all)
  | VCons x d =>
      Sub (CEval x e) (fun _ => errors_loop sig all d e)
        (fun er => if contains (err_text er) sig then Ret VNil
                   else fail ("error '" ++ sig ++ "' not found in '" ++ err_text er ++ "'"))
  | _ => cast_panic
  end.
(** evErrors (lisp.go:133-166). *)
Definition ev_errors (args : val) (e : env) : prog val :=
  match args with
  | VCons sigx d =>
      if is_conscell sigx then
        sig <- ev_wrap (extend "evaluating error signature") sigx e ;;
        if is_conscell sig then
          if is_conscell d then errors_loop (unwrap_list sig) args d e else cast_panic
        else fail "error signature must be a list"
      else fail "error signature must be a list"
  | _ => fail "no error spec given"
  end.

Definition catch_msg : string := "catch body must be a list with a binding name".

(** The body of a catch clause (lisp.go:571-583). *)
Fixpoint catch_body (l : val) (ret : val) (e : env) : prog val :=
  match l with
  | VNil => Ret ret
  | VCons x d => v <- ev_wrap (extend "catch body") x e ;; catch_body d v e
  | _ => fail catch_msg
  end.
(** A catch clause reached with an error (lisp.go:550-583); [clause] is the
    list after the symbol catch. *)
Definition ev_catch (clause : val) (er : err) (ret : val) (e : env) : prog val :=
  match clause with
  | VCons (VAtom name) body =>
      Op (OMkEnv e) (fun ne =>
        match er with
        | EGo _ => fail catch_msg
        | ECons l =>
            Op (OSet ne name l) (fun _ =>
              if is_conscell body then catch_body body ret ne else fail catch_msg)
        end)
  | VCons _ _ => fail "catch binding name must be a symbol"
  | VNil => nil_panic
  | _ => fail catch_msg
  end.

(** try (lisp.go:535-599).  [ret] is the last value, [er] the error if there
    was one. *)
Fixpoint try_loop (l : val) (ret : val) (er : option err) (e : env) : prog val :=
  let finish := match er with Some x => Raise x | None => Ret ret end in
  match l with
  | VNil => finish
  | VCons x d =>
      let go_on :=
        match er with
        | Some _ => try_loop d ret er e
        | None => Sub (CEval x e) (fun v => try_loop d v None e)
                                  (fun er' => try_loop d ret (Some er') e)
        end in
      match x with
      | VCons (VAtom s) clause =>
          if String.eqb s "catch" then
            match er with
            | None => Ret ret
            | Some er' => ev_catch clause er' ret e
            end
          else go_on
      | _ => go_on
      end
  | _ => fail "try requires a list of expressions"
  end.

(** A sequence of body expressions with a tail call on the last one: let
    (lisp.go:640-657) and function bodies (lisp.go:691-710). *)
Fixpoint body_loop (wrap : val -> err -> err) (l : val) (ret : val) (e : env) : prog tres :=
  match l with
  | VNil => Ret (TVal ret)
  | VCons x VNil => Ret (TTail (CEval x e))
  | VCons x d => v <- ev_wrap (wrap x) x e ;; body_loop wrap d v e
  | _ => cast_panic
  end.

Definition bad_binding {A} : prog A := fail "a let binding must be a list of binding pairs".

(** The bindings of let (lisp.go:614-638): each value is evaluated in the outer
    environment [e] and stored in [ne].  Returns [false] when a binding has no
    value, in which case the whole let returns () (lisp.go:627-629). *)
Fixpoint let_bindings (l : val) (e ne : env) : prog bool :=
  match l with
  | VNil => Ret true
  | VCons b rest =>
      match b with
      | VCons (VAtom name) d =>
          match d with
          | VNil => Ret false
          | VCons x _ =>
              v <- ev_wrap (extend "evaluating let bindings") x e ;;
              checked (extend "setting let bindings") (OSet ne name v) ;;;
              let_bindings rest e ne
          | _ => bad_binding
          end
      | _ => bad_binding
      end
  | _ => cast_panic
  end.

(** let (lisp.go:600-657). *)
Definition ev_let (args : val) (e : env) : prog tres :=
  match args with
  | VCons bindings body =>
      if is_conscell bindings then
        if is_conscell body then
          Op (OMkEnv e) (fun ne =>
            go <- let_bindings bindings e ne ;;
            if (go : bool) then body_loop (fun _ => extend "evaluating let body") body VNil ne
            else Ret (TVal VNil))
        else fail "let requires a body"
      else fail "let bindings must be a list"
  | _ => fail "let requires a binding list"
  end.

(** quote (lisp.go:404-408). *)
Definition ev_quote (args : val) : prog val :=
  match args with VCons x _ => Ret x | _ => fail "quote needs an argument" end.

(** syntax-quote (lisp.go:409-414). *)
Definition ev_syntax_quote (args : val) (e : env) : prog tres :=
  match args with
  | VCons x _ =>
      match syntax_quote x with
      | Some y => Ret (TTail (CEval y e))
      | None => cast_panic
      end
  | _ => fail "syntax-quote needs an argument"
  end.

Definition special (f : sform) (args : val) (e : env) : prog tres :=
  match f with
  | SQuote => val_ (ev_quote args)
  | SSyntaxQuote => ev_syntax_quote args e
  | STest => val_ (map_err (extend "test") (ev_test args e))
  | SCond => cond_loop args e
  | SAnd => val_ (and_loop args e)
  | SOr => val_ (or_loop args e)
  | SLoop => Ret (TTail (CLoop args e))
  | SSwallow => val_ (swallow_loop args e)
  | SDef => val_ (ev_def args e)
  | SSet => val_ (ev_set args e)
  | SDefn => val_ (ev_defn args false e)
  | SDefmacro => val_ (ev_defn args true e)
  | SError => val_ (ev_error args e)
  | SErrors => val_ (ev_errors args e)
  | STry => val_ (try_loop args VNil None e)
  | SLet => ev_let args e
  | SLambda => val_ (mk_lambda args false e)
  end.

(** ** Function application (lisp.go:662-722) *)

(** Argument evaluation (lisp.go:669-681), left to right. *)
Fixpoint ev_args (l : val) (e : env) : prog (list val) :=
  match l with
  | VNil => Ret []
  | VCons x d =>
      v <- ev_wrap (extend "evaluating function arguments") x e ;;
      vs <- ev_args d e ;;
      Ret (v :: vs)
  | _ => cast_panic
  end.

Definition lambda_wrap (x : val) : err -> err := extend_with (vlist [VAtom "lambda"; x]).

(** Call of an evaluated function on evaluated arguments (lisp.go:682-722). *)
Definition call_fn (f : val) (args : list val) (e : env) : prog tres :=
  match f with
  | VLam params rest body _ _ lenv =>
      Op (OMkEnv lenv) (fun ne =>
        map_err (extend "lambda env setup") (set_lambda_args ne params rest args) ;;;
        body_loop lambda_wrap body VNil ne)
  | VBuiltin b =>
      Sub (CBuiltin b args e) (fun v => Ret (TVal v))
        (fun er => Raise (extend ("builtin function " ++ builtin_name b) er))
  | _ => fail (str f ++ " is not a function")
  end.

Definition ev_call (f args : val) (e : env) : prog tres :=
  fv <- ev_wrap (extend "evaluating function object") f e ;;
  vs <- ev_args args e ;;
  call_fn fv vs e.

(** eval after macro expansion (lisp.go:385-725). *)
Definition dispatch (x : val) (e : env) : prog tres :=
  match x with
  | VAtom s => if is_cxr s then Ret (TVal (cxr_lambda s e)) else val_ (ev_atom s e)
  | VNum _ => Ret (TVal x)
  | VNil => Ret (TVal VNil)
  | VCons f args =>
      if is_conscell args then
        match f with
        | VAtom s =>
            match sform_of s with
            | Some sf => special sf args e
            | None => ev_call f args e
            end
        | _ => ev_call f args e
        end
      else fail "malformed list for eval"
  | _ => fail ("unknown expression type: " ++ dq_ x)
  end.

(** eval (lisp.go:375-726). *)
Definition step_eval (x : val) (e : env) : prog tres :=
  m <- macro_of x e ;;
  match m with
  | Some _ =>
      Sub (CExpand x e) (fun x' => dispatch x' e)
        (fun er => Raise (extend "eval macroexpansion" er))
  | None => dispatch x e
  end.

(** EvalExprs (lisp.go:729-743). *)
Fixpoint eval_exprs (xs : list val) (e : env) (do_print : bool) : prog unit :=
  match xs with
  | [] => Ret tt
  | x :: r =>
      Sub (CEval x e)
        (fun v => (if do_print then print (str v ++ str1 ch_lf) else Ret tt) ;;; eval_exprs r e do_print)
        (fun er => (if do_print then print ("ERROR:" ++ str1 ch_lf ++ err_text er ++ str1 ch_lf)
                    else Ret tt) ;;; Raise er)
  end.

(** A parser result as a program. *)
Definition parsed {A} (r : presult A) (k : A -> prog val) : prog val :=
  match r with
  | POk a => k a
  | PErr er => Raise er
  | PPanic => Panic "index out of range"
  | PFuel => Panic "model: parser fuel"
  end.

(** LexParseEval (lisp.go:746-752). *)
Definition lex_parse_eval (s : string) (e : env) : prog val :=
  parsed (lex_and_parse (split_on ch_lf s)) (fun xs => eval_exprs xs e false ;;; Ret VNil).

(** LoadFile (builtin.go:159-169). *)
Definition load_file (e : env) (name : string) : prog val :=
  Op (OReadFile name) (fun r =>
    match r with
    | inl msg => Raise (EGo msg)
    | inr text => lex_parse_eval text e
    end).
