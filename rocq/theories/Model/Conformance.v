(** * Conformance: the model run on the project's own test tables.

    Generated from /repo/lisp/lex_test.go:38-113, parse_test.go:9-58,
    sexpr_test.go:29-132, math_test.go:7-74, builtin_test.go:8-70,
    eval_test.go:10-96, /repo/tests.l1, /repo/lisp/examples.txt and the examples
    (with the results the real program printed) in /repo/api.md.  These are tests,
    not proofs: they are evidence that the definitions of this directory say what
    the Go code does, and no theorem uses this file.  The long ones are run by
    [check], which evaluates a boolean with the virtual machine and stops the
    build if it is not [true] (stating them as theorems would make every later
    check of the compiled proofs repeat the run with a slower evaluator). *)
From Verif.Model Require Import Base Syntax World Prog Lex Parse Meta Eval Builtins CoreSrc Main.
Open Scope string_scope.
Open Scope list_scope.

Ltac check b := let r := eval vm_compute in b in lazymatch r with true => exact I | _ => fail 1 "conformance check failed:" r end.

(** A host for the tests: the answers the tests expect. *)
Definition test_host (files : list (string * string)) : host :=
  MkHost (fun n _ => Z.of_N n)
         (fun _ f => match find (fun p => String.eqb (fst p) f) files with Some p => inr (snd p) | None => inl "no such file" end)
         (fun _ argv => match argv with
                        | ["asdfkhjasdfjkh"] => inl "exec: executable file not found in $PATH"
                        | _ => inr ("a b", "", 0%Z) end)
         (fun _ => None) (fun _ => None) (fun _ => (80, 24)%Z) (fun _ => [KeyPressed (KeyRune "x")]) (fun s => s) (fun s => s) (fun _ => false) (fun _ => 1%Z).

Definition tok_eqb (a b : token) : bool :=
  (toktype_num (t_typ a) =? toktype_num (t_typ b))%N && String.eqb (t_val a) (t_val b) && (t_line a =? t_line b)%N.
Fixpoint list_eqb {A} (f : A -> A -> bool) (a b : list A) : bool :=
  match a, b with [], [] => true | x :: r, y :: s => f x y && list_eqb f r s | _, _ => false end.

(** TestLex (lex_test.go). *)
Definition lex_table : list (list string * list token) := [
  ([""], []);
  ([" "], []);
  ([(str1 (chr 9))%string], []);
  ([(str1 (chr 10) ++ str1 (chr 9) ++ str1 (chr 13) ++ " " ++ " " ++ " " ++ str1 (chr 13) ++ str1 (chr 10))%string], []);
  ([";"], []);
  ([";; Ignored until end of line"], []);
  (["1"], [Tok TNumber "1" 1]);
  (["1 ;; is such a lonely number"], [Tok TNumber "1" 1]);
  (["12"], [Tok TNumber "12" 1]);
  (["123 "], [Tok TNumber "123" 1]);
  ([" 312"], [Tok TNumber "312" 1]);
  (["111 222"], [Tok TNumber "111" 1; Tok TNumber "222" 1]);
  ([" 111"; "222 "], [Tok TNumber "111" 1; Tok TNumber "222" 2]);
  (["-1"], [Tok TNumber "-1" 1]);
  (["+0"], [Tok TNumber "+0" 1]);
  (["+3 -5 "], [Tok TNumber "+3" 1; Tok TNumber "-5" 1]);
  (["("], [Tok TLeftParen "(" 1]);
  (["( "], [Tok TLeftParen "(" 1]);
  ([" ("], [Tok TLeftParen "(" 1]);
  (["1 ("], [Tok TNumber "1" 1; Tok TLeftParen "(" 1]);
  (["(1"], [Tok TLeftParen "(" 1; Tok TNumber "1" 1]);
  ([")"], [Tok TRightParen ")" 1]);
  (["(3)"], [Tok TLeftParen "(" 1; Tok TNumber "3" 1; Tok TRightParen ")" 1]);
  (["Z"], [Tok TAtom "Z" 1]);
  (["Z "], [Tok TAtom "Z" 1]);
  (["ZZ"], [Tok TAtom "ZZ" 1]);
  (["(EQUAL "; "(TIMES "; "3 4"; ") 12"; ")"], [Tok TLeftParen "(" 1; Tok TAtom "EQUAL" 1; Tok TLeftParen "(" 2; Tok TAtom "TIMES" 2; Tok TNumber "3" 3; Tok TNumber "4" 3; Tok TRightParen ")" 4; Tok TNumber "12" 4; Tok TRightParen ")" 5]);
  (["+"], [Tok TAtom "+" 1]);
  (["(+ +1 -2)"], [Tok TLeftParen "(" 1; Tok TAtom "+" 1; Tok TNumber "+1" 1; Tok TNumber "-2" 1; Tok TRightParen ")" 1]);
  (["/"], [Tok TAtom "/" 1]);
  (["(/ 1 2)"], [Tok TLeftParen "(" 1; Tok TAtom "/" 1; Tok TNumber "1" 1; Tok TNumber "2" 1; Tok TRightParen ")" 1]);
  (["(QUOTE (LAMBDA (X) (PLUS X X)))"], [Tok TLeftParen "(" 1; Tok TAtom "QUOTE" 1; Tok TLeftParen "(" 1; Tok TAtom "LAMBDA" 1; Tok TLeftParen "(" 1; Tok TAtom "X" 1; Tok TRightParen ")" 1; Tok TLeftParen "(" 1; Tok TAtom "PLUS" 1; Tok TAtom "X" 1; Tok TAtom "X" 1; Tok TRightParen ")" 1; Tok TRightParen ")" 1; Tok TRightParen ")" 1]);
  (["(atom1 . atom2)"], [Tok TLeftParen "(" 1; Tok TAtom "atom1" 1; Tok TDot "." 1; Tok TAtom "atom2" 1; Tok TRightParen ")" 1]);
  (["'quoted-atom"], [Tok TForwardQuote "'" 1; Tok TAtom "quoted-atom" 1]);
  (["~atom"], [Tok TUnquote "~" 1; Tok TAtom "atom" 1]);
  (["~@atom"], [Tok TSplicingUnquote "~@" 1; Tok TAtom "atom" 1]);
  (["`(a ~b ~@c)"], [Tok TSyntaxQuote "`" 1; Tok TLeftParen "(" 1; Tok TAtom "a" 1; Tok TUnquote "~" 1; Tok TAtom "b" 1; Tok TSplicingUnquote "~@" 1; Tok TAtom "c" 1; Tok TRightParen ")" 1]);
  (["((a . b))"], [Tok TLeftParen "(" 1; Tok TLeftParen "(" 1; Tok TAtom "a" 1; Tok TDot "." 1; Tok TAtom "b" 1; Tok TRightParen ")" 1; Tok TRightParen ")" 1]);
  (["((a) . b)"], [Tok TLeftParen "(" 1; Tok TLeftParen "(" 1; Tok TAtom "a" 1; Tok TRightParen ")" 1; Tok TDot "." 1; Tok TAtom "b" 1; Tok TRightParen ")" 1]);
  (["@"], [Tok TError "unexpected character '@' in input" 1]);
  (["("; "1 "; "2 @ "; "3)"], [Tok TLeftParen "(" 1; Tok TNumber "1" 2; Tok TNumber "2" 3; Tok TError "unexpected character '@' in input" 3; Tok TNumber "3" 4; Tok TRightParen ")" 4]);
  (["#_1"], [Tok TCommentNext "#_" 1; Tok TNumber "1" 1]);
  (["#_(1 2 3)"], [Tok TCommentNext "#_" 1; Tok TLeftParen "(" 1; Tok TNumber "1" 1; Tok TNumber "2" 1; Tok TNumber "3" 1; Tok TRightParen ")" 1]);
  (["#!/bin/bash
1(+)
"], [Tok TShebang "#!/bin/bash" 1; Tok TNumber "1" 1; Tok TLeftParen "(" 1; Tok TAtom "+" 1; Tok TRightParen ")" 1])].
Example lex_table_ok : forallb (fun p => list_eqb tok_eqb (lex_items (fst p)) (snd p)) lex_table = true. Proof. vm_compute. reflexivity. Qed.

(** TestParse (parse_test.go): the one form read, or a fragment of the error. *)
Definition parse_table : list (string * (val + string)) := [
  ("()", inl (VNil));
  ("a", inl (VAtom "a"));
  ("(1)", inl (VCons (VNum (1)) (VNil)));
  ("(a b)", inl (VCons (VAtom "a") (VCons (VAtom "b") (VNil))));
  ("(a . b)", inl (VCons (VAtom "a") (VAtom "b")));
  ("((a . b))", inl (VCons (VCons (VAtom "a") (VAtom "b")) (VNil)));
  ("(quote a)", inl (VCons (VAtom "quote") (VCons (VAtom "a") (VNil))));
  ("'(a b)", inl (VCons (VAtom "quote") (VCons (VCons (VAtom "a") (VCons (VAtom "b") (VNil))) (VNil))));
  ("'(a . b)", inl (VCons (VAtom "quote") (VCons (VCons (VAtom "a") (VAtom "b")) (VNil))));
  ("'((a b) . c)", inl (VCons (VAtom "quote") (VCons (VCons (VCons (VAtom "a") (VCons (VAtom "b") (VNil))) (VAtom "c")) (VNil))));
  ("(a b . c)", inl (VCons (VAtom "a") (VCons (VAtom "b") (VAtom "c"))));
  ("(1 2 3 . 4)", inl (VCons (VNum (1)) (VCons (VNum (2)) (VCons (VNum (3)) (VNum (4))))));
  ("((1) 2 3 . 4)", inl (VCons (VCons (VNum (1)) (VNil)) (VCons (VNum (2)) (VCons (VNum (3)) (VNum (4))))));
  ("(1 (2 . 3) 4 . 5)", inl (VCons (VNum (1)) (VCons (VCons (VNum (2)) (VNum (3))) (VCons (VNum (4)) (VNum (5))))));
  ("(1 2 . (3 4))", inl (VCons (VNum (1)) (VCons (VNum (2)) (VCons (VNum (3)) (VCons (VNum (4)) (VNil))))));
  ("(1 2 . (3 . 4))", inl (VCons (VNum (1)) (VCons (VNum (2)) (VCons (VNum (3)) (VNum (4))))));
  ("'((a) . b)", inl (VCons (VAtom "quote") (VCons (VCons (VCons (VAtom "a") (VNil)) (VAtom "b")) (VNil))));
  ("`a", inl (VCons (VAtom "syntax-quote") (VCons (VAtom "a") (VNil))));
  ("`(a b)", inl (VCons (VAtom "syntax-quote") (VCons (VCons (VAtom "a") (VCons (VAtom "b") (VNil))) (VNil))));
  ("`(a . b)", inl (VCons (VAtom "syntax-quote") (VCons (VCons (VAtom "a") (VAtom "b")) (VNil))));
  ("~b", inl (VCons (VAtom "unquote") (VCons (VAtom "b") (VNil))));
  ("`~b", inl (VCons (VAtom "syntax-quote") (VCons (VCons (VAtom "unquote") (VCons (VAtom "b") (VNil))) (VNil))));
  ("`(~b)", inl (VCons (VAtom "syntax-quote") (VCons (VCons (VCons (VAtom "unquote") (VCons (VAtom "b") (VNil))) (VNil)) (VNil))));
  ("~@c", inl (VCons (VAtom "splicing-unquote") (VCons (VAtom "c") (VNil))));
  ("`(a ~b ~@c)", inl (VCons (VAtom "syntax-quote") (VCons (VCons (VAtom "a") (VCons (VCons (VAtom "unquote") (VCons (VAtom "b") (VNil))) (VCons (VCons (VAtom "splicing-unquote") (VCons (VAtom "c") (VNil))) (VNil)))) (VNil))));
  ("#_(a b c)", inl (VCons (VAtom "comment") (VCons (VCons (VAtom "a") (VCons (VAtom "b") (VCons (VAtom "c") (VNil)))) (VNil))));
  ("#_1", inl (VCons (VAtom "comment") (VCons (VNum (1)) (VNil))));
  ("#!/bin/bash
(1 2)
", inl (VCons (VNum (1)) (VCons (VNum (2)) (VNil))));
  ("

#!/bin/bash
(1 2)
", inl (VCons (VNum (1)) (VCons (VNum (2)) (VNil))));
  ("1
#!/bin/bash", inr "unexpected lexeme");
  ("1
#!/bin/bash", inr "on line 2");
  (")", inr "unexpected right paren");
  ("1
2
3
)", inr "unexpected right paren on line 4")].
Definition parse_ok (p : string * (val + string)) : bool :=
  match lex_and_parse (split_on ch_lf (fst p)), snd p with
  | POk [v], inl u => val_equal v u && String.eqb (str v) (str u)
  | PErr er, inr m => contains (err_text er) m
  | _, _ => false
  end.
Example parse_table_ok : forallb parse_ok parse_table = true. Proof. vm_compute. reflexivity. Qed.

(** TestSexprStrings. *)
Definition print_table : list (val * string) := [
  (VNil, "()");
  (VNum (1), "1");
  (VNum (2), "2");
  (VCons (VNum (1)) (VCons (VNum (2)) (VNil)), "(1 2)");
  (VCons (VNum (1)) (VCons (VNum (2)) (VCons (VNum (3)) (VNil))), "(1 2 3)");
  (VCons (VNum (1)) (VNum (2)), "(1 . 2)");
  (VCons (VCons (VNum (3)) (VCons (VNum (1309875618907812098)) (VNil))) (VCons (VNum (5)) (VCons (VNum (6)) (VNil))), "((3 1309875618907812098) 5 6)")].
Example print_table_ok : forallb (fun p => String.eqb (str (fst p)) (snd p)) print_table = true. Proof. vm_compute. reflexivity. Qed.

(** TestStrToSexprs. *)
Definition read_table : list (string * list val) := [
  ("a", [VAtom "a"]);
  ("b", [VAtom "b"]);
  ("b c", [VAtom "b"; VAtom "c"]);
  ("+", [VAtom "+"]);
  ("foo", [VAtom "foo"]);
  ("foo-", [VAtom "foo-"]);
  ("-foo", [VAtom "-foo"]);
  ("foo?", [VAtom "foo?"]);
  ("'foo", [VCons (VAtom "quote") (VCons (VAtom "foo") (VNil))]);
  ("'123", [VCons (VAtom "quote") (VCons (VNum (123)) (VNil))]);
  ("'(1 2 3)", [VCons (VAtom "quote") (VCons (VCons (VNum (1)) (VCons (VNum (2)) (VCons (VNum (3)) (VNil)))) (VNil))]);
  ("1", [VNum (1)]);
  ("a 3", [VAtom "a"; VNum (3)]);
  ("()", [VNil]);
  ("(a)", [VCons (VAtom "a") (VNil)]);
  ("a ()", [VAtom "a"; VNil]);
  ("(())", [VCons (VNil) (VNil)]);
  ("((1))", [VCons (VCons (VNum (1)) (VNil)) (VNil)]);
  ("(a)", [VCons (VAtom "a") (VNil)]);
  ("((a))", [VCons (VCons (VAtom "a") (VNil)) (VNil)]);
  ("(a b)", [VCons (VAtom "a") (VCons (VAtom "b") (VNil))]);
  ("(a (b))", [VCons (VAtom "a") (VCons (VCons (VAtom "b") (VNil)) (VNil))]);
  ("((a) b)", [VCons (VCons (VAtom "a") (VNil)) (VCons (VAtom "b") (VNil))]);
  ("(1)", [VCons (VNum (1)) (VNil)]);
  ("(1 2)", [VCons (VNum (1)) (VCons (VNum (2)) (VNil))]);
  ("(1 2 3)", [VCons (VNum (1)) (VCons (VNum (2)) (VCons (VNum (3)) (VNil)))]);
  ("(1 2 3 4)", [VCons (VNum (1)) (VCons (VNum (2)) (VCons (VNum (3)) (VCons (VNum (4)) (VNil))))]);
  ("((1) (2))", [VCons (VCons (VNum (1)) (VNil)) (VCons (VCons (VNum (2)) (VNil)) (VNil))]);
  ("((1 2) (3 4))", [VCons (VCons (VNum (1)) (VCons (VNum (2)) (VNil))) (VCons (VCons (VNum (3)) (VCons (VNum (4)) (VNil))) (VNil))]);
  ("((1 2) (3 4) (5 6))", [VCons (VCons (VNum (1)) (VCons (VNum (2)) (VNil))) (VCons (VCons (VNum (3)) (VCons (VNum (4)) (VNil))) (VCons (VCons (VNum (5)) (VCons (VNum (6)) (VNil))) (VNil)))]);
  ("(((1 2) (3 4)) (5 6))", [VCons (VCons (VCons (VNum (1)) (VCons (VNum (2)) (VNil))) (VCons (VCons (VNum (3)) (VCons (VNum (4)) (VNil))) (VNil))) (VCons (VCons (VNum (5)) (VCons (VNum (6)) (VNil))) (VNil))])].
Example read_table_ok : forallb (fun p => match lex_and_parse [fst p] with POk vs => list_eqb val_equal vs (snd p) | _ => false end) read_table = true. Proof. vm_compute. reflexivity. Qed.
Definition sad_table : list string := ["("; "(a"; "((a b"; ")"; "))"; ")())"].
Example sad_table_ok : forallb (fun s => match lex_and_parse [s] with PErr _ => true | _ => false end) sad_table = true. Proof. vm_compute. reflexivity. Qed.

(** TestListOfNums, TestListFromSemver (builtin_test.go). *)
Definition nums_table : list (string * string) := [("1", "(1)"); ("12", "(1 2)"); ("123", "(1 2 3)"); ("-1", "(-1)"); ("-12345", "(-1 2 3 4 5)"); ("-", "((unexpected end of input))")].
Example nums_table_ok : forallb (fun p => String.eqb (match list_of_nums (fst p) with inr v => str v | inl er => err_text er end) (snd p)) nums_table = true. Proof. vm_compute. reflexivity. Qed.
Definition semver_table : list (string * string) := [("v1", "(1)"); ("1", "(1)"); ("v1.", "(1)"); ("v1.2", "(1 2)"); ("v11.2", "(11 2)"); ("v11.22", "(11 22)"); ("v11.22.", "(11 22)"); ("v11.22.33", "(11 22 33)"); ("v0.0.0", "(0 0 0)"); ("v01.02.03", "(1 2 3)"); ("v1.2.3-dirty", "(1 2 3 dirty)")].
Example semver_table_ok : forallb (fun p => String.eqb (str (vlist (semver_exprs (fst p)))) (snd p)) semver_table = true. Proof. vm_compute. reflexivity. Qed.
(** TestNumConstruction, TestBinaryOps, TestUnaryOps (math_test.go). *)
Example num_text_ok : forallb (fun s => String.eqb (Z_to_dec (big_of_string s)) s) ["1"; "666"; "12948712498129877"; "-1"] = true. Proof. vm_compute. reflexivity. Qed.
Example arith_ok : (1359871035987103978 + 666 =? 1359871035987104644)%Z && (big_div 2 2 =? 1)%Z && (9999 * 666 =? 6659334)%Z = true. Proof. vm_compute. reflexivity. Qed.
(** TestConsAsError, TestStackTrace (error_test.go). *)
Example cons_error_ok : String.eqb (err_text (ECons (VCons (VAtom "anError") VNil))) "(anError)" = true. Proof. vm_compute. reflexivity. Qed.
Example stack_trace_ok : String.eqb (err_text (extend_with (vlist [VAtom "outerError"]) (extend_with (vlist [VAtom "middleError"; strings_to_list ["with"; "some"; "extra"; "info"]]) (base_error "innerError"))))
  "((outerError) (middleError (with some extra info)) (innerError))" = true. Proof. vm_compute. reflexivity. Qed.

(** Evaluating one form in the loaded library, as TestEval does. *)
Definition fuel : nat := Z.to_nat 20000.
Definition loaded_world (h : host) : world := snd (run_prog fuel Inf (lex_parse_eval raw_core global_env) (init_world h [])).
Definition answer (w : world) (src : string) : string + string :=
  match lex_and_parse (split_on ch_lf src) with
  | POk [x] => match fst (run_call fuel Inf (CEval x global_env) w) with
               | Ok v => inl (str v)
               | Er er => inr (err_text er)
               | _ => inr "crash"
               end
  | PErr er => inr (err_text er)
  | _ => inr "not one form"
  end.
Definition eval_ok (w : world) (p : string * (string + string)) : bool :=
  match answer w (fst p), snd p with
  | inl a, inl b => String.eqb a b
  | inr a, inr b => contains a b
  | _, _ => false
  end.
(** The indices of the failing rows. *)
Definition failures {A} (f : A -> bool) (l : list A) : list nat :=
  map fst (filter (fun p => negb (f (snd p))) (combine (seq 0 (length l)) l)).

(** TestEval (eval_test.go). *)
Definition eval_table : list (string * (string + string)) := [
  ("t ;", inl "t");
  ("()  ;; Nil by any other name, would still smell as sweet...", inl "()");
  ("3 ;; colons (:) are OK too (regression for #25)", inl "3");
  ("(quote foo)", inl "foo");
  ("'foo", inl "foo");
  ("(len (split '水果))", inl "2");
  ("'123", inl "123");
  ("'bar", inl "bar");
  ("(quote (((1 2 3))))", inl "(((1 2 3)))");
  ("(quote (the (ten (laws (of (greenspun))))))", inl "(the (ten (laws (of (greenspun)))))");
  ("+", inl "<builtin: +>");
  ("1", inl "1");
  ("-5", inl "-5");
  ("(quote questionable?)", inl "questionable?");
  ("(quote moneybag$)", inl "moneybag$");
  ("(quote (a @ b))", inr "unexpected character '@' in input");
  ("(cond (() 1) (2 3))", inl "3");
  ("(", inr "unbalanced parens");
  ("(1", inr "unbalanced parens");
  ("((1", inr "unbalanced parens");
  ("((1)", inr "unbalanced parens");
  ("((1))(", inr "unbalanced parens");
  (")", inr "unexpected right paren");
  ("a", inr "unknown symbol");
  ("(quote ((1)))", inl "((1))");
  ("(quote (()))", inl "(())");
  ("(quote (() ()))", inl "(() ())");
  ("(cadaaaaaaaaaar '(((((((((((hello world))))))))))))", inl "world");
  (" t ", inl "t");
  ("t
", inl "t");
  ("

t
", inl "t");
  ("(print 1)", inl "()");
  ("(print 1 2)", inl "()");
  ("(print)", inl "()");
  ("(lambda ())", inl "<lambda()>");
  ("(lambda (x))", inl "<lambda(x)>");
  ("@", inr "unexpected character '@'");
  ("((lambda (x . xs) (list x xs)) 1 2 3 4)", inl "(1 (2 3 4))");
  ("(lambda (x . y))", inl "<lambda(x . y)>");
  ("(lambda (a b zz))", inl "<lambda(a b zz)>");
  ("(errors)", inr "no error spec");
  ("(errors '(no error) t)", inr "error not found");
  ("(errors t t)", inr "error signature must be a list");
  ("(errors (+ 1 1) t)", inr "error signature must be a list");
  ("(errors '(no error) 1 2 3)", inr "error not found");
  ("(errors '(division by zero) (/ 1 0))", inl "()");
  ("(errors (cons 'division '(by zero)) (/ 1 0))", inl "()");
  ("(errors '(one) (/ 1 0))", inr "division by zero");
  ("(errors '(zero) (/ 1 1))", inr "error not found");
  ("(test)", inl "()");
  ("(test 1)", inl "()");
  ("(test 1 2)", inl "()");
  ("(test '(divide by zero) (errors '(zero) (/ 1 0)))", inl "()")].
Goal True. check (forallb (eval_ok (loaded_world (test_host []))) eval_table). Qed.

(** The examples of the API reference with the results printed there (api.md);
    those that depend on random numbers, the screen or generated names are left out. *)
Definition api_table : list (string * (string + string)) := [
  ("(* 1 2 3)", inl "6");
  ("(*)", inl "1");
  ("(** 1 0)", inl "1");
  ("(** 2 4)", inl "16");
  ("(** 10 10)", inl "10000000000");
  ("(+ 1 2 3)", inl "6");
  ("(+)", inl "0");
  ("(- 1 1)", inl "0");
  ("(- 5 2 1)", inl "2");
  ("(- 99)", inl "-99");
  ("(/ 1 2)", inl "0");
  ("(/ 12 2 3)", inl "2");
  ("(/ 1 0)", inr "((builtin function /) (division by zero))");
  ("(< 1 2)", inl "t");
  ("(< 1 1)", inl "()");
  ("(< 1)", inl "t");
  ("(apply < (range 100))", inl "t");
  ("(<= 1 2)", inl "t");
  ("(<= 1 1)", inl "t");
  ("(<= 1)", inl "t");
  ("(= 1 1)", inl "t");
  ("(= 1 2)", inl "()");
  ("(apply = (repeat 10 t))", inl "t");
  ("(> 1 2)", inl "()");
  ("(> 1 1)", inl "()");
  ("(> 1)", inl "t");
  ("(>= 1 2)", inl "()");
  ("(>= 1 1)", inl "t");
  ("(abs 1)", inl "1");
  ("(abs -100)", inl "100");
  ("(and t t ())", inl "()");
  ("(and () (/ 1 0))", inl "()");
  ("(apply + (repeat 10 1))", inl "10");
  ("(apply * (cdr (range 10)))", inl "362880");
  ("(atom? 1)", inl "()");
  ("(atom? (quote one))", inl "t");
  ("(bang (quote Bang))", inl "Bang!");
  ("(body (lambda (x) (+ x 1)))", inl "((+ x 1))");
  ("(butlast ())", inl "()");
  ("(butlast (range 3))", inl "(0 1)");
  ("(capitalize (quote hello))", inl "Hello");
  ("(car (quote (one two)))", inl "one");
  ("(car ())", inl "()");
  ("(cdr (quote (one two)))", inl "(two)");
  ("(cdr ())", inl "()");
  ("(colon (quote remember-this))", inl "remember-this:");
  ("(comma (quote hello))", inl "hello,");
  ("(comment twas brillig, and the slithy toves did gyre and gimble in the wabe)", inl "()");
  ("((comp) (quote hello))", inl "hello");
  ("((comp split) (quote hello))", inl "(h e l l o)");
  ("((comp len split) (quote hello))", inl "5");
  ("((comp (partial apply +) (partial map len) (partial map split)) (quote (hello world)))", inl "10");
  ("((complement even?) 1)", inl "t");
  ("(map (complement odd?) (range 5))", inl "(t () t () t)");
  ("(concat (range 3) (quote (wow)) (reverse (range 3)))", inl "(0 1 2 wow 2 1 0)");
  ("(concat2 () ())", inl "()");
  ("(concat2 (quote (1 2)) (quote (3 4)))", inl "(1 2 3 4)");
  ("(cond)", inl "()");
  ("(cond (t 1) (t 2) (t 3))", inl "1");
  ("(cond (() 1) (t 2))", inl "2");
  ("(cons 1 (quote (one two)))", inl "(1 one two)");
  ("(cons 1 ())", inl "(1)");
  ("(cons 1 2)", inl "(1 . 2)");
  ("(map (constantly t) (range 10))", inl "(t t t t t t t t t t)");
  ("(dec 2)", inl "1");
  ("(dec -1)", inl "-2");
  ("(def a 1)", inl "1");
  ("(doc (lambda (x) (doc (does stuff) (and other stuff)) (+ x 1)))", inl "((does stuff) (and other stuff))");
  ("(downcase (quote Hello))", inl "hello");
  ("(downcase (quote HELLO))", inl "hello");
  ("(drop 3 (range 10))", inl "(3 4 5 6 7 8 9)");
  ("(enumerate (quote (a b c)))", inl "((0 a) (1 b) (2 c))");
  ("(defn ensure-list (x)
    (when-not (list? x)
      (error '(ensure-list argument not a list!))))", inl "()");
  ("(errors '(is not a function)
    (1))", inl "()");
  ("(eval (quote (one two)))", inr "((builtin function eval) (evaluating function object) (unknown symbol: one))");
  ("(eval (quote (+ 1 2)))", inl "3");
  ("(map even? (range 5))", inl "(t () t () t)");
  ("(every odd? (quote (1 3 5)))", inl "t");
  ("(every odd? (quote (1 2 3 5)))", inl "()");
  ("(exclaim (quote (well, hello)))", inl "(Well, hello!)");
  ("(exclaim (quote (help)))", inl "(Help!)");
  ("(exclaim (quote (begone, fiend)))", inl "(Begone, fiend!)");
  ("(filter odd? (range 5))", inl "(1 3)");
  ("(flatten (quote (this is a (really (nested) list))))", inl "(this is a really nested list)");
  ("(fuse (quote (A B C)))", inl "ABC");
  ("(fuse (reverse (range 10)))", inl "9876543210");
  ("(if t 111 333)", inl "111");
  ("(if () (quote abc) (quote def))", inl "def");
  ("(if-not (odd? 3) (quote (help, they broke three)) (quote (three is odd)))", inl "(three is odd)");
  ("(interpose BANG (range 5))", inl "(0 ! 1 ! 2 ! 3 ! 4)");
  ("(is t)", inl "()");
  ("(is (car (cons () (quote (this one should fail)))))", inr "((assertion failed: (car (cons () (quote (this one should fail))))))");
  ("(isqrt 4)", inl "2");
  ("(isqrt 5)", inl "2");
  ("((juxt inc dec) 0)", inl "(1 -1)");
  ("(map (juxt inc dec) (range 3))", inl "((1 -1) (2 0) (3 1))");
  ("(map (juxt even? odd? zero?) (quote (-2 -1 0 1 2)))", inl "((t () ()) (() t ()) (t () t) (() t ()) (t () ()))");
  ("(map (juxt) (range 3))", inl "(() () ())");
  ("((lambda () t))", inl "t");
  ("((lambda (x) (+ 5 x)) 5)", inl "10");
  ("((lambda my-length (x)
     (if-not x
       0
       (+ 1 (my-length (cdr x)))))
    (range 20))", inl "20");
  ("(last (range 10))", inl "9");
  ("(last (split (quote ATOM!)))", inl "!");
  ("(len (range 10))", inl "10");
  ("(let ((a 1)
        (b 2))
    (+ a b))", inl "3");
  ("(let* ((a 1) (b (inc a))) (+ a b))", inl "3");
  ("(list 1 2 3)", inl "(1 2 3)");
  ("(list)", inl "()");
  ("(list* 1 2 (quote (3)))", inl "(1 2 3)");
  ("(list* 1 2 (quote (3 4)))", inl "(1 2 3 4)");
  ("(list*)", inl "()");
  ("(list? (range 10))", inl "t");
  ("(list? 1)", inl "()");
  ("(macroexpand-1 (quote (+ x 1)))", inl "(+ x 1)");
  ("(macroexpand-1 (quote (if () 1 2)))", inl "(cond (() 1) (t 2))");
  ("(map odd? (range 5))", inl "(() t () t ())");
  ("(map true? (quote (foo t () t 3)))", inl "(() t () t ())");
  ("(map list (range 5))", inl "((0) (1) (2) (3) (4))");
  ("(mapcat list (range 5))", inl "(0 1 2 3 4)");
  ("(map range (range 5))", inl "(() (0) (0 1) (0 1 2) (0 1 2 3))");
  ("(mapcat range (range 5))", inl "(0 0 1 0 1 2 0 1 2 3)");
  ("(max -5)", inl "-5");
  ("(max 2 3)", inl "3");
  ("(apply max (range 10))", inl "9");
  ("(min -5)", inl "-5");
  ("(min 2 3)", inl "2");
  ("(apply min (range 10))", inl "0");
  ("(map neg? (map (lambda (x) (- x 5)) (range 10)))", inl "(t t t t t () () () () ())");
  ("(not ())", inl "t");
  ("(not t)", inl "()");
  ("(not (range 10))", inl "()");
  ("(not= 1 2)", inl "t");
  ("(not= (quote a) (quote a))", inl "()");
  ("(nth 3 (quote (one two three four five)))", inl "four");
  ("(nth 1000 (range 2))", inl "()");
  ("(number? 1)", inl "t");
  ("(number? t)", inl "()");
  ("(number? +)", inl "()");
  ("(map even? (range 5))", inl "(t () t () t)");
  ("((partial + 1) 1)", inl "2");
  ("((partial + 2 3) 4 5)", inl "14");
  ("(period (quote Woot))", inl "Woot.");
  ("(map pos? (map (lambda (x) (- x 5)) (range 10)))", inl "(() () () () () () t t t t)");
  ("(progn)", inl "()");
  ("(progn 1 2 3)", inl "3");
  ("(punctuate-atom (quote list) (quote *))", inl "list*");
  ("(punctuate-atom (quote list) COLON)", inl "list:");
  ("(quote foo)", inl "foo");
  ("(quote (1 2 3))", inl "(1 2 3)");
  ("'(1 2 3)", inl "(1 2 3)");
  ("(range 10)", inl "(0 1 2 3 4 5 6 7 8 9)");
  ("(len (range 100))", inl "100");
  ("(reduce * (cdr (range 10)))", inl "362880");
  ("(reduce (lambda (acc x) (cons x acc)) () (range 10))", inl "(9 8 7 6 5 4 3 2 1 0)");
  ("(rem 5 2)", inl "1");
  ("(rem 4 2)", inl "0");
  ("(rem 1 0)", inr "((builtin function rem) (division by zero))");
  ("(remove odd? (range 5))", inl "(0 2 4)");
  ("(repeat 5 (quote repetitive))", inl "(repetitive repetitive repetitive repetitive repetitive)");
  ("(repeatedly 3 (lambda () (range 5)))", inl "((0 1 2 3 4) (0 1 2 3 4) (0 1 2 3 4))");
  ("(= (quote (c b a)) (reverse (quote (a b c))))", inl "t");
  ("(second ())", inl "()");
  ("(second (quote (a)))", inl "()");
  ("(second (quote (a b)))", inl "b");
  ("(second (quote (1 2 3)))", inl "2");
  ("(def a 1)", inl "1");
  ("(some even? (quote (1 3 5 7 9 11 13)))", inl "()");
  ("(some even? (quote (1 3 5 7 9 1000 11 13)))", inl "t");
  ("(sort (quote (3 2 1)))", inl "(1 2 3)");
  ("(sort (quote ()))", inl "()");
  ("(sort (quote (c b a)))", inl "(a b c)");
  ("(sort-by first (quote ((3) (2) (1))))", inl "((1) (2) (3))");
  ("(sort-by first (quote ()))", inl "()");
  ("(sort-by second (quote ((quux 333) (zip 222) (afar 111))))", inl "((afar 111) (zip 222) (quux 333))");
  ("(source map)", inl "(lambda (f l) (when l (cons (f (car l)) (map f (cdr l)))))");
  ("(source +)", inr "((builtin function source) (cannot get source of builtin function <builtin: +>))");
  ("(split 123)", inl "(1 2 3)");
  ("(split (quote abc))", inl "(a b c)");
  (("(" ++ "s" ++ "w" ++ "a" ++ "l" ++ "l" ++ "o" ++ "w" ++ str1 (chr 10) ++ str1 (chr 9) ++ "(" ++ "e" ++ "r" ++ "r" ++ "o" ++ "r" ++ " " ++ "'" ++ "(" ++ "b" ++ "o" ++ "o" ++ "m" ++ ")" ++ ")" ++ ")")%string, inl "t");
  ("(swallow 1 2 3)", inl "()");
  ("(syntax-quote foo)", inl "foo");
  ("(syntax-quote (1 2 3 4))", inl "(1 2 3 4)");
  ("(syntax-quote (1 (unquote (+ 1 1)) (splicing-unquote (list 3 4))))", inl "(1 2 3 4)");
  ("`(1 ~(+ 1 1) ~@(list 3 4))", inl "(1 2 3 4)");
  ("(take 3 (range 10))", inl "(0 1 2)");
  ("(tosentence (quote (to be, or not to be, that is the question)))", inl "(To be, or not to be, that is the question.)");
  ("(true? 3)", inl "()");
  ("(true? t)", inl "t");
  ("(try (/ 1 0) (catch e (len e)))", inl "2");
  ("(upcase (quote abc))", inl "ABC");
  ("(version)", inl "(0 0 57 dirty)");
  ("(when () (/ 1 0))", inl "()");
  ("(when t (quote (the sun rises in the east)))", inl "(the sun rises in the east)");
  ("(when-not () (quote (do all the things)))", inl "(do all the things)");
  ("(when-not t (error (quote (oh no mister bill))))", inl "()");
  ("(while () (launch-missiles))", inl "()");
  ("(zero? (quote zero))", inl "()");
  ("(zero? (- 1 1))", inl "t")].
Goal True. check (match failures (eval_ok (loaded_world (test_host []))) api_table with [] => true | _ => false end). Qed.

(** (help): the text the project keeps in lisp/examples.txt. *)
Definition help_text : string := "l1 - a Lisp interpreter.

               Type        
               ---        
                S - special form
                M - macro
                N - native (Go) function
                F - Lisp function

          Name Type Arity  Description
          ---- ---  ----  -----------
             *  N    0+  Multiply 0 or more numbers
            **  F    2   Exponentiation operator
             +  N    0+  Add 0 or more numbers
             -  N    1+  Subtract 0 or more numbers from the first argument
             /  N    2+  Divide the first argument by the rest
             <  N    1+  Return t if the arguments are in strictly increasing order, () otherwise
            <=  N    1+  Return t if the arguments are in increasing or equal order, () otherwise
             =  N    1+  Return t if the arguments are equal, () otherwise
             >  N    1+  Return t if the arguments are in strictly decreasing order, () otherwise
            >=  N    1+  Return t if the arguments are in decreasing or equal order, () otherwise
           abs  F    1   Return absolute value of x
           and  S    0+  Boolean and
         apply  N    2   Apply a function to a list of arguments
         atom?  N    1   Return t if the argument is an atom, () otherwise
          bang  F    1   Add an exclamation point at end of atom
          body  N    1   Return the body of a lambda function
       butlast  F    1   Return everything but the last element
    capitalize  F    1   Return the atom argument, capitalized
           car  N    1   Return the first element of a list
           cdr  N    1   Return a list with the first element removed
         colon  F    1   Add a colon at end of atom
         comma  F    1   Add a comma at end of atom
       comment  M    0+  Ignore the expressions in the block
          comp  F    0+  Function composition -- return a function which applies a series of functions in reverse order
    complement  F    1   Return the logical complement of the supplied function
        concat  F    0+  Concatenenate any number of lists
       concat2  F    2   Concatenate two lists
          cond  S    0+  Fundamental branching construct
          cons  N    2   Add an element to the front of a (possibly empty) list
    constantly  F    1   Given a value, return a function which always returns that value
           dec  F    1   Return the supplied integer argument, minus one
           def  S    2   Set a value
      defmacro  S    2+  Create and name a macro
          defn  S    2+  Create and name a function
           doc  N    1   Return the doclist for a function
       dotimes  M    1+  Execute body for each value in a list
      downcase  N    1   Return a new atom with all characters in lower case
          drop  F    2   Drop n items from a list, then return the rest
     enumerate  F    1   Returning list of (i, x) pairs where i is the index (from zero) and x is the original element from l
         error  S    1   Raise an error
        errors  S    1+  Error checking, for tests
          eval  N    1   Evaluate an expression
         even?  F    1   Return true if the supplied integer argument is even
         every  F    2   Return t if f applied to every element in l is truthy, else ()
       exclaim  F    1   Return l as a sentence... emphasized!
          exit  N    0   Exit the program
        filter  F    2   Keep only values for which function f is true
       flatten  F    1   Return a (possibly nested) list, flattened
       foreach  M    2+  Execute body for each value in a list
         forms  N    0   Return available operators, as a list
          fuse  N    1   Fuse a list of numbers or atoms into a single atom
        gensym  N    0+  Return a new symbol
          help  N    0   Print a help message
      identity  F    1   Return the argument
            if  M    3   Simple conditional with two branches
        if-not  M    3   Simple (inverted) conditional with two branches
           inc  F    1   Return the supplied integer argument, plus one
     interpose  F    2   Interpose x between all elements of l
            is  M    1   Assert a condition is truthy, or show failing code
         isqrt  N    1   Integer square root
          juxt  F    0+  Create a function which combines multiple operations into a single list of results
        lambda  S    1+  Create a function
          last  F    1   Return the last item in a list
           len  N    1   Return the length of a list
           let  S    1+  Create a local scope with bindings
          let*  M    1+  Let form with ability to refer to previously-bound pairs in the binding list
          list  N    0+  Return a list of the given arguments
         list*  F    0+  Create a list by consing everything but the last arg onto the last
         list?  N    1   Return t if the argument is a list, () otherwise
          load  N    1   Load and execute a file
          loop  S    1+  Loop forever
 macroexpand-1  N    1   Expand a macro
           map  F    2   Apply the supplied function to every element in the supplied list
        mapcat  F    2   Map a function onto a list and concatenate results
           max  F    0+  Find maximum of one or more numbers
           min  F    0+  Find minimum of one or more numbers
          neg?  F    1   Return true iff the supplied integer argument is less than zero
           not  N    1   Return t if the argument is nil, () otherwise
          not=  F    0+  Complement of = function
           nth  F    2   Find the nth value of a list, starting from zero
       number?  N    1   Return true if the argument is a number, else ()
          odd?  F    1   Return true if the supplied integer argument is odd
            or  S    0+  Boolean or
       partial  F    1+  Partial function application
        period  F    1   Add a period at end of atom
          pos?  F    1   Return true iff the supplied integer argument is greater than zero
         print  N    0+  Print the arguments
        printl  N    1   Print a list argument, without parentheses
       println  N    0+  Print the arguments and a newline
         progn  M    0+  Execute multiple statements, returning the last
     punctuate  F    2   Return x capitalized, with punctuation determined by the supplied function
punctuate-atom  F    2   Add a punctuation mark at end of atom
         quote  S    1   Quote an expression
     randalpha  F    1   Return a list of random (English/Latin/unaccented) lower-case alphabetic characters
    randchoice  F    1   Return an element at random from the supplied list
     randigits  F    1   Return a random integer between 0 and the argument minus 1
       randint  N    1   Return a random integer between 0 and the argument minus 1
         range  F    1   List of integers from 0 to n
      readlist  N    0   Read a list from stdin
        reduce  F    2+  Successively apply a function against a list of arguments
           rem  N    2   Return remainder when second arg divides first
        remove  F    2   Keep only values for which function f is false / the empty list
        repeat  F    2   Return a list of length n whose elements are all x
    repeatedly  F    2   Return a list of length n whose elements are made from calling f repeatedly
       reverse  F    1   Reverse a list
  screen-clear  N    0   Clear the screen
    screen-end  N    0   Stop screen for text UIs, return to console mode
screen-get-key  N    0   Return a keystroke as an atom
   screen-size  N    0   Return the screen size: width, height
  screen-start  N    0   Start screen for text UIs
  screen-write  N    3   Write a string to the screen
        second  F    1   Return the second element of a list, or () if not enough elements
          set!  S    2   Update a value in an existing binding
         shell  N    1   Run a shell subprocess, and return stdout, stderr, and exit code
       shuffle  N    1   Return a (quickly!) shuffled list
         sleep  N    1   Sleep for the given number of milliseconds
          some  F    2   Return f applied to first element for which that result is truthy, else ()
          sort  N    1   Sort a list
       sort-by  N    2   Sort a list by a function
        source  N    1   Show source for a function
         split  N    1   Split an atom or number into a list of single-digit numbers or single-character atoms
       swallow  S    0+  Swallow errors thrown in body, return t if any occur
  syntax-quote  S    1   Syntax-quote an expression
          take  F    2   Take up to n items from the supplied list
          test  S    0+  Run tests
    tosentence  F    1   Return l as a sentence... capitalized, with a period at the end
         true?  F    1   Return t if the argument is t
           try  S    0+  Try to evaluate body, catch errors and handle them
        upcase  N    1   Return the uppercase version of the given atom
       version  N    0   Return the version of the interpreter
          when  M    1+  Simple conditional with single branch
      when-not  M    1+  Complement of the when macro
         while  M    1+  Loop for as long as condition is true
   with-screen  M    0+  Prepare for and clean up after screen operations
         zero?  F    1   Return true iff the supplied argument is zero".
Goal True.
check (match w_out (snd (run_call fuel Inf (CBuiltin BHelp [] global_env) (loaded_world (test_host [])))) with
       | [Printed s] => String.eqb s (help_text ++ " <nil>" ++ str1 ch_lf)%string
       | _ => false
       end).
Qed.

(** tests.l1, run as a program file: it prints a check mark for every test and ends normally. *)
Definition tests_l1 : string := ";; Unit tests in l1-proper

(test '(basic assertions)
  (is t)
  (is 3)
  (is +)
  (is (not ()))
  (is (and t t))
  (is (not (and () t)))
  (errors '(assertion failed)
    (is ()))
  (errors '(assertion failed)
    (is (and t ())))

  (is (= 1 1))
  (errors '(is not equal to)
    (is (= 1 2)))

  (is (= (+ 2 3 4) (+ 4 3 1 1)))
  (errors '(is not equal to)
    (is (= (+ 2 3 4) 4))))

(test '(basic stuff
              cons
              len)
  (errors '(is not a function)
    (t))
  (errors '(is not a function)
    (1))
  (errors '(is not a function)
    (()))

  (test '(len)
    (is (= 3 (len '(1 2 3))))
    (is (= 0 (len ())))
    (errors '(is not a list) (len 3)))

  (errors '(missing argument) (cons))
  (errors '(expects a single argument) (atom?))
  (errors '(missing argument) (cdr))
  (is (= '(1 2 3 4) (cons 1 '(2 3 4))))
  (is (= '((1 2) 3 4) (cons (cons 1 (cons 2 ())) '(3 4))))
  (is (= '(()) (cons () ())))
  (is (= '(1 . 2) (cons 1 2)))
  (is (= '(1 2) (cons 1 '(2))))
  (is (= '((1 . 2)) (cons (cons 1 2) ())))
  (is (= '((1) . 2) (cons '(1) 2))))

(test '(car and cdr)
  (is (= (car ()) ()))
  (is (= (cdr ()) ()))
  (is (= (cdr '(is not common lisp))
         '(not common lisp)))
  (is (= (car '(is not common lisp))
         'is))
  (is (= 1
         (car '(1 2 3))))
  (is (= '(2 3) (cdr '(1 2 3))))
  (errors '(missing argument) (car))
  (errors '(not a list) (car t))
  (errors '(not a list) (cdr t))
  (is (= 1 (car '(1 . 2))))
  (is (= 2 (cdr '(1 . 2))))
  (is (= 1 (caar '((1 2) (3 4)))))
  (is (= 3 (caadr '((1 2) (3 4)))))
  (is (= 4 (cadadr '((1 2) (3 4)))))
  (errors '(unknown symbol)
    (cadoopdydoopdr '((1 2) (3 4)))))

(test '(boolean logic)
  (is t)
  (is (not ()))
  (is (not (= t ())))
  (is (and))
  (is (and t t))
  (is (not (or)))
  (is (or t ()))
  (is (or () t))
  (is (not (or () ())))
  (is (or () () () () () t () () () ()))
  (is (not (and () () () ()))))

(test '(types)
  (is (atom? (quote foo)))
  (is (not (atom? (quote (foo bar)))))
  (is (atom? (quote atom?)))
  (is (not (atom? atom?)))
  (is (not (number? 'a)))
  (is (number? 3))
  (is (not (list? 'a)))
  (is (list? ()))
  (is (list (range 3)))
  (is (not (atom? '(jack))))
  (is (atom? 'a)))

(test '(equality)
  (is (= t t))
  (is (= (not t) ()))
  (is (= (not ()) t))
  (is (= (cons t ()) '(t)))
  (is (= (cons (quote hello) (quote (world)))
         '(hello world)))
  (is (= (quote foo) 'foo))
  (is (= (quote 3) 3))
  (is (= (quote (1 2 3)) '(1 2 3)))
  (is (= '(1 2 3) '(1 2 3)))
  (is (= (quote ()) ()))

  (is (= (quote foo) (quote foo)))
  (is (= () ()))
  (is (not (= (quote foo) (quote bar))))
  ;; P.G.'s interpretation of McCarthy says this is (), but
  ;; it's simpler to have just one equality operator for now,
  ;; which works for numbers, lists and atoms:
  (is (not (= (quote foo) (quote (foo bar)))))
  (is (= (quote (foo bar)) (quote (foo bar))))
  (is (= 2 (+ 1 1)))
  (is (= 2 (+ 1 1) (- 3 1)))
  (is (not (= (quote (1 2 3)) ()))))

(test '(cond)
  (is (not (cond)))
  (is (not (cond (() 3))))
  (is (= 3 (cond (3 3))))
  (is (not (cond)))
  (is (= ()
         (cond (() 3)
               (() 4))))
  (is (= (cond (t 3)
               (t 4))
         3))

  (is (= t (cond (t t) ((-) t))))

  (errors '(requires a list of pairs) (cond ()))
  (errors '(requires a list of pairs) (cond (t)))
  (errors '(missing argument) (cond ((-) t)))
  (errors '(missing argument) (cond (t (-))))
  (errors '(missing argument) (cond (() t) ((-) t)))
  (errors '(missing argument) (cond (() t) (t (-)))))

(test '(lambdas)
  (is (= () ((lambda ()))))
  (is (= 333 ((lambda () 333))))
  (is (= 1 ((lambda (_) 1) '(stop ignoring me))))
  (is (= 2 ((lambda (x) (+ 1 x)) 1)))
  (is (= 1 ((lambda () 1 2 1))))
  (is (= 3 ((lambda () 1 2 3))))
  (errors '(division by zero) ((lambda ()
                                 (/ 1 0))))

  (errors '(division by zero) ((lambda ()
                                 1
                                 (/ 1 0))))
  (is (= 1 ((lambda (a b c d) d)
            4 3 2 1)))
  ;; rest args / n-ary lambdas:
  (is (= (list 2 3 4) ((lambda (a . d) d)
                       1 2 3 4)))
  (errors '(not enough arguments) ((lambda (a . d) d)))
  (errors '(not enough arguments) ((lambda (a b . d) d) 1))
  (errors '(not enough arguments) ((lambda (a b) d) 1))
  (errors '(too many arguments) ((lambda (a b) b) 1 2 3))

  (errors '(requires an argument list) (lambda 3))
  (errors '(argument list item is not an atom) (lambda (3)))
  (errors '(requires a rest argument) ((lambda (()))))
  (errors '(cannot bind or set t) ((lambda (t)) 2))

  ;; rest-only lambdas:
  (= 3 ((lambda (a . l) (len l)) 0 1 2 3))
  (= 0 ((lambda (a . l) (len l)) 'hi))
  (= 3 ((lambda (() . l) (len l)) 1 2 3))
  (= 0 ((lambda (() . l) (len l))))

  ;; named lambdas:
  (is (not ((lambda foo ()))))
  (is (= 3 ((lambda count (l)
              (cond (l (inc (count (cdr l))))
                    (t 0)))
            (range 3))))

  ;; lambda compound bodies:
  (let* ((x 0)
         (y 1)
         (f (lambda ()
              (set! x 2)
              (set! y 3))))
    (f)
    (is (= x 2))
    (is (= y 3)))

  ;; repeated invocations of same:
  (let* ((n 0)
         (new-n!
           (lambda ()
             (set! n (inc n))
             'lastthing)))
    (dotimes 5
      (new-n!))
    (is (= 5 n))))

(test '(def and defn)
  (defn foo ())
  (is (= () (foo)))
  (defn foo (a))
  (is (= () (foo 1)))

  (defn foo (a) a)
  (is (= 1 (foo 1)))
  (errors '(name must be an atom) (defn (bazzy)))
  (errors '(requires a function name) (defn))
  (errors '(requires an argument list) (defn foo))

  ;; rest params:
  (defn wierd-len (() . l)
    (len l))
  (is (= 0 (wierd-len)))
  (is (= 5 (wierd-len 1 1 1 1 1)))
  (defn wierder-len (a . l) (len l))
  (errors '(not enough arguments) (wierder-len))
  (is (= 0 (wierder-len 1)))
  (is (= 1 (wierder-len 1 2)))
  (is (= 10 (wierder-len 1 1 2 3 4 5 6 7 8 9 10)))

  ;; doclists:
  (defn a () 3)
  (is (= 3 (a)))
  (is (not (doc a)))
  (errors '(missing argument) (doc))
  (errors '(is not a function) (doc 3))
  (def b (lambda ()))
  (is (not (doc b)))
  (def bdoc (lambda () (doc (it floats))))
  (is (= '((it floats)) (doc bdoc)))
  (is (not (bdoc)))

  (defn a () (doc (do something)) 3)
  (is (= 3 (a)))
  (is (= '((do something)) (doc a)))

  (defn c ()  (doc (something 1)
                   (something 2)
                   (something 3)
                   (example (= 'c (c))))
    'c)
  (is (= 'c (c)))

  (test '(defn mutates toplevel, not inner scope)
    (let ()
      (defn b () 4))
    (is (= 4 (b))))

  (test '(def mutates toplevel, not inner scope)
    (let ()
      (def b 99))
    (is (= 99 b))))

(test '(split and fuse)
  (is (= '(1) (split 1)))
  (is (= '(-1) (split -1)))
  (is (= '(-3 2 1) (split -321)))
  (is (= '(a) (split (quote a))))
  (is (= '(g r e e n s p u n) (split 'greenspun)))
  (is (= '(8 3 8 1 0 2 0 5 0) (split (* 12345 67890))))
  (is (= 15 (len (split (* 99999 99999 99999)))))
  (errors '(expects a single argument)
    (split))
  (errors '(expects a single argument)
    (split 1 1))
  (errors '(expects an atom or a number)
    (split '(a b c)))

  (is (= '() (fuse ())))
  (is (= 'a (fuse (quote (a)))))
  (is (= 'aa (fuse (quote (aa)))))
  (is (= 'ab (fuse (quote (a b)))))
  (is (= 1 (fuse (quote (1)))))
  (is (= 12 (fuse (quote (1 2)))))
  (is (= 125 (+ 2 (fuse (quote (1 2 3))))))
  (is (= 1295807125987 (fuse (split 1295807125987))))
  (errors '(expects a single argument)
    (fuse)))

(test '(randomness)
  (is (= 1000 (len (randigits 1000))))
  (errors '(not enough arguments)
    (randigits))

  (is (= 1 (randchoice (list 1 1 1 1 1)))))

(test '(list function)
  (is (= '(1 2 3)
         (list 1 2 3)))
  (is (= '(1 2 3) (list 1 (+ 1 1) (+ 4 -1))))
  (is (= () (list))))

(test '(concat)
  (is (= () (concat)))
  (is (= () (concat ())))
  (is (= () (concat () ())))
  (is (= '(a) (concat '(a))))
  (is (= '(a b c d)
         (concat '(a b) '(c d))))
  (is (= '(a b c d e f) (concat '(a b) '(c d) '(e f)))))

(test '(range)
  (is (not (range 0)))
  (is (= '(0) (range 1)))
  (is (= '(0 1) (range 2)))
  (is (= 100 (len (range 100)))))

(test '(reduce)
  (is (= 0 (reduce + ())))
  (is (= 1 (reduce * ())))
  (is (= 0 (reduce + '(0))))
  (is (= 0 (reduce + 0 ())))
  (is (= 1 (reduce + 0 (range 2))))
  (is (= 6 (reduce + 0 (range 4))))
  (is (= 362880 (reduce * 1 (split 123456789))))
  (is (= (range 10)
         (reduce concat (map list (range 10))))))

(test '(apply)
  (is (= 6 (apply + '(1 2 3))))
  (is (= 0 (apply + ())))
  (is (= 1 (apply + '(1))))
  (is (= 6 (apply * '(1 2 3))))
  (is (= 6 (apply * (split 123))))
  (is (= 362880 (apply * (split 123456789))))
  (is (= 1 (apply / (split 1111))))
  (is (= t (apply = (split 'ooooooooooooooooo))))
  (is (= () (apply = (split 'foo))))
  (is (= t (apply (lambda (x y) (= x y)) (split 11))))
  (is (= () (apply (lambda (x y z) (= x y z)) (split 121))))

  (is (= 12 (apply (lambda (x y z) (+ x y z))
                   (list (+ 1 1) (+ 2 2) (+ 3 3)))))

  (is (= 0 (apply + ())))
  (is (= 0 (apply + 0 ())))
  (is (= 10 (apply + 1 2 '(3 4))))
  (is (= 362880 (apply * (cdr (range 10)))))

  (is (= () (apply concat (map list ()))))
  (is (= () (apply concat '(()))))
  (is (= () (apply concat ())))
  (is (= '(1 2) (concat '(1) '(2))))
  (is (= '(1 2) (concat '(1) '(2))))
  (is (= '(1 2) (apply concat '((1) (2)))))
  (is (= '(1 2) (apply concat '((1) (2)))))
  (is (= '(1 2) (concat '(1) '(2))))
  (is (= (range 10) (apply concat (map list (range 10)))))

  (errors '(not enough arguments) (apply))
  (errors '(not enough arguments) (apply +))
  (errors '(too many arguments)
    (apply (lambda (x y) (= x y)) (split 123))))

(test '(mapcat)
  (is (= '(0 10 40 90 160 250 360 490 640 810)
         ;; FIXME: use comp and partial when available:
         (mapcat (lambda (x)
                   (list (* x x 10)))
                 (range 10)))))

(test '(functions as values)
  (is (zero? ((cond (t +)))))
  (is (= 6 ((car (cons + ())) 1 2 3)))
  (def a +)
  (is (= 2 (a 1 1))))

(test '(zero? pos? and neg?)
  (is (not (pos? 0)))
  (is (pos? 1))
  (is (neg? -1))
  (errors '(not enough arguments) (pos?))
  (errors '(too many arguments) (pos? 1 1))
  (errors '(is not a number) (pos? 'one)))

(test '(inequalities <= < > >=)
  (is (< 1 2))
  (is (< 1 2 3))
  (is (not (< 1 2 3 3)))
  (is (<= 1 2 3 3))
  (is (not (< 1 2 1)))
  (is (not (< 2 1)))
  (is (not (< 2 1 3)))
  (is (> 1))
  (is (> 3 2 1 0))
  (is (not (< 0 0)))
  (is (not (> 3 2 1 1)))
  (is (> 3 2 1 0))
  (is (>= 3 2 1 1))
  (errors '(is not a number) (< t 1))
  (errors '(is not a number) (< 1 t)))

(test '(arithmetic)
  (is (zero? 0))
  (is (not (zero? (quote zero))))
  (is (= 0))
  (is (= 0 0))
  (is (= 0 0 0))
  (is (not (= 0 0 1)))
  (is (= 1 (+ 1)))
  (is (= -1 (+ -1)))
  (is (= 0 (+ 0)))
  (is (= 2 (+ 1 1)))
  (is (= 3 (+ 1 2)))
  (is (= 7 (+ 1 1 2 3)))
  (is (= 0 (+)))
  (is (= (* 12349807213490872130987
            12349807213490872130987)
         152517738210391179737088822267441718485594169))
  (is (= 55 (+ 1 2 3 4 5 6 7 8 9 10)))
  (is (= 1000000000000000 (+ 999999999999999 1)))
  (is (= 1000000000000000 (+ 1 999999999999999)))
  (is (= 1 (+ (+ 1))))
  (is (= 21 (+ (+ 1 2 3) 4 5 6)))
  (is (= -1 (- 1)))
  (is (= 0 (- 1 1)))
  (is (= 31489071430987532109487513094875031984750983147
         31489071430987532109487513094875031984750983147))
  (is (= 0 (- 12349807213490872130987
              12349807213490872130987)))
  (is (= -9 (- (+ 1 2 3) 4 5 6)))
  (is (= 1 (*)))
  (is (= 1 (* 1 1)))
  (is (= 2432902008176640000
         (* 1 2 3 4 5 6 7 8 9 10 11 12 13 14 15 16 17 18 19 20)))
  (is (= 1 (/ 1 1)))
  (is (= 2 (/ 4 2)))
  (is (= 0 (/ 1 2)))

  (is (= 1 (* 1 1 1 (*) (*) (*))))
  (is (= 3 (+ 1 1 1 (+) (+) (+))))

  (is (zero? (rem 1 1)))
  (is (zero? (rem 10 10)))
  (is (= 1 (rem 5 2)))

  (errors '(division by zero) (rem 1 0))
  (errors '(requires two arguments) (rem))
  (errors '(expected number) (rem t t))
  (errors '(expected number) (rem t 1))
  (errors '(expected number) (rem 1 t))
  (errors '(missing argument) (=))
  (errors '(missing argument) (-))
  (errors '(missing argument) (/))
  (errors '(division by zero) (/ 1 0))
  (errors '(expected number) (+ 0 (cond)))
  (errors '(expected number) (+ t 1))
  (errors '(expected number) (- t))
  (errors '(expected number) (- t 1))
  (errors '(expected number) (- 1 t))
  (errors '(expected number) (* t))
  (errors '(expected number) (/ t))
  (is (= 1 (/ 1)))
  (errors '(expected number) (/ 1 t)))

(test '(basic def)
  (def x 3)
  (is (= 3 x))
  (errors '(unknown symbol)
    (def do-not-die unknown-symbol)))

(test '(closures scope and shadowing)
  (def plus3-maker
       (lambda ()
         ((lambda (a)
            (lambda (x)
              (+ a x)))
          3)))
  (is (= 7 ((plus3-maker) 4)))
  (defn incrementer (n)
    (lambda (x)
      (+ x n)))
  (def inc (incrementer 1))
  (is (= 6 (inc 5)))
  (def add2 (incrementer 2))
  (is (= 7 (add2 5)))

  (is (= 0 (def x 0)))
  (zero? x)
  (is (zero? (cond ((= x 0) 0)
                   (t x))))
  (is (= 1 (def x 1)))
  (is (= 1 (cond ((= x 0) 0)
                 (t x))))

  (def a 1)
  (def b 2)
  (is (= 6 ((lambda (x) (+ x a b)) 3)))

  (defn f (x) (+ 1 x))
  (is (= 3 (f 2)))

  (defn f (x) (cond (x 3) (t 4)))
  (is (= 3
         (f t)
         (f 1)
         (f '(1 2 3))
         (f f)))
  (is (= 4 (f ())))

  (defn f (x)
    (cond ((= x 3) 1)
          (t (+ 1 (f 3)))))
  (is (= 1 (f 3)))
  (is (= 2 (f 4)))

  ;; This one found a tricky bug while figuring out envs / scope:
  (def f (lambda (x) (+ x (g (- x 1)))))
  (def g (lambda (x) 0))
  (is (= 1 (f 1)))

  (test '(shadowing)
    (def a 1)
    (def f (lambda (a) (+ a a)))
    (is (= 6 (f 3)))
    (def a 999)
    (is (= 4 (f 2)))))

(test '(slow fibonacci)
  (def fib
       (lambda (n)
         (cond ((zero? n) 0)
               ((= 1 n) 1)
               (t (+ (fib (- n 1))
                     (fib (- n 2)))))))
  (is (= 0 (fib 0)))
  (is (= 1 (fib 1)))
  (is (= 13 (fib 7)))
  (is (= 55 (fib 10)))
  (is (= 6765 (fib 20))))

(test '(factorial)
  (defn fact (n)
    (if (zero? n)
      1
      (* n (fact (- n 1)))))
  (is (= 30414093201713378043612608166064768844377641568960512000000000000
         (fact 50)))
  (is (= 2568 (len (split (fact 1000))))))

;; This case helped me (JJ) find a subtle math/pointer bug:
(test '(oddcase)
  (def f
       (lambda (x)
	 (cond ((= x 0) 0)
	       (t (+ x (f (- x 1)))))))
  (is (zero? (f 0)))
  (is (= 1 (f 1))))

(test '(let)
  (is (not (let ())))
  (is (= 2 (let ((_ 1))
             2)))
  (is (zero? (let ((_ 1))
               1
               2
               3
               0)))
  (is (zero? (let ((a 0))
               a)))
  (errors '(let bindings must be a list) (let 3))
  (errors '(a let binding must be a list)
    (let ((a 0)
          3)))
  (test '(shadowing inside let)
    (is (= 4
           (let ((a 1))
             (+ a (let ((a 2))
                    (+ a 1))))))))

(test '(version)
  (is (< 2 (len (version)))))

(test '(alpha / word stuff)
  (is (= 10 (len (randalpha 10))))
  (is (= 1000 (len (split (fuse (randalpha 1000))))))
  (is (= 'Capoeira (capitalize 'capoeira)))
  (is (= 'KARATE (upcase 'kaRatE)))
  (is (= 'break-dancing (downcase 'BREAK-dancing)))
  (is (= 'Nope. (period (capitalize 'nope))))
  (is (= 'Well, (comma (capitalize 'well))))
  (is (= 'bang! (bang 'bang)))
  (is (= '(You.) (tosentence '(you))))
  (is (= '(You hoo.) (tosentence '(you hoo))))
  (is (= '(Boo hoo hoo.) (tosentence '(boo hoo hoo))))
  (is (= '(Go away!) (exclaim '(go away)))))

(test '(core / l1 functions)
  (is (= () (reverse ())))
  (is (= 'apogee (fuse (reverse (split 'eegopa)))))
  (is (= '(1 2 3) (concat '(1 2 3) ())))
  (is (= '(1 2 3 4 5 6) (concat '(1 2 3) '(4 5 6))))
  (is (= '(1 2 3 4 5 6) (concat '(1 2) '(3 4) '(5 6))))
  (is (= 100 (len (range 100))))
  (is (zero? (car (range 5))))
  (is (= 4 (last (range 5))))
  (is (not (last ())))

  (is (= 'abc (fuse (take 3 (split 'abcdefg)))))
  (is (= (range 10) (take 10 (range 100))))
  (is (= (range 3) (take 10 (range 3))))
  (is (= (range 10) (drop 0 (range 10))))
  (is (= '(5 6 7 8 9) (drop 5 (range 10))))
  (is (= () (drop 1000 (range 10))))

  (is (even? 2))
  (is (even? 2000))
  (is (odd? 3))
  (is (odd? 2001))
  (is ((complement odd?) 2))

  (is (= () (flatten '(()))))
  (is (= (split 'abcdefgh) (flatten '(a b (c d (e f) g h)))))

  (is (= 3 ((constantly 3))))
  (is (= 3 ((constantly 3) '(ignore me))))

  (is (= '(t t t t t))) (repeat 5 t)

  (is (= '(1 2 3 4 5)
         (map inc (range 5))))

  (is (= '(0 2 4) (filter even? (range 5))))
  (is (= '(1 3))) (remove even? (range 5)))

(test '(math)
  (is (= 1024 (** 2 10)))
  (is (= 10000000000 (** 10 10)))
  (is (= 18446744073709551616 (** 2 64)))

  ;; (** 3 60935681) stack overflowed in a fuzzing test, fixed, but
  ;; testing that takes too long!
  (** 3 6093)

  (is (= 2 (isqrt 4)))
  (let ((biggie (** 18446744073709551616 5)))
    (is (= biggie
           (isqrt (** biggie 2)))))

  (is (= 2 (abs -2)))
  (is (= 3 (abs 3))))

(test '(macros)
  (defmacro f (zzz) (list '+ 2 3))
  (is (= 5 (f 888)))

  (defmacro f (zzz) (list '+ 2 zzz))
  (is (= 12 (f 10)))

  (is (= 3 (macroexpand-1 3)))
  (is (= 3 (macroexpand-1 '3)))

  (defmacro x () 1)
  (is (= 1 (macroexpand-1 '(x))))
  (defmacro x () 1 2)
  (is (= 2 (macroexpand-1 '(x))))

  ;; Test for bug, #89:
  (defmacro prepend! (l x)
    `(set! ~l (cons ~x ~l)))

  (let ((x ()))
    (prepend! x 1)
    (is (= '(1) x)))

  ;; Another test for bug, #89:
  (defmacro identity! (x) `(set! ~x ~x))

  (let ((x 5))
    (identity! x)
    (is (= 5 x))))

(test '(if when and when-not macro)
  (is (= 1 (if t 1 2)))
  (is (= 2 (if () 1 2)))
  (is (= '(cond (() 1) (t 2))
         (macroexpand-1 '(if () 1 2))))
  (is (not (when () 3)))
  (is (= 3 (when-not () 3)))
  (is (= 3 (when-not (list? 3) 3)))
  (is (= 3 (if ()
             1
             (when t
               3)))))

(test '(list*)
  (is (= '(a b c 0 1 2 3 4)
         (list* 'a 'b 'c (range 5)))))

(test '(progn)
  ;; FIXME: add set! and test side effects w/ progn.
  (is (= 6 (progn
             1
             2
             3
             6))))

(test '(syntax-quote)
  (is (= (quote foo) (syntax-quote foo)))
  (is (= 'foo `foo))
  (is (= '(a list by any other name)
         `(a list by any other name)))
  (is (= 3 `~3))
  (let ((a 1))
    (is (= 1 `~a))
    (is (= '(hello 1 2)
           `(hello ~a ~(+ a 1)))))
  (let ((l (range 3)))
    (is (= '(a b c 0 1 2 d e)
           `(a b c ~@l d e)))))

(test '(some and every)
  (is (every pos? (cdr (range 5))))
  (is (every odd? '(1 3 5)))
  (is (not (some neg? (cdr (range 5))))))

(test '(docs and forms)
  (is (< 10 (len (forms))))
  (is (some (comp (partial = 'forms) first)
            (forms)))
  (is (every (comp (partial = 6) len) (forms)))
  (is (= '(Return a new atom with all characters in lower case)
         (doc downcase))))

(test '(shuffle)
  (is (= 100 (len (shuffle (range 100))))))

(test '(error)
  (errors '(requires a non-empty argument)
    (error))
  (errors '(3)
    (error 3))
  (errors '(i fail)
    (error '(i fail))))

(test '(swallow)
  (is (not (swallow)))
  (is (not (swallow 1 2 3)))
  (is (swallow 1 2 (error '(boom)) 3 4)))

(test '(set!)
  (errors '(not bound in any environment)
    (set! abcd 5))
  (def abcd 5)
  (= abcd 5)
  (set! abcd 6)
  (= abcd 6))

(test '(comment sugar)
  #_(/ 1 0))

(test '(gensym)
  (is (= '<gensym- (fuse (take 8 (split (gensym))))))
  (is (= '<gensym-foo (fuse (take 11 (split (gensym 'foo))))))
  (is (not (= (gensym) (gensym))))
  (is (not (= (gensym 'foo) (gensym 'foo))))
  (errors '(expects an atom)
    (gensym (range 5)))
  (errors '(0 or 1 arguments)
    (gensym 'really 'unique)))

(test '(fuzz found these strange birds, each of which crashed
        the interpreter)
  (errors '(needs an argument)
    (quote))
  (defmacro x () () ())
  (errors '(argument must be an atom)
    (def 833))
  (errors '(missing argument)
    (lambda t))
  (errors '(missing argument)
    (lambda))
  (errors '(missing argument)
    (def))
  (errors '(missing argument)
    (def t))
  (errors '(must be a list of binding pairs)
    (let (())))
  (errors '(must be a list of binding pairs)
    (let ((0))))
  (errors '(needs an argument)
    (syntax-quote))
  (errors '(expects a nonempty list)
    (randchoice ()))
  (errors '(screen not initialized)
    (screen-write 30 87 ()))
  (errors '(expected list)
    (let ((lll (lambda ())))
      (if . lll)))
  (errors '(doc form is not a list)
    (let ((lll (lambda ())))
      (lambda t () (doc . lll) 5)))
  (is (not (repeat (- 1) 'a)))

  ;; Issue #79:
  (errors '(error not found)
    (errors (list* ()  t)))
  (errors '(error not found)
    (errors (list* () 695)))

  (is (not (dotimes (- 100)))))

(test '(second)
  (is (not (second ())))
  (is (not (second '(a))))
  (is (= 2 (second '(1 2))))
  (is (= 2 (second '(1 2 3)))))

(test '(comp)
  (is (= 1 ((comp) 1)))
  (is (= 2 ((comp inc) 1)))
  (is (= 3 ((comp inc inc) 1)))
  (is (= 4 ((comp inc inc inc) 1)))
  (is (= 5 ((comp inc inc inc inc) 1)))
  (is (= 1 ((comp dec inc) 1)))
  (is (= 6 ((comp inc +) 2 3))))

(test '(partial)
  (is (partial +))
  (is (= 1 ((partial +) 1)))
  (is (= 3 ((partial + 2) 1))))

(test '(min and max)
  (errors '(needs at least one number)
    (max))
  (is (= -5 (max -5)))
  (is (= 1 (max 1)))
  (is (= 1 (max 1 0)))
  (is (= 9 (apply max (range 10))))

  (errors '(needs at least one number)
    (min))
  (is (= -5 (min -5)))
  (is (= 1 (min 1)))
  (is (= 0 (min 1 0)))
  (is (= 0 (apply min (range 10)))))

(defn member (x l)
  (some (partial = x) l))

(test '(exceptions, stacktraces and their contents)
  (is (not (try)))
  (is (= 1 (try 1)))
  (is (= 3 (try 1 2 3)))
  (is (not (try (catch e))))
  (is (not (try (catch e e))))
  (is (= 1 (try 1 (catch e))))
  (is (= 1 (try 1 (catch e 2))))
  (is (= 2 (try 1 2 (catch e 3 4))))
  (is (= 2 (try (/ 1 0) (catch e 2))))
  (is (= 4 (try 1 (/ 1 0) 2 (catch e 3 4))))

  (try (/ 1 0) (catch e))

  (is (pos? (try (/ 1 0) (catch e (len e)))))

  (try
    (/ 1 0)
    (catch e
      (is (member '(division by zero) e))))

  (is (= 4
         (try
           1
           (/ 1 0)
           2
           (catch e
             3
             (is (member '(division by zero) e))
             4))))

  (errors '(inner error)
    (try
      (/ 1 0)
      (catch e
        (error '(inner error)))))

  (try
    1
    (+ 1 (/ 1 0))
    2
    (catch e
      3
      (is (member '(division by zero) e))
      (is (member '(builtin function /) e))
      4))

  (let ((e (try
             (/ 1 0)
             (catch e e))))
    (is (member '(division by zero) e))
    (is (member '(builtin function /) e)))

  (defn wrap-divide-by-zero ()
    (/ 1 0)
    1)

  (defn intermediate-fn ()
    (wrap-divide-by-zero)
    1)

  (try
    (intermediate-fn)
    (catch e
      (is (member '(division by zero) e))
      (is (member '(builtin function /) e))
      (is (some (lambda (l) (member 'lambda l)) e))))

  (defn f () 0)
  (defn g () 1)
  (defn d (x y) (/ x y))
  (defn a () (+ 3 (d (g) (f))))
  (try
    (a)
    (catch e
      (is (member '(division by zero) e))
      (is (member '(builtin function /) e)))))

(test '(source function)
  (defn funfun (x)
    1
    2
    (+ 5 x))
  (is (= '(lambda (x) 1 2 (+ 5 x))
         (source funfun)))

  (defn restyfun (x . z)
    '(something else))
  (is (= '(lambda (x . z)
           '(something else))
         (source restyfun)))

  (errors '(not a function)
    (source 3))

  (errors '(not a function)
    (source 'a))

  (errors '(cannot get source of builtin)
    (source +)))

(test 'unicode
  (def 水 'water)
  (is (= 水 'water))
  (is (= '▁▂▃▄▅▆▇█▉▊▋▌▍▎▏▐▖▗■□▢▣▥▧▨▩
         (fuse'(▁ ▂ ▃ ▄ ▅ ▆ ▇ █ ▉ ▊
                ▋ ▌ ▍ ▎ ▏ ▐ ▖ ▗ ■
                □ ▢ ▣ ▥ ▧ ▨ ▩))))
  (is (= 2 (len (split '水果)))))

(test 'shell
  (errors '(argument must be a nonempty list of strings)
    (shell 'pwd))
  (errors '(argument must be a nonempty list of strings)
    (shell '()))
  (errors '(file not found) (shell '(asdfkhjasdfjkh)))
  (is (= 3 (len (shell '(pwd))))))

(test 'sort
  (errors '(expects a single argument) (sort))
  (errors '(expects a single argument) (sort () ()))
  (errors '(is not a list) (sort 3))
  (is (not (sort ())))
  (is (= '(1 2) (sort '(1 2))))
  (is (= '(1 2) (sort '(2 1))))
  (is (= '(2 11) (sort '(11 2))))
  (is (= '(a b) (sort '(b a))))
  (errors '(is not same type) (sort '(1 a))))

(test 'sort-by
  (errors '(expects two arguments) (sort-by))
  (errors '(expects two arguments) (sort-by () () ()))
  (is (not (sort-by 3 ())))
  (errors '(is not a function) (sort-by 3 (range 10)))
  (errors '(is not a list) (sort-by first 3))
  (is (not (sort-by identity ())))
  (is (not (sort-by < ())))
  (is (= (range 10) (sort-by < (range 10))))
  (is (= (range 10) (sort-by > (range 10))))
  (is (= (map list (range 10))
         (sort-by first (reverse (map list (range 10))))))
  (is (= '(a bb ccc)
         (sort-by (comp len split)
                  '(ccc a bb))))
  (is (= '(() (1) (2 2) (3 3 3))
         (sort-by len '(() (1) (3 3 3) (2 2)))))
  (errors '(is not a list)
    (sort-by len '(() (1) (3 3 3) a (2 2)))))

(test 'interpose
  (is (not (interpose 'FOO ())))
  (is (= '(0) (interpose 'FOO (range 1))))
  (is (= '(0 FOO 1) (interpose 'FOO (range 2))))
  (is (= '(0 FOO 1 FOO 2) (interpose 'FOO (range 3)))))

(test 'enumerate
  (is (= '((0 0) (1 5) (2 10) (3 15) (4 20))
         (enumerate (map (partial * 5) (range 5)))))

  (is (= '((0 0) (1 1) (2 2) (3 3) (4 4))
         (enumerate (range 5)))))
".
Definition out_text (w : world) : string :=
  fold_left (fun acc ev => match ev with Printed s => (s ++ acc)%string | _ => acc end) (w_out w) "".
Fixpoint count_sub (n : nat) (s sub : string) : nat :=
  match n with
  | O => 0
  | S n' => match s with EmptyString => 0 | String _ r => (if prefix_of sub s then 1 else 0) + count_sub n' r sub end
  end.

Goal True.
check (let (o, w) := run_main (Z.to_nat 200000) Inf (Options false false false "" ["tests.l1"]) (test_host [("tests.l1", tests_l1)]) [] in
       let s := out_text w in
       match o with Ok _ => negb (contains s "ERROR") && (count_sub (String.length s) s (String (chr 226) (String (chr 156) (str1 (chr 147)))) =? 62)%nat | _ => false end).
Qed.
(** -longdoc: byte for byte the reference manual the project keeps in api.md (Makefile:62), with the results of all examples. *)
Definition api_md0 : string := "# API Index
135 forms available:
[`*`](#-STAR)
[`**`](#-STAR-STAR)
[`+`](#+)
[`-`](#-)
[`/`](#/)
[`<`](#<)
[`<=`](#<=)
[`=`](#=)
[`>`](#>)
[`>=`](#>=)
[`abs`](#abs)
[**`and`**](#and)
[`apply`](#apply)
[`atom?`](#atom-QMARK)
[`bang`](#bang)
[`body`](#body)
[`butlast`](#butlast)
[`capitalize`](#capitalize)
[`car`](#car)
[`cdr`](#cdr)
[`colon`](#colon)
[`comma`](#comma)
[*`comment`*](#comment)
[`comp`](#comp)
[`complement`](#complement)
[`concat`](#concat)
[`concat2`](#concat2)
[**`cond`**](#cond)
[`cons`](#cons)
[`constantly`](#constantly)
[`dec`](#dec)
[**`def`**](#def)
[**`defmacro`**](#defmacro)
[**`defn`**](#defn)
[`doc`](#doc)
[*`dotimes`*](#dotimes)
[`downcase`](#downcase)
[`drop`](#drop)
[`enumerate`](#enumerate)
[**`error`**](#error)
[**`errors`**](#errors)
[`eval`](#eval)
[`even?`](#even-QMARK)
[`every`](#every)
[`exclaim`](#exclaim)
[`exit`](#exit)
[`filter`](#filter)
[`flatten`](#flatten)
[*`foreach`*](#foreach)
[`forms`](#forms)
[`fuse`](#fuse)
[`gensym`](#gensym)
[`help`](#help)
[`identity`](#identity)
[*`if`*](#if)
[*`if-not`*](#if-not)
[`inc`](#inc)
[`interpose`](#interpose)
[*`is`*](#is)
[`isqrt`](#isqrt)
[`juxt`](#juxt)
[**`lambda`**](#lambda)
[`last`](#last)
[`len`](#len)
[**`let`**](#let)
[*`let*`*](#let-STAR)
[`list`](#list)
[`list*`](#list-STAR)
[`list?`](#list-QMARK)
[`load`](#load)
[**`loop`**](#loop)
[`macroexpand-1`](#macroexpand-1)
[`map`](#map)
[`mapcat`](#mapcat)
[`max`](#max)
[`min`](#min)
[`neg?`](#neg-QMARK)
[`not`](#not)
[`not=`](#not=)
[`nth`](#nth)
[`number?`](#number-QMARK)
[`odd?`](#odd-QMARK)
[**`or`**](#or)
[`partial`](#partial)
[`period`](#period)
[`pos?`](#pos-QMARK)
[`print`](#print)
[`printl`](#printl)
[`println`](#println)
[*`progn`*](#progn)
[`punctuate`](#punctuate)
[`punctuate-atom`](#punctuate-atom)
[**`quote`**](#quote)
[`randalpha`](#randalpha)
[`randchoice`](#randchoice)
[`randigits`](#randigits)
[`randint`](#randint)
[`range`](#range)
[`readlist`](#readlist)
[`reduce`](#reduce)
[`rem`](#rem)
[`remove`](#remove)
[`repeat`](#repeat)
[`repeatedly`](#repeatedly)
[`reverse`](#reverse)
[`screen-clear`](#screen-clear)
[`screen-end`](#screen-end)
[`screen-get-key`](#screen-get-key)
[`screen-size`](#screen-size)
[`screen-start`](#screen-start)
[`screen-write`](#screen-write)
[`second`](#second)
[**`set!`**](#set-BANG)
[`shell`](#shell)
[`shuffle`](#shuffle)
[`sleep`](#sleep)
[`some`](#some)
[`sort`](#sort)
[`sort-by`](#sort-by)
[`source`](#source)
[`split`](#split)
[**`swallow`**](#swallow)
[**`syntax-quote`**](#syntax-quote)
[`take`](#take)
[**`test`**](#test)
[`tosentence`](#tosentence)
[`true?`](#true-QMARK)
[**`try`**](#try)
[`upcase`](#upcase)
[`version`](#version)
[*`when`*](#when)
[*`when-not`*](#when-not)
[*`while`*](#while)
[*`with-screen`*](#with-screen)
[`zero?`](#zero-QMARK)
# Operators


<a id=""-STAR""></a>
## `*`

Multiply 0 or more numbers

Type: native function

Arity: 0+

Args: `(() . xs)`


### Examples

```
> (* 1 2 3)
;;=>
6
> (*)
;;=>
1

```


[<sub><sup>Back to index</sup></sub>](#api-index)
-----------------------------------------------------


<a id=""-STAR-STAR""></a>
## `**`

Exponentiation operator

Type: function

Arity: 2

Args: `(n m)`


### Examples

```
> (** 1 0)
;;=>
1
> (** 2 4)
;;=>
16
> (** 10 10)
;;=>
10000000000

```


[<sub><sup>Back to index</sup></sub>](#api-index)
-----------------------------------------------------


<a id=""+""></a>
## `+`

Add 0 or more numbers

Type: native function

Arity: 0+

Args: `(() . xs)`


### Examples

```
> (+ 1 2 3)
;;=>
6
> (+)
;;=>
0

```


[<sub><sup>Back to index</sup></sub>](#api-index)
-----------------------------------------------------


<a id=""-""></a>
## `-`

Subtract 0 or more numbers from the first argument

Type: native function

Arity: 1+

Args: `(x . xs)`


### Examples

```
> (- 1 1)
;;=>
0
> (- 5 2 1)
;;=>
2
> (- 99)
;;=>
-99

```


[<sub><sup>Back to index</sup></sub>](#api-index)
-----------------------------------------------------


<a id=""/""></a>
## `/`

Divide the first argument by the rest

Type: native function

Arity: 2+

Args: `(numerator denominator1 . more)`


### Examples

```
> (/ 1 2)
;;=>
0
> (/ 12 2 3)
;;=>
2
> (/ 1 0)
;;=>
ERROR: ((builtin function /) (division by zero))

```


[<sub><sup>Back to index</sup></sub>](#api-index)
-----------------------------------------------------


<a id=""<""></a>
## `<`

Return t if the arguments are in strictly increasing order, () otherwise

Type: native function

Arity: 1+

Args: `(x . xs)`


### Examples

```
> (< 1 2)
;;=>
t
> (< 1 1)
;;=>
()
> (< 1)
;;=>
t
> (apply < (range 100))
;;=>
t

```


[<sub><sup>Back to index</sup></sub>](#api-index)
-----------------------------------------------------


<a id=""<=""></a>
## `<=`

Return t if the arguments are in increasing or equal order, () otherwise

Type: native function

Arity: 1+

Args: `(x . xs)`


### Examples

```
> (<= 1 2)
;;=>
t
> (<= 1 1)
;;=>
t
> (<= 1)
;;=>
t

```


[<sub><sup>Back to index</sup></sub>](#api-index)
-----------------------------------------------------


<a id=""=""></a>
## `=`

Return t if the arguments are equal, () otherwise

Type: native function

Arity: 1+

Args: `(x . xs)`


### Examples

```
> (= 1 1)
;;=>
t
> (= 1 2)
;;=>
()
> (apply = (repeat 10 t))
;;=>
t

```


[<sub><sup>Back to index</sup></sub>](#api-index)
-----------------------------------------------------


<a id="">""></a>
## `>`

Return t if the arguments are in strictly decreasing order, () otherwise

Type: native function

Arity: 1+

Args: `(x . xs)`


### Examples

```
> (> 1 2)
;;=>
()
> (> 1 1)
;;=>
()
> (> 1)
;;=>
t

```


[<sub><sup>Back to index</sup></sub>](#api-index)
-----------------------------------------------------


<a id="">=""></a>
## `>=`

Return t if the arguments are in decreasing or equal order, () otherwise

Type: native function

Arity: 1+

Args: `(x . xs)`


### Examples

```
> (>= 1 2)
;;=>
()
> (>= 1 1)
;;=>
t

```


[<sub><sup>Back to index</sup></sub>](#api-index)
-----------------------------------------------------


<a id=""abs""></a>
## `abs`

Return absolute value of x

Type: function

Arity: 1

Args: `(x)`


### Examples

```
> (abs 1)
;;=>
1
> (abs -100)
;;=>
100

```


[<sub><sup>Back to index</sup></sub>](#api-index)
-----------------------------------------------------


<a id=""and""></a>
## `and`

Boolean and

Type: special form

Arity: 0+

Args: `(() . xs)`


### Examples

```
(and)
;;=>
true
> (and t t)
;;=>
true
> (and t t ())
;;=>
()
> (and () (/ 1 0))
;;=>
()

```


[<sub><sup>Back to index</sup></sub>](#api-index)
-----------------------------------------------------


<a id=""apply""></a>
## `apply`

Apply a function to a list of arguments

Type: native function

Arity: 2

Args: `(f args)`


### Examples

```
> (apply + (repeat 10 1))
;;=>
10
> (apply * (cdr (range 10)))
;;=>
362880

```


[<sub><sup>Back to index</sup></sub>](#api-index)
-----------------------------------------------------


<a id=""atom-QMARK""></a>
## `atom?`

Return t if the argument is an atom, () otherwise

Type: native function

Arity: 1

Args: `(x)`


### Examples

```
> (atom? 1)
;;=>
()
> (atom? (quote one))
;;=>
t

```


[<sub><sup>Back to index</sup></sub>](#api-index)
-----------------------------------------------------


<a id=""bang""></a>
## `bang`

Add an exclamation point at end of atom

Type: function

Arity: 1

Args: `(a)`


### Examples

```
> (bang (quote Bang))
;;=>
Bang!

```


[<sub><sup>Back to index</sup></sub>](#api-index)
-----------------------------------------------------


<a id=""body""></a>
## `body`

Return the body of a lambda function

Type: native function

Arity: 1

Args: `(f)`


### Examples

```
> (body (lambda (x) (+ x 1)))
;;=>
((+ x 1))

```


[<sub><sup>Back to index</sup></sub>](#api-index)
-----------------------------------------------------


<a id=""butlast""></a>
## `butlast`

Return everything but the last element

Type: function

Arity: 1

Args: `(l)`


### Examples

```
> (butlast ())
;;=>
()
> (butlast (range 3))
;;=>
(0 1)

```


[<sub><sup>Back to index</sup></sub>](#api-index)
-----------------------------------------------------


<a id=""capitalize""></a>
## `capitalize`

Return the atom argument, capitalized

Type: function

Arity: 1

Args: `(a)`


### Examples

```
> (capitalize (quote hello))
;;=>
Hello

```


[<sub><sup>Back to index</sup></sub>](#api-index)
-----------------------------------------------------


<a id=""car""></a>
## `car`

Return the first element of a list

Type: native function

Arity: 1

Args: `(x)`


### Examples

```
> (car (quote (one two)))
;;=>
one
> (car ())
;;=>
()

```


[<sub><sup>Back to index</sup></sub>](#api-index)
-----------------------------------------------------


<a id=""cdr""></a>
## `cdr`

Return a list with the first element removed

Type: native function

Arity: 1

Args: `(x)`


### Examples

```
> (cdr (quote (one two)))
;;=>
(two)
> (cdr ())
;;=>
()

```


[<sub><sup>Back to index</sup></sub>](#api-index)
-----------------------------------------------------


<a id=""colon""></a>
## `colon`

Add a colo".
Definition api_md1 : string := "n at end of atom

Type: function

Arity: 1

Args: `(a)`


### Examples

```
> (colon (quote remember-this))
;;=>
remember-this:

```


[<sub><sup>Back to index</sup></sub>](#api-index)
-----------------------------------------------------


<a id=""comma""></a>
## `comma`

Add a comma at end of atom

Type: function

Arity: 1

Args: `(a)`


### Examples

```
> (comma (quote hello))
;;=>
hello,

```


[<sub><sup>Back to index</sup></sub>](#api-index)
-----------------------------------------------------


<a id=""comment""></a>
## `comment`

Ignore the expressions in the block

Type: macro

Arity: 0+

Args: `(() . body)`


### Examples

```
> (comment twas brillig, and the slithy toves did gyre and gimble in the wabe)
;;=>
()

```


[<sub><sup>Back to index</sup></sub>](#api-index)
-----------------------------------------------------


<a id=""comp""></a>
## `comp`

Function composition -- return a function which applies a series of functions in reverse order

Type: function

Arity: 0+

Args: `(() . fs)`


### Examples

```
> ((comp) (quote hello))
;;=>
hello
> ((comp split) (quote hello))
;;=>
(h e l l o)
> ((comp len split) (quote hello))
;;=>
5
> ((comp (partial apply +) (partial map len) (partial map split)) (quote (hello world)))
;;=>
10

```


[<sub><sup>Back to index</sup></sub>](#api-index)
-----------------------------------------------------


<a id=""complement""></a>
## `complement`

Return the logical complement of the supplied function

Type: function

Arity: 1

Args: `(f)`


### Examples

```
> ((complement even?) 1)
;;=>
t
> (map (complement odd?) (range 5))
;;=>
(t () t () t)

```


[<sub><sup>Back to index</sup></sub>](#api-index)
-----------------------------------------------------


<a id=""concat""></a>
## `concat`

Concatenenate any number of lists

Type: function

Arity: 0+

Args: `(() . lists)`


### Examples

```
> (concat (range 3) (quote (wow)) (reverse (range 3)))
;;=>
(0 1 2 wow 2 1 0)

```


[<sub><sup>Back to index</sup></sub>](#api-index)
-----------------------------------------------------


<a id=""concat2""></a>
## `concat2`

Concatenate two lists

Type: function

Arity: 2

Args: `(a b)`


### Examples

```
> (concat2 () ())
;;=>
()
> (concat2 (quote (1 2)) (quote (3 4)))
;;=>
(1 2 3 4)

```


[<sub><sup>Back to index</sup></sub>](#api-index)
-----------------------------------------------------


<a id=""cond""></a>
## `cond`

Fundamental branching construct

Type: special form

Arity: 0+

Args: `(() . pairs)`


### Examples

```
> (cond)
;;=> ()
> (cond (t 1) (t 2) (t 3))
;;=> 1
> (cond (() 1) (t 2))
;;=> 2

```


[<sub><sup>Back to index</sup></sub>](#api-index)
-----------------------------------------------------


<a id=""cons""></a>
## `cons`

Add an element to the front of a (possibly empty) list

Type: native function

Arity: 2

Args: `(x xs)`


### Examples

```
> (cons 1 (quote (one two)))
;;=>
(1 one two)
> (cons 1 ())
;;=>
(1)
> (cons 1 2)
;;=>
(1 . 2)

```


[<sub><sup>Back to index</sup></sub>](#api-index)
-----------------------------------------------------


<a id=""constantly""></a>
## `constantly`

Given a value, return a function which always returns that value

Type: function

Arity: 1

Args: `(x)`


### Examples

```
> (map (constantly t) (range 10))
;;=>
(t t t t t t t t t t)

```


[<sub><sup>Back to index</sup></sub>](#api-index)
-----------------------------------------------------


<a id=""dec""></a>
## `dec`

Return the supplied integer argument, minus one

Type: function

Arity: 1

Args: `(n)`


### Examples

```
> (dec 2)
;;=>
1
> (dec -1)
;;=>
-2

```


[<sub><sup>Back to index</sup></sub>](#api-index)
-----------------------------------------------------


<a id=""def""></a>
## `def`

Set a value

Type: special form

Arity: 2

Args: `(name value)`


### Examples

```
> (def a 1)
;;=>
1
> a
;;=>
1

```


[<sub><sup>Back to index</sup></sub>](#api-index)
-----------------------------------------------------


<a id=""defmacro""></a>
## `defmacro`

Create and name a macro

Type: special form

Arity: 2+

Args: `(name args . body)`


### Examples

```
> (defmacro ignore-car (l)
    (doc (ignore first element of list,
                 treat rest as normal expression)
         (examples
           (ignore-car (adorable + 1 2 3))
           (ignore-car (deplorable - 4 4))))
    (cdr l))
;;=>
()
> (ignore-car (hilarious * 2 3 4))
;;=>
24
	
```


[<sub><sup>Back to index</sup></sub>](#api-index)
-----------------------------------------------------


<a id=""defn""></a>
## `defn`

Create and name a function

Type: special form

Arity: 2+

Args: `(name args . body)`


### Examples

```
> (defn add (x y) (+ x y))
;;=>
()
> (add 1 2)
;;=>
3
> (defn add (x y)
    (doc (add two numbers)
         (examples
           (add 1 2)))
    (+ x y))
;;=>
()
> (doc add)
;;=>
((add two numbers) (examples (add 1 2)))

```


[<sub><sup>Back to index</sup></sub>](#api-index)
-----------------------------------------------------


<a id=""doc""></a>
## `doc`

Return the doclist for a function

Type: native function

Arity: 1

Args: `(x)`


### Examples

```
> (doc (lambda (x) (doc (does stuff) (and other stuff)) (+ x 1)))
;;=>
((does stuff) (and other stuff))

```


[<sub><sup>Back to index</sup></sub>](#api-index)
-----------------------------------------------------


<a id=""dotimes""></a>
## `dotimes`

Execute body for each value in a list

Type: macro

Arity: 1+

Args: `(n . body)`



[<sub><sup>Back to index</sup></sub>](#api-index)
-----------------------------------------------------


<a id=""downcase""></a>
## `downcase`

Return a new atom with all characters in lower case

Type: native function

Arity: 1

Args: `(x)`


### Examples

```
> (downcase (quote Hello))
;;=>
hello
> (downcase (quote HELLO))
;;=>
hello

```


[<sub><sup>Back to index</sup></sub>](#api-index)
-----------------------------------------------------


<a id=""drop""></a>
## `drop`

Drop n items from a list, then return the rest

Type: function

Arity: 2

Args: `(n l)`


### Examples

```
> (drop 3 (range 10))
;;=>
(3 4 5 6 7 8 9)

```


[<sub><sup>Back to index</sup></sub>](#api-index)
-----------------------------------------------------


<a id=""enumerate""></a>
## `enumerate`

Returning list of (i, x) pairs where i is the index (from zero) and x is the original element from l

Type: function

Arity: 1

Args: `(l)`


### Examples

```
> (enumerate (quote (a b c)))
;;=>
((0 a) (1 b) (2 c))

```


[<sub><sup>Back to index</sup></sub>](#api-index)
-----------------------------------------------------


<a id=""error""></a>
## `error`

Raise an error

Type: special form

Arity: 1

Args: `(l)`


### Examples

```
> (defn ensure-list (x)
    (when-not (list? x)
      (error '(ensure-list argument not a list!))))
;;=>
()
> (ensure-list 3)
;;=>
ERROR in '(ensure-list 3)':
(ensure-list argument not a list!)

```


[<sub><sup>Back to index</sup></sub>](#api-index)
-----------------------------------------------------


<a id=""errors""></a>
## `errors`

Error checking, for tests

Type: special form

Arity: 1+

Args: `(expected . body)`


### Examples

```
> (errors '(is not a function)
    (1))
;;=>
()
> (errors '(is not a function)
    (+))
;;=>
ERROR in '(errors (quote (is not a function)) (+))':
error not found in ((quote (is not a function)) (+))

```


[<sub><sup>Back to index</sup></sub>](#api-index)
-----------------------------------------------------


<a id=""eval""></a>
## `eval`

Evaluate an expression

Type: native function

Arity: 1

Args: `(x)`


### Examples

```
> (eval (quote (one two)))
;;=>
ERROR: ((builtin function eval) (evaluating function object) (unknown symbol: one))
> (eval (quote (+ 1 2)))
;;=>
3

```


[<sub><sup>Back to index</sup></sub>](#api-index)
-----------------------------------------------------


<a id=""even-QMARK""></a>
## `even?`

Return true if the supplied integer argument is even

Type: function

Arity: 1

Args: `(n)`


### Examples

```
> (map even? (range 5))
;;=>
(t () t () t)

```


[<sub><sup>Back to index</sup></sub>](#api-index)
-----------------------------------------------------


<a id=""every""></a>
## `every`

Return t if f applied to every element in l is truthy, else ()

Type: function

Arity: 2

Args: `(f l)`


### Examples

```
> (every odd? (quote (1 3 5)))
;;=>
t
> (every odd? (quote (1 2 3 5)))
;;=>
()

```


[<sub><sup>Back to index</sup></sub>](#api-index)
-----------------------------------------------------


<a id=""exclaim""></a>
## `exclaim`

Return l as a sentence... emphasized!

Type: function

Arity: 1

Args: `(l)`


### Examples

```
> (exclaim (quote (well, hello)))
;;=>
(Well, hello!)
> (exclaim (quote (help)))
;;=>
(Help!)
> (exclaim (quote (begone, fiend)))
;;=>
(Begone, fiend!)

```


[<sub><sup>Back to index</sup></sub>](#api-index)
-----------------------------------------------------


<a id=""exit""></a>
## `exit`

Exit the program

Type: native function

Arity: 0

Args: `()`



[<sub><sup>Back to index</sup></sub>](#api-index)
-----------------------------------------------------".
Definition api_md2 : string := "


<a id=""filter""></a>
## `filter`

Keep only values for which function f is true

Type: function

Arity: 2

Args: `(f l)`


### Examples

```
> (filter odd? (range 5))
;;=>
(1 3)

```


[<sub><sup>Back to index</sup></sub>](#api-index)
-----------------------------------------------------


<a id=""flatten""></a>
## `flatten`

Return a (possibly nested) list, flattened

Type: function

Arity: 1

Args: `(l)`


### Examples

```
> (flatten (quote (this is a (really (nested) list))))
;;=>
(this is a really nested list)

```


[<sub><sup>Back to index</sup></sub>](#api-index)
-----------------------------------------------------


<a id=""foreach""></a>
## `foreach`

Execute body for each value in a list

Type: macro

Arity: 2+

Args: `(x xs . body)`



[<sub><sup>Back to index</sup></sub>](#api-index)
-----------------------------------------------------


<a id=""forms""></a>
## `forms`

Return available operators, as a list

Type: native function

Arity: 0

Args: `()`



[<sub><sup>Back to index</sup></sub>](#api-index)
-----------------------------------------------------


<a id=""fuse""></a>
## `fuse`

Fuse a list of numbers or atoms into a single atom

Type: native function

Arity: 1

Args: `(x)`


### Examples

```
> (fuse (quote (A B C)))
;;=>
ABC
> (fuse (reverse (range 10)))
;;=>
9876543210

```


[<sub><sup>Back to index</sup></sub>](#api-index)
-----------------------------------------------------


<a id=""gensym""></a>
## `gensym`

Return a new symbol

Type: native function

Arity: 0+

Args: `(() . more)`



[<sub><sup>Back to index</sup></sub>](#api-index)
-----------------------------------------------------


<a id=""help""></a>
## `help`

Print a help message

Type: native function

Arity: 0

Args: `()`



[<sub><sup>Back to index</sup></sub>](#api-index)
-----------------------------------------------------


<a id=""identity""></a>
## `identity`

Return the argument

Type: function

Arity: 1

Args: `(x)`



[<sub><sup>Back to index</sup></sub>](#api-index)
-----------------------------------------------------


<a id=""if""></a>
## `if`

Simple conditional with two branches

Type: macro

Arity: 3

Args: `(condition then else)`


### Examples

```
> (if t 111 333)
;;=>
111
> (if () (quote abc) (quote def))
;;=>
def

```


[<sub><sup>Back to index</sup></sub>](#api-index)
-----------------------------------------------------


<a id=""if-not""></a>
## `if-not`

Simple (inverted) conditional with two branches

Type: macro

Arity: 3

Args: `(condition then else)`


### Examples

```
> (if-not (odd? 3) (quote (help, they broke three)) (quote (three is odd)))
;;=>
(three is odd)

```


[<sub><sup>Back to index</sup></sub>](#api-index)
-----------------------------------------------------


<a id=""inc""></a>
## `inc`

Return the supplied integer argument, plus one

Type: function

Arity: 1

Args: `(n)`



[<sub><sup>Back to index</sup></sub>](#api-index)
-----------------------------------------------------


<a id=""interpose""></a>
## `interpose`

Interpose x between all elements of l

Type: function

Arity: 2

Args: `(x l)`


### Examples

```
> (interpose BANG (range 5))
;;=>
(0 ! 1 ! 2 ! 3 ! 4)

```


[<sub><sup>Back to index</sup></sub>](#api-index)
-----------------------------------------------------


<a id=""is""></a>
## `is`

Assert a condition is truthy, or show failing code

Type: macro

Arity: 1

Args: `(condition)`


### Examples

```
> (is t)
;;=>
()
> (is (car (cons () (quote (this one should fail)))))
;;=>
ERROR: ((assertion failed: (car (cons () (quote (this one should fail))))))

```


[<sub><sup>Back to index</sup></sub>](#api-index)
-----------------------------------------------------


<a id=""isqrt""></a>
## `isqrt`

Integer square root

Type: native function

Arity: 1

Args: `(x)`


### Examples

```
> (isqrt 4)
;;=>
2
> (isqrt 5)
;;=>
2

```


[<sub><sup>Back to index</sup></sub>](#api-index)
-----------------------------------------------------


<a id=""juxt""></a>
## `juxt`

Create a function which combines multiple operations into a single list of results

Type: function

Arity: 0+

Args: `(() . fs)`


### Examples

```
> ((juxt inc dec) 0)
;;=>
(1 -1)
> (map (juxt inc dec) (range 3))
;;=>
((1 -1) (2 0) (3 1))
> (map (juxt even? odd? zero?) (quote (-2 -1 0 1 2)))
;;=>
((t () ()) (() t ()) (t () t) (() t ()) (t () ()))
> (map (juxt) (range 3))
;;=>
(() () ())

```


[<sub><sup>Back to index</sup></sub>](#api-index)
-----------------------------------------------------


<a id=""lambda""></a>
## `lambda`

Create a function

Type: special form

Arity: 1+

Args: `(args . more)`


### Examples

```
> ((lambda () t))
;;=>
t
> ((lambda (x) (+ 5 x)) 5)
;;=>
10
> ((lambda my-length (x)
     (if-not x
       0
       (+ 1 (my-length (cdr x)))))
    (range 20))
;;=>
20

```


[<sub><sup>Back to index</sup></sub>](#api-index)
-----------------------------------------------------


<a id=""last""></a>
## `last`

Return the last item in a list

Type: function

Arity: 1

Args: `(l)`


### Examples

```
> (last (range 10))
;;=>
9
> (last (split (quote ATOM!)))
;;=>
!

```


[<sub><sup>Back to index</sup></sub>](#api-index)
-----------------------------------------------------


<a id=""len""></a>
## `len`

Return the length of a list

Type: native function

Arity: 1

Args: `(x)`


### Examples

```
> (len (range 10))
;;=>
10

```


[<sub><sup>Back to index</sup></sub>](#api-index)
-----------------------------------------------------


<a id=""let""></a>
## `let`

Create a local scope with bindings

Type: special form

Arity: 1+

Args: `(binding-pairs . body)`


### Examples

```
> (let ((a 1)
        (b 2))
    (+ a b))
;;=>
3

```


[<sub><sup>Back to index</sup></sub>](#api-index)
-----------------------------------------------------


<a id=""let-STAR""></a>
## `let*`

Let form with ability to refer to previously-bound pairs in the binding list

Type: macro

Arity: 1+

Args: `(pairs . body)`


### Examples

```
> (let* ((a 1) (b (inc a))) (+ a b))
;;=>
3

```


[<sub><sup>Back to index</sup></sub>](#api-index)
-----------------------------------------------------


<a id=""list""></a>
## `list`

Return a list of the given arguments

Type: native function

Arity: 0+

Args: `(() . xs)`


### Examples

```
> (list 1 2 3)
;;=>
(1 2 3)
> (list)
;;=>
()

```


[<sub><sup>Back to index</sup></sub>](#api-index)
-----------------------------------------------------


<a id=""list-STAR""></a>
## `list*`

Create a list by consing everything but the last arg onto the last

Type: function

Arity: 0+

Args: `(() . args)`


### Examples

```
> (list* 1 2 (quote (3)))
;;=>
(1 2 3)
> (list* 1 2 (quote (3 4)))
;;=>
(1 2 3 4)
> (list*)
;;=>
()

```


[<sub><sup>Back to index</sup></sub>](#api-index)
-----------------------------------------------------


<a id=""list-QMARK""></a>
## `list?`

Return t if the argument is a list, () otherwise

Type: native function

Arity: 1

Args: `(x)`


### Examples

```
> (list? (range 10))
;;=>
t
> (list? 1)
;;=>
()

```


[<sub><sup>Back to index</sup></sub>](#api-index)
-----------------------------------------------------


<a id=""load""></a>
## `load`

Load and execute a file

Type: native function

Arity: 1

Args: `(filename)`



[<sub><sup>Back to index</sup></sub>](#api-index)
-----------------------------------------------------


<a id=""loop""></a>
## `loop`

Loop forever

Type: special form

Arity: 1+

Args: `()`


### Examples

```
> (loop
    (printl '(Help me, I am looping forever!))
    (sleep 1000))
;; Prints =>
Help me, I am looping forever!
Help me, I am looping forever!
Help me, I am looping forever!
...

```


[<sub><sup>Back to index</sup></sub>](#api-index)
-----------------------------------------------------


<a id=""macroexpand-1""></a>
## `macroexpand-1`

Expand a macro

Type: native function

Arity: 1

Args: `(x)`


### Examples

```
> (macroexpand-1 (quote (+ x 1)))
;;=>
(+ x 1)
> (macroexpand-1 (quote (if () 1 2)))
;;=>
(cond (() 1) (t 2))

```


[<sub><sup>Back to index</sup></sub>](#api-index)
-----------------------------------------------------


<a id=""map""></a>
## `map`

Apply the supplied function to every element in the supplied list

Type: function

Arity: 2

Args: `(f l)`


### Examples

```
> (map odd? (range 5))
;;=>
(() t () t ())
> (map true? (quote (foo t () t 3)))
;;=>
(() t () t ())

```


[<sub><sup>Back to index</sup></sub>](#api-index)
-----------------------------------------------------


<a id=""mapcat""></a>
## `mapcat`

Map a function onto a list and concatenate results

Type: function

Arity: 2

Args: `(f l)`


### Examples

```
> (map list (range 5))
;;=>
((0) (1) (2) (3) (4))
> (mapcat list (range 5))
;;=>
(0 1 2 3 4)
> (map range (range 5))
;;=>
(() (0) (0 1) (0 1 2) (0 1 2 3))
> (mapcat range (range 5))
;;=>
(0 0 1 0 1 2 0 1 2 3)

```


[<sub><sup>Back to index</sup></sub>](#api-index)
-----------------------------------------------------


<a id=""max""></a>
## `max`

Find maximum of one or more numbers

Type: function

Arity: 0+

Args: `(() . args)`


### Examples

```
> (".
Definition api_md3 : string := "max -5)
;;=>
-5
> (max 2 3)
;;=>
3
> (apply max (range 10))
;;=>
9

```


[<sub><sup>Back to index</sup></sub>](#api-index)
-----------------------------------------------------


<a id=""min""></a>
## `min`

Find minimum of one or more numbers

Type: function

Arity: 0+

Args: `(() . args)`


### Examples

```
> (min -5)
;;=>
-5
> (min 2 3)
;;=>
2
> (apply min (range 10))
;;=>
0

```


[<sub><sup>Back to index</sup></sub>](#api-index)
-----------------------------------------------------


<a id=""neg-QMARK""></a>
## `neg?`

Return true iff the supplied integer argument is less than zero

Type: function

Arity: 1

Args: `(n)`


### Examples

```
> (map neg? (map (lambda (x) (- x 5)) (range 10)))
;;=>
(t t t t t () () () () ())

```


[<sub><sup>Back to index</sup></sub>](#api-index)
-----------------------------------------------------


<a id=""not""></a>
## `not`

Return t if the argument is nil, () otherwise

Type: native function

Arity: 1

Args: `(x)`


### Examples

```
> (not ())
;;=>
t
> (not t)
;;=>
()
> (not (range 10))
;;=>
()

```


[<sub><sup>Back to index</sup></sub>](#api-index)
-----------------------------------------------------


<a id=""not=""></a>
## `not=`

Complement of = function

Type: function

Arity: 0+

Args: `(() . terms)`


### Examples

```
> (not= 1 2)
;;=>
t
> (not= (quote a) (quote a))
;;=>
()

```


[<sub><sup>Back to index</sup></sub>](#api-index)
-----------------------------------------------------


<a id=""nth""></a>
## `nth`

Find the nth value of a list, starting from zero

Type: function

Arity: 2

Args: `(n l)`


### Examples

```
> (nth 3 (quote (one two three four five)))
;;=>
four
> (nth 1000 (range 2))
;;=>
()

```


[<sub><sup>Back to index</sup></sub>](#api-index)
-----------------------------------------------------


<a id=""number-QMARK""></a>
## `number?`

Return true if the argument is a number, else ()

Type: native function

Arity: 1

Args: `(x)`


### Examples

```
> (number? 1)
;;=>
t
> (number? t)
;;=>
()
> (number? +)
;;=>
()

```


[<sub><sup>Back to index</sup></sub>](#api-index)
-----------------------------------------------------


<a id=""odd-QMARK""></a>
## `odd?`

Return true if the supplied integer argument is odd

Type: function

Arity: 1

Args: `(n)`


### Examples

```
> (map even? (range 5))
;;=>
(t () t () t)

```


[<sub><sup>Back to index</sup></sub>](#api-index)
-----------------------------------------------------


<a id=""or""></a>
## `or`

Boolean or

Type: special form

Arity: 0+

Args: `(() . xs)`


### Examples

```
> (or)
;; => false
> (or t t)
;; => true
> (or t t ())
;; => t
```


[<sub><sup>Back to index</sup></sub>](#api-index)
-----------------------------------------------------


<a id=""partial""></a>
## `partial`

Partial function application

Type: function

Arity: 1+

Args: `(f . args)`


### Examples

```
> ((partial + 1) 1)
;;=>
2
> ((partial + 2 3) 4 5)
;;=>
14

```


[<sub><sup>Back to index</sup></sub>](#api-index)
-----------------------------------------------------


<a id=""period""></a>
## `period`

Add a period at end of atom

Type: function

Arity: 1

Args: `(a)`


### Examples

```
> (period (quote Woot))
;;=>
Woot.

```


[<sub><sup>Back to index</sup></sub>](#api-index)
-----------------------------------------------------


<a id=""pos-QMARK""></a>
## `pos?`

Return true iff the supplied integer argument is greater than zero

Type: function

Arity: 1

Args: `(n)`


### Examples

```
> (map pos? (map (lambda (x) (- x 5)) (range 10)))
;;=>
(() () () () () () t t t t)

```


[<sub><sup>Back to index</sup></sub>](#api-index)
-----------------------------------------------------


<a id=""print""></a>
## `print`

Print the arguments

Type: native function

Arity: 0+

Args: `(() . xs)`



[<sub><sup>Back to index</sup></sub>](#api-index)
-----------------------------------------------------


<a id=""printl""></a>
## `printl`

Print a list argument, without parentheses

Type: native function

Arity: 1

Args: `(x)`



[<sub><sup>Back to index</sup></sub>](#api-index)
-----------------------------------------------------


<a id=""println""></a>
## `println`

Print the arguments and a newline

Type: native function

Arity: 0+

Args: `(() . xs)`



[<sub><sup>Back to index</sup></sub>](#api-index)
-----------------------------------------------------


<a id=""progn""></a>
## `progn`

Execute multiple statements, returning the last

Type: macro

Arity: 0+

Args: `(() . body)`


### Examples

```
> (progn)
;;=>
()
> (progn 1 2 3)
;;=>
3

```


[<sub><sup>Back to index</sup></sub>](#api-index)
-----------------------------------------------------


<a id=""punctuate""></a>
## `punctuate`

Return x capitalized, with punctuation determined by the supplied function

Type: function

Arity: 2

Args: `(f x)`



[<sub><sup>Back to index</sup></sub>](#api-index)
-----------------------------------------------------


<a id=""punctuate-atom""></a>
## `punctuate-atom`

Add a punctuation mark at end of atom

Type: function

Arity: 2

Args: `(a mark)`


### Examples

```
> (punctuate-atom (quote list) (quote *))
;;=>
list*
> (punctuate-atom (quote list) COLON)
;;=>
list:

```


[<sub><sup>Back to index</sup></sub>](#api-index)
-----------------------------------------------------


<a id=""quote""></a>
## `quote`

Quote an expression

Type: special form

Arity: 1

Args: `(x)`


### Examples

```
> (quote foo)
foo
> (quote (1 2 3))
(1 2 3)
> '(1 2 3)
(1 2 3)

```


[<sub><sup>Back to index</sup></sub>](#api-index)
-----------------------------------------------------


<a id=""randalpha""></a>
## `randalpha`

Return a list of random (English/Latin/unaccented) lower-case alphabetic characters

Type: function

Arity: 1

Args: `(n)`



[<sub><sup>Back to index</sup></sub>](#api-index)
-----------------------------------------------------


<a id=""randchoice""></a>
## `randchoice`

Return an element at random from the supplied list

Type: function

Arity: 1

Args: `(l)`



[<sub><sup>Back to index</sup></sub>](#api-index)
-----------------------------------------------------


<a id=""randigits""></a>
## `randigits`

Return a random integer between 0 and the argument minus 1

Type: function

Arity: 1

Args: `(n)`



[<sub><sup>Back to index</sup></sub>](#api-index)
-----------------------------------------------------


<a id=""randint""></a>
## `randint`

Return a random integer between 0 and the argument minus 1

Type: native function

Arity: 1

Args: `(x)`



[<sub><sup>Back to index</sup></sub>](#api-index)
-----------------------------------------------------


<a id=""range""></a>
## `range`

List of integers from 0 to n

Type: function

Arity: 1

Args: `(n)`


### Examples

```
> (range 10)
;;=>
(0 1 2 3 4 5 6 7 8 9)
> (len (range 100))
;;=>
100

```


[<sub><sup>Back to index</sup></sub>](#api-index)
-----------------------------------------------------


<a id=""readlist""></a>
## `readlist`

Read a list from stdin

Type: native function

Arity: 0

Args: `()`



[<sub><sup>Back to index</sup></sub>](#api-index)
-----------------------------------------------------


<a id=""reduce""></a>
## `reduce`

Successively apply a function against a list of arguments

Type: function

Arity: 2+

Args: `(f x . args)`


### Examples

```
> (reduce * (cdr (range 10)))
;;=>
362880
> (reduce (lambda (acc x) (cons x acc)) () (range 10))
;;=>
(9 8 7 6 5 4 3 2 1 0)

```


[<sub><sup>Back to index</sup></sub>](#api-index)
-----------------------------------------------------


<a id=""rem""></a>
## `rem`

Return remainder when second arg divides first

Type: native function

Arity: 2

Args: `(x y)`


### Examples

```
> (rem 5 2)
;;=>
1
> (rem 4 2)
;;=>
0
> (rem 1 0)
;;=>
ERROR: ((builtin function rem) (division by zero))

```


[<sub><sup>Back to index</sup></sub>](#api-index)
-----------------------------------------------------


<a id=""remove""></a>
## `remove`

Keep only values for which function f is false / the empty list

Type: function

Arity: 2

Args: `(f l)`


### Examples

```
> (remove odd? (range 5))
;;=>
(0 2 4)

```


[<sub><sup>Back to index</sup></sub>](#api-index)
-----------------------------------------------------


<a id=""repeat""></a>
## `repeat`

Return a list of length n whose elements are all x

Type: function

Arity: 2

Args: `(n x)`


### Examples

```
> (repeat 5 (quote repetitive))
;;=>
(repetitive repetitive repetitive repetitive repetitive)

```


[<sub><sup>Back to index</sup></sub>](#api-index)
-----------------------------------------------------


<a id=""repeatedly""></a>
## `repeatedly`

Return a list of length n whose elements are made from calling f repeatedly

Type: function

Arity: 2

Args: `(n f)`


### Examples

```
> (repeatedly 3 (lambda () (range 5)))
;;=>
((0 1 2 3 4) (0 1 2 3 4) (0 1 2 3 4))

```


[<sub><sup>Back to index</sup></sub>](#api-index)
-----------------------------------------------------


<a id=""reverse""></a>
## `reverse`

Reverse a list

Type: function

Arity: 1

Args: `(l)`


### Examples

```
> (= (quote (c b a)) (reverse (quote (a b c))))
;;=".
Definition api_md4 : string := ">
t

```


[<sub><sup>Back to index</sup></sub>](#api-index)
-----------------------------------------------------


<a id=""screen-clear""></a>
## `screen-clear`

Clear the screen

Type: native function

Arity: 0

Args: `()`



[<sub><sup>Back to index</sup></sub>](#api-index)
-----------------------------------------------------


<a id=""screen-end""></a>
## `screen-end`

Stop screen for text UIs, return to console mode

Type: native function

Arity: 0

Args: `()`



[<sub><sup>Back to index</sup></sub>](#api-index)
-----------------------------------------------------


<a id=""screen-get-key""></a>
## `screen-get-key`

Return a keystroke as an atom

Type: native function

Arity: 0

Args: `()`



[<sub><sup>Back to index</sup></sub>](#api-index)
-----------------------------------------------------


<a id=""screen-size""></a>
## `screen-size`

Return the screen size: width, height

Type: native function

Arity: 0

Args: `()`



[<sub><sup>Back to index</sup></sub>](#api-index)
-----------------------------------------------------


<a id=""screen-start""></a>
## `screen-start`

Start screen for text UIs

Type: native function

Arity: 0

Args: `()`



[<sub><sup>Back to index</sup></sub>](#api-index)
-----------------------------------------------------


<a id=""screen-write""></a>
## `screen-write`

Write a string to the screen

Type: native function

Arity: 3

Args: `(x y list)`



[<sub><sup>Back to index</sup></sub>](#api-index)
-----------------------------------------------------


<a id=""second""></a>
## `second`

Return the second element of a list, or () if not enough elements

Type: function

Arity: 1

Args: `(l)`


### Examples

```
> (second ())
;;=>
()
> (second (quote (a)))
;;=>
()
> (second (quote (a b)))
;;=>
b
> (second (quote (1 2 3)))
;;=>
2

```


[<sub><sup>Back to index</sup></sub>](#api-index)
-----------------------------------------------------


<a id=""set-BANG""></a>
## `set!`

Update a value in an existing binding

Type: special form

Arity: 2

Args: `(name value)`


### Examples

```
> (def a 1)
;;=>
1
> a
;;=>
1
> (set! a 2)
;;=>
2
> a
;;=>
2

```


[<sub><sup>Back to index</sup></sub>](#api-index)
-----------------------------------------------------


<a id=""shell""></a>
## `shell`

Run a shell subprocess, and return stdout, stderr, and exit code

Type: native function

Arity: 1

Args: `(cmd)`



[<sub><sup>Back to index</sup></sub>](#api-index)
-----------------------------------------------------


<a id=""shuffle""></a>
## `shuffle`

Return a (quickly!) shuffled list

Type: native function

Arity: 1

Args: `(xs)`



[<sub><sup>Back to index</sup></sub>](#api-index)
-----------------------------------------------------


<a id=""sleep""></a>
## `sleep`

Sleep for the given number of milliseconds

Type: native function

Arity: 1

Args: `(ms)`



[<sub><sup>Back to index</sup></sub>](#api-index)
-----------------------------------------------------


<a id=""some""></a>
## `some`

Return f applied to first element for which that result is truthy, else ()

Type: function

Arity: 2

Args: `(f l)`


### Examples

```
> (some even? (quote (1 3 5 7 9 11 13)))
;;=>
()
> (some even? (quote (1 3 5 7 9 1000 11 13)))
;;=>
t

```


[<sub><sup>Back to index</sup></sub>](#api-index)
-----------------------------------------------------


<a id=""sort""></a>
## `sort`

Sort a list

Type: native function

Arity: 1

Args: `(xs)`


### Examples

```
> (sort (quote (3 2 1)))
;;=>
(1 2 3)
> (sort (quote ()))
;;=>
()
> (sort (quote (c b a)))
;;=>
(a b c)

```


[<sub><sup>Back to index</sup></sub>](#api-index)
-----------------------------------------------------


<a id=""sort-by""></a>
## `sort-by`

Sort a list by a function

Type: native function

Arity: 2

Args: `(f xs)`


### Examples

```
> (sort-by first (quote ((3) (2) (1))))
;;=>
((1) (2) (3))
> (sort-by first (quote ()))
;;=>
()
> (sort-by second (quote ((quux 333) (zip 222) (afar 111))))
;;=>
((afar 111) (zip 222) (quux 333))

```


[<sub><sup>Back to index</sup></sub>](#api-index)
-----------------------------------------------------


<a id=""source""></a>
## `source`

Show source for a function

Type: native function

Arity: 1

Args: `(form)`


### Examples

```
> (source map)
;;=>
(lambda (f l) (when l (cons (f (car l)) (map f (cdr l)))))
> (source +)
;;=>
ERROR: ((builtin function source) (cannot get source of builtin function <builtin: +>))

```


[<sub><sup>Back to index</sup></sub>](#api-index)
-----------------------------------------------------


<a id=""split""></a>
## `split`

Split an atom or number into a list of single-digit numbers or single-character atoms

Type: native function

Arity: 1

Args: `(x)`


### Examples

```
> (split 123)
;;=>
(1 2 3)
> (split (quote abc))
;;=>
(a b c)

```


[<sub><sup>Back to index</sup></sub>](#api-index)
-----------------------------------------------------


<a id=""swallow""></a>
## `swallow`

Swallow errors thrown in body, return t if any occur

Type: special form

Arity: 0+

Args: `(() . body)`


### Examples

```
> (swallow
	(error '(boom)))
;;=>
t
> (swallow 1 2 3)
;;=>
()

```


[<sub><sup>Back to index</sup></sub>](#api-index)
-----------------------------------------------------


<a id=""syntax-quote""></a>
## `syntax-quote`

Syntax-quote an expression

Type: special form

Arity: 1

Args: `(x)`


### Examples

```
> (syntax-quote foo)
foo
> (syntax-quote (1 2 3 4))
(1 2 3 4)
> (syntax-quote (1 (unquote (+ 1 1)) (splicing-unquote (list 3 4))))
(1 2 3 4)
> `(1 ~(+ 1 1) ~@(list 3 4))
(1 2 3 4)

```


[<sub><sup>Back to index</sup></sub>](#api-index)
-----------------------------------------------------


<a id=""take""></a>
## `take`

Take up to n items from the supplied list

Type: function

Arity: 2

Args: `(n l)`


### Examples

```
> (take 3 (range 10))
;;=>
(0 1 2)

```


[<sub><sup>Back to index</sup></sub>](#api-index)
-----------------------------------------------------


<a id=""test""></a>
## `test`

Run tests

Type: special form

Arity: 0+

Args: `(() . body)`



[<sub><sup>Back to index</sup></sub>](#api-index)
-----------------------------------------------------


<a id=""tosentence""></a>
## `tosentence`

Return l as a sentence... capitalized, with a period at the end

Type: function

Arity: 1

Args: `(l)`


### Examples

```
> (tosentence (quote (to be, or not to be, that is the question)))
;;=>
(To be, or not to be, that is the question.)

```


[<sub><sup>Back to index</sup></sub>](#api-index)
-----------------------------------------------------


<a id=""true-QMARK""></a>
## `true?`

Return t if the argument is t

Type: function

Arity: 1

Args: `(x)`


### Examples

```
> (true? 3)
;;=>
()
> (true? t)
;;=>
t

```


[<sub><sup>Back to index</sup></sub>](#api-index)
-----------------------------------------------------


<a id=""try""></a>
## `try`

Try to evaluate body, catch errors and handle them

Type: special form

Arity: 0+

Args: `(() . body)`


### Examples

```
> (try (error '(boom)))
;;=>
ERROR:
((boom))
> (try
    (error '(boom))
    (catch e
      (printl e)))
;;=>
(boom)
> (try (/ 1 0) (catch e (len e)))
2
>

```


[<sub><sup>Back to index</sup></sub>](#api-index)
-----------------------------------------------------


<a id=""upcase""></a>
## `upcase`

Return the uppercase version of the given atom

Type: native function

Arity: 1

Args: `(x)`


### Examples

```
> (upcase (quote abc))
;;=>
ABC

```


[<sub><sup>Back to index</sup></sub>](#api-index)
-----------------------------------------------------


<a id=""version""></a>
## `version`

Return the version of the interpreter

Type: native function

Arity: 0

Args: `()`


### Examples

```
> (version)
;;=>
(0 0 57 dirty)

```


[<sub><sup>Back to index</sup></sub>](#api-index)
-----------------------------------------------------


<a id=""when""></a>
## `when`

Simple conditional with single branch

Type: macro

Arity: 1+

Args: `(condition . body)`


### Examples

```
> (when () (/ 1 0))
;;=>
()
> (when t (quote (the sun rises in the east)))
;;=>
(the sun rises in the east)

```


[<sub><sup>Back to index</sup></sub>](#api-index)
-----------------------------------------------------


<a id=""when-not""></a>
## `when-not`

Complement of the when macro

Type: macro

Arity: 1+

Args: `(condition . body)`


### Examples

```
> (when-not () (quote (do all the things)))
;;=>
(do all the things)
> (when-not t (error (quote (oh no mister bill))))
;;=>
()

```


[<sub><sup>Back to index</sup></sub>](#api-index)
-----------------------------------------------------


<a id=""while""></a>
## `while`

Loop for as long as condition is true

Type: macro

Arity: 1+

Args: `(condition . body)`


### Examples

```
> (while () (launch-missiles))
;;=>
()

```


[<sub><sup>Back to index</sup></sub>](#api-index)
-----------------------------------------------------


<a id=""with-screen""></a>
## `with-screen`

Prepare for and clean up after screen operations

Type: macro

Arity: 0+

Args: `(() . body)`



[<sub><sup>Back to index</sup></sub>](#api-index)
-----------------------".
Definition api_md5 : string := "------------------------------


<a id=""zero-QMARK""></a>
## `zero?`

Return true iff the supplied argument is zero

Type: function

Arity: 1

Args: `(n)`


### Examples

```
> (zero? (quote zero))
;;=>
()
> (zero? (- 1 1))
;;=>
t

```


[<sub><sup>Back to index</sup></sub>](#api-index)
-----------------------------------------------------

".
Definition api_md : string := (api_md0 ++ api_md1 ++ api_md2 ++ api_md3 ++ api_md4 ++ api_md5)%string.
Goal True.
check (let (o, w) := run_main (Z.to_nat 200000) Inf (Options false false true "" []) (test_host []) [] in
       match o with Exited 0 => String.eqb (out_text w) api_md | _ => false end).
Qed.
