(** * Meta: the descriptive fields of built-in functions and special forms
    (transcribed from builtin.go:206-1316 and doc.go:32-352). *)
From Verif.Model Require Import Base Syntax.

(** The record fields of [Builtin] other than Name and Fn (builtin.go:51-61).
    [m_doc] is the text given to DOC (builtin.go:203-205); every text already
    starts with a capital letter, so [capitalize] is the identity on it. *)
Record meta : Type := Meta {
  m_doc : string; m_arity : Z; m_nary : bool; m_args : val; m_examples : val }.

Definition builtin_meta (b : builtin) : meta :=
  match b with
  | BAdd => (* builtin.go:207-231 *)
      Meta "Add 0 or more numbers" 0 true
        (VCons VNil (VAtom "xs"))
        (vlist [(vlist [(VAtom "+"); (VNum 1); (VNum 2); (VNum 3)]); (vlist [(VAtom "+")])])
  | BSub => (* builtin.go:232-263 *)
      Meta "Subtract 0 or more numbers from the first argument" 1 true
        (VCons (VAtom "x") (VAtom "xs"))
        (vlist [(vlist [(VAtom "-"); (VNum 1); (VNum 1)]); (vlist [(VAtom "-"); (VNum 5); (VNum 2); (VNum 1)]); (vlist [(VAtom "-"); (VNum 99)])])
  | BMul => (* builtin.go:264-288 *)
      Meta "Multiply 0 or more numbers" 0 true
        (VCons VNil (VAtom "xs"))
        (vlist [(vlist [(VAtom "*"); (VNum 1); (VNum 2); (VNum 3)]); (vlist [(VAtom "*")])])
  | BDiv => (* builtin.go:289-320 *)
      Meta "Divide the first argument by the rest" 2 true
        (VCons (VAtom "numerator") (VCons (VAtom "denominator1") (VAtom "more")))
        (vlist [(vlist [(VAtom "/"); (VNum 1); (VNum 2)]); (vlist [(VAtom "/"); (VNum 12); (VNum 2); (VNum 3)]); (vlist [(VAtom "/"); (VNum 1); (VNum 0)])])
  | BEq => (* builtin.go:321-343 *)
      Meta "Return t if the arguments are equal, () otherwise" 1 true
        (VCons (VAtom "x") (VAtom "xs"))
        (vlist [(vlist [(VAtom "="); (VNum 1); (VNum 1)]); (vlist [(VAtom "="); (VNum 1); (VNum 2)]); (vlist [(VAtom "apply"); (VAtom "="); (vlist [(VAtom "repeat"); (VNum 10); (VAtom "t")])])])
  | BRem => (* builtin.go:344-372 *)
      Meta "Return remainder when second arg divides first" 2 false
        (vlist [(VAtom "x"); (VAtom "y")])
        (vlist [(vlist [(VAtom "rem"); (VNum 5); (VNum 2)]); (vlist [(VAtom "rem"); (VNum 4); (VNum 2)]); (vlist [(VAtom "rem"); (VNum 1); (VNum 0)])])
  | BLt => (* builtin.go:373-390 *)
      Meta "Return t if the arguments are in strictly increasing order, () otherwise" 1 true
        (VCons (VAtom "x") (VAtom "xs"))
        (vlist [(vlist [(VAtom "<"); (VNum 1); (VNum 2)]); (vlist [(VAtom "<"); (VNum 1); (VNum 1)]); (vlist [(VAtom "<"); (VNum 1)]); (vlist [(VAtom "apply"); (VAtom "<"); (vlist [(VAtom "range"); (VNum 100)])])])
  | BLe => (* builtin.go:391-407 *)
      Meta "Return t if the arguments are in increasing or equal order, () otherwise" 1 true
        (VCons (VAtom "x") (VAtom "xs"))
        (vlist [(vlist [(VAtom "<="); (VNum 1); (VNum 2)]); (vlist [(VAtom "<="); (VNum 1); (VNum 1)]); (vlist [(VAtom "<="); (VNum 1)])])
  | BGt => (* builtin.go:408-424 *)
      Meta "Return t if the arguments are in strictly decreasing order, () otherwise" 1 true
        (VCons (VAtom "x") (VAtom "xs"))
        (vlist [(vlist [(VAtom ">"); (VNum 1); (VNum 2)]); (vlist [(VAtom ">"); (VNum 1); (VNum 1)]); (vlist [(VAtom ">"); (VNum 1)])])
  | BGe => (* builtin.go:425-440 *)
      Meta "Return t if the arguments are in decreasing or equal order, () otherwise" 1 true
        (VCons (VAtom "x") (VAtom "xs"))
        (vlist [(vlist [(VAtom ">="); (VNum 1); (VNum 2)]); (vlist [(VAtom ">="); (VNum 1); (VNum 1)])])
  | BApply => (* builtin.go:441-452 *)
      Meta "Apply a function to a list of arguments" 2 false
        (vlist [(VAtom "f"); (VAtom "args")])
        (vlist [(vlist [(VAtom "apply"); (VAtom "+"); (vlist [(VAtom "repeat"); (VNum 10); (VNum 1)])]); (vlist [(VAtom "apply"); (VAtom "*"); (vlist [(VAtom "cdr"); (vlist [(VAtom "range"); (VNum 10)])])])])
  | BAtomP => (* builtin.go:453-472 *)
      Meta "Return t if the argument is an atom, () otherwise" 1 false
        (vlist [(VAtom "x")])
        (vlist [(vlist [(VAtom "atom?"); (VNum 1)]); (vlist [(VAtom "atom?"); (vlist [VAtom "quote"; VAtom "one"])])])
  | BBody => (* builtin.go:473-492 *)
      Meta "Return the body of a lambda function" 1 false
        (vlist [(VAtom "f")])
        (vlist [(vlist [(VAtom "body"); (vlist [(VAtom "lambda"); (vlist [(VAtom "x")]); (vlist [(VAtom "+"); (VAtom "x"); (VNum 1)])])])])
  | BCar => (* builtin.go:493-516 *)
      Meta "Return the first element of a list" 1 false
        (vlist [(VAtom "x")])
        (vlist [(vlist [(VAtom "car"); (vlist [VAtom "quote"; vlist [(VAtom "one"); (VAtom "two")]])]); (vlist [(VAtom "car"); (vlist [])])])
  | BCdr => (* builtin.go:517-541 *)
      Meta "Return a list with the first element removed" 1 false
        (vlist [(VAtom "x")])
        (vlist [(vlist [(VAtom "cdr"); (vlist [VAtom "quote"; vlist [(VAtom "one"); (VAtom "two")]])]); (vlist [(VAtom "cdr"); (vlist [])])])
  | BCons => (* builtin.go:542-559 *)
      Meta "Add an element to the front of a (possibly empty) list" 2 false
        (vlist [(VAtom "x"); (VAtom "xs")])
        (vlist [(vlist [(VAtom "cons"); (VNum 1); (vlist [VAtom "quote"; vlist [(VAtom "one"); (VAtom "two")]])]); (vlist [(VAtom "cons"); (VNum 1); (vlist [])]); (vlist [(VAtom "cons"); (VNum 1); (VNum 2)])])
  | BDoc => (* builtin.go:560-586 *)
      Meta "Return the doclist for a function" 1 false
        (vlist [(VAtom "x")])
        (vlist [(vlist [(VAtom "doc"); (vlist [(VAtom "lambda"); (vlist [(VAtom "x")]); (vlist [(VAtom "doc"); (vlist [(VAtom "does"); (VAtom "stuff")]); (vlist [(VAtom "and"); (VAtom "other"); (VAtom "stuff")])]); (vlist [(VAtom "+"); (VAtom "x"); (VNum 1)])])])])
  | BDowncase => (* builtin.go:587-607 *)
      Meta "Return a new atom with all characters in lower case" 1 false
        (vlist [(VAtom "x")])
        (vlist [(vlist [(VAtom "downcase"); (vlist [VAtom "quote"; VAtom "Hello"])]); (vlist [(VAtom "downcase"); (vlist [VAtom "quote"; VAtom "HELLO"])])])
  | BEval => (* builtin.go:608-624 *)
      Meta "Evaluate an expression" 1 false
        (vlist [(VAtom "x")])
        (vlist [(vlist [(VAtom "eval"); (vlist [VAtom "quote"; vlist [(VAtom "one"); (VAtom "two")]])]); (vlist [(VAtom "eval"); (vlist [VAtom "quote"; vlist [(VAtom "+"); (VNum 1); (VNum 2)]])])])
  | BExit => (* builtin.go:625-635 *)
      Meta "Exit the program" 0 false
        VNil
        VNil
  | BForms => (* builtin.go:636-649 *)
      Meta "Return available operators, as a list" 0 false
        VNil
        VNil
  | BFuse => (* builtin.go:650-689 *)
      Meta "Fuse a list of numbers or atoms into a single atom" 1 false
        (vlist [(VAtom "x")])
        (vlist [(vlist [(VAtom "fuse"); (vlist [VAtom "quote"; vlist [(VAtom "A"); (VAtom "B"); (VAtom "C")]])]); (vlist [(VAtom "fuse"); (vlist [(VAtom "reverse"); (vlist [(VAtom "range"); (VNum 10)])])])])
  | BGensym => (* builtin.go:690-709 *)
      Meta "Return a new symbol" 0 true
        (VCons VNil (VAtom "more"))
        VNil
  | BHelp => (* builtin.go:710-720 *)
      Meta "Print a help message" 0 false
        VNil
        VNil
  | BIsqrt => (* builtin.go:721-744 *)
      Meta "Integer square root" 1 false
        (vlist [(VAtom "x")])
        (vlist [(vlist [(VAtom "isqrt"); (VNum 4)]); (vlist [(VAtom "isqrt"); (VNum 5)])])
  | BLen => (* builtin.go:745-769 *)
      Meta "Return the length of a list" 1 false
        (vlist [(VAtom "x")])
        (vlist [(vlist [(VAtom "len"); (vlist [(VAtom "range"); (VNum 10)])])])
  | BList => (* builtin.go:770-783 *)
      Meta "Return a list of the given arguments" 0 true
        (VCons VNil (VAtom "xs"))
        (vlist [(vlist [(VAtom "list"); (VNum 1); (VNum 2); (VNum 3)]); (vlist [(VAtom "list")])])
  | BListP => (* builtin.go:784-803 *)
      Meta "Return t if the argument is a list, () otherwise" 1 false
        (vlist [(VAtom "x")])
        (vlist [(vlist [(VAtom "list?"); (vlist [(VAtom "range"); (VNum 10)])]); (vlist [(VAtom "list?"); (VNum 1)])])
  | BLoad => (* builtin.go:804-824 *)
      Meta "Load and execute a file" 1 false
        (vlist [(VAtom "filename")])
        VNil
  | BMacroexpand1 => (* builtin.go:825-841 *)
      Meta "Expand a macro" 1 false
        (vlist [(VAtom "x")])
        (vlist [(vlist [(VAtom "macroexpand-1"); (vlist [VAtom "quote"; vlist [(VAtom "+"); (VAtom "x"); (VNum 1)]])]); (vlist [(VAtom "macroexpand-1"); (vlist [VAtom "quote"; vlist [(VAtom "if"); (vlist []); (VNum 1); (VNum 2)]])])])
  | BNot => (* builtin.go:842-862 *)
      Meta "Return t if the argument is nil, () otherwise" 1 false
        (vlist [(VAtom "x")])
        (vlist [(vlist [(VAtom "not"); (vlist [])]); (vlist [(VAtom "not"); (VAtom "t")]); (vlist [(VAtom "not"); (vlist [(VAtom "range"); (VNum 10)])])])
  | BNumberP => (* builtin.go:863-884 *)
      Meta "Return true if the argument is a number, else ()" 1 false
        (vlist [(VAtom "x")])
        (vlist [(vlist [(VAtom "number?"); (VNum 1)]); (vlist [(VAtom "number?"); (VAtom "t")]); (vlist [(VAtom "number?"); (VAtom "+")])])
  | BPrint => (* builtin.go:885-899 *)
      Meta "Print the arguments" 0 true
        (VCons VNil (VAtom "xs"))
        VNil
  | BPrintln => (* builtin.go:900-914 *)
      Meta "Print the arguments and a newline" 0 true
        (VCons VNil (VAtom "xs"))
        VNil
  | BPrintl => (* builtin.go:915-932 *)
      Meta "Print a list argument, without parentheses" 1 false
        (vlist [(VAtom "x")])
        VNil
  | BRandint => (* builtin.go:933-953 *)
      Meta "Return a random integer between 0 and the argument minus 1" 1 false
        (vlist [(VAtom "x")])
        VNil
  | BReadlist => (* builtin.go:954-971 *)
      Meta "Read a list from stdin" 0 false
        VNil
        VNil
  | BScreenStart => (* builtin.go:972-985 *)
      Meta "Start screen for text UIs" 0 false
        VNil
        VNil
  | BScreenEnd => (* builtin.go:986-999 *)
      Meta "Stop screen for text UIs, return to console mode" 0 false
        VNil
        VNil
  | BScreenSize => (* builtin.go:1000-1013 *)
      Meta "Return the screen size: width, height" 0 false
        VNil
        VNil
  | BScreenClear => (* builtin.go:1014-1027 *)
      Meta "Clear the screen" 0 false
        VNil
        VNil
  | BScreenGetKey => (* builtin.go:1028-1044 *)
      Meta "Return a keystroke as an atom" 0 false
        VNil
        VNil
  | BScreenWrite => (* builtin.go:1045-1073 *)
      Meta "Write a string to the screen" 3 false
        (vlist [(VAtom "x"); (VAtom "y"); (VAtom "list")])
        VNil
  | BShell => (* builtin.go:1074-1086 *)
      Meta "Run a shell subprocess, and return stdout, stderr, and exit code" 1 false
        (vlist [(VAtom "cmd")])
        VNil
  | BShuffle => (* builtin.go:1087-1110 *)
      Meta "Return a (quickly!) shuffled list" 1 false
        (vlist [(VAtom "xs")])
        VNil
  | BSleep => (* builtin.go:1111-1128 *)
      Meta "Sleep for the given number of milliseconds" 1 false
        (vlist [(VAtom "ms")])
        VNil
  | BSort => (* builtin.go:1129-1174 *)
      Meta "Sort a list" 1 false
        (vlist [(VAtom "xs")])
        (vlist [(vlist [(VAtom "sort"); (vlist [VAtom "quote"; vlist [(VNum 3); (VNum 2); (VNum 1)]])]); (vlist [(VAtom "sort"); (vlist [VAtom "quote"; vlist []])]); (vlist [(VAtom "sort"); (vlist [VAtom "quote"; vlist [(VAtom "c"); (VAtom "b"); (VAtom "a")]])])])
  | BSortBy => (* builtin.go:1175-1230 *)
      Meta "Sort a list by a function" 2 false
        (vlist [(VAtom "f"); (VAtom "xs")])
        (vlist [(vlist [(VAtom "sort-by"); (VAtom "first"); (vlist [VAtom "quote"; vlist [(vlist [(VNum 3)]); (vlist [(VNum 2)]); (vlist [(VNum 1)])]])]); (vlist [(VAtom "sort-by"); (VAtom "first"); (vlist [VAtom "quote"; vlist []])]); (vlist [(VAtom "sort-by"); (VAtom "second"); (vlist [VAtom "quote"; vlist [(vlist [(VAtom "quux"); (VNum 333)]); (vlist [(VAtom "zip"); (VNum 222)]); (vlist [(VAtom "afar"); (VNum 111)])]])])])
  | BSource => (* builtin.go:1231-1257 *)
      Meta "Show source for a function" 1 false
        (vlist [(VAtom "form")])
        (vlist [(vlist [(VAtom "source"); (VAtom "map")]); (vlist [(VAtom "source"); (VAtom "+")])])
  | BSplit => (* builtin.go:1258-1281 *)
      Meta "Split an atom or number into a list of single-digit numbers or single-character atoms" 1 false
        (vlist [(VAtom "x")])
        (vlist [(vlist [(VAtom "split"); (VNum 123)]); (vlist [(VAtom "split"); (vlist [VAtom "quote"; VAtom "abc"])])])
  | BUpcase => (* builtin.go:1282-1301 *)
      Meta "Return the uppercase version of the given atom" 1 false
        (vlist [(VAtom "x")])
        (vlist [(vlist [(VAtom "upcase"); (vlist [VAtom "quote"; VAtom "abc"])])])
  | BVersion => (* builtin.go:1302-1315 *)
      Meta "Return the version of the interpreter" 0 false
        VNil
        (vlist [(vlist [(VAtom "version")])])
  end.

(** DOC (builtin.go:203-205) = convertStringToDoc (util.go:44-46): a list of one list of words. *)
Definition doc_of_string (s : string) : val := vlist [words s].
Definition builtin_doc (b : builtin) : val := doc_of_string (m_doc (builtin_meta b)).

(** specialForms (doc.go:32-352): name, fixed arity, more arguments allowed,
    doc text, argument list, examples. *)
Record special_meta : Type := SMeta {
  s_name : string; s_arity : Z; s_multi : bool; s_doc : string; s_args : val; s_examples : string }.

Definition special_forms : list special_meta :=
  [(* doc.go:34 *) SMeta "and" 0 true "Boolean and" (VCons VNil (VAtom "xs"))
"(and)
;;=>
true
> (and t t)
;;=>
true
> (and t t ())
;;=>
()
> (and () (/ 1 0))
;;=>
()
";
   (* doc.go:56 *) SMeta "cond" 0 true "Fundamental branching construct" (VCons VNil (VAtom "pairs"))
"> (cond)
;;=> ()
> (cond (t 1) (t 2) (t 3))
;;=> 1
> (cond (() 1) (t 2))
;;=> 2
";
   (* doc.go:72 *) SMeta "def" 2 false "Set a value" (vlist [(VAtom "name"); (VAtom "value")])
"> (def a 1)
;;=>
1
> a
;;=>
1
";
   (* doc.go:88 *) SMeta "defn" 2 true "Create and name a function" (VCons (VAtom "name") (VCons (VAtom "args") (VAtom "body")))
"> (defn add (x y) (+ x y))
;;=>
()
> (add 1 2)
;;=>
3
> (defn add (x y)
    (doc (add two numbers)
         (examples
           (add 1 2)))
    (+ x y))
;;=>
()
> (doc add)
;;=>
((add two numbers) (examples (add 1 2)))
";
   (* doc.go:114 *) SMeta "defmacro" 2 true "Create and name a macro" (VCons (VAtom "name") (VCons (VAtom "args") (VAtom "body")))
"> (defmacro ignore-car (l)
    (doc (ignore first element of list,
                 treat rest as normal expression)
         (examples
           (ignore-car (adorable + 1 2 3))
           (ignore-car (deplorable - 4 4))))
    (cdr l))
;;=>
()
> (ignore-car (hilarious * 2 3 4))
;;=>
24
	";
   (* doc.go:136 *) SMeta "error" 1 false "Raise an error" (vlist [(VAtom "l")])
"> (defn ensure-list (x)
    (when-not (list? x)
      (error '(ensure-list argument not a list!))))
;;=>
()
> (ensure-list 3)
;;=>
ERROR in '(ensure-list 3)':
(ensure-list argument not a list!)
";
   (* doc.go:155 *) SMeta "errors" 1 true "Error checking, for tests" (VCons (VAtom "expected") (VAtom "body"))
"> (errors '(is not a function)
    (1))
;;=>
()
> (errors '(is not a function)
    (+))
;;=>
ERROR in '(errors (quote (is not a function)) (+))':
error not found in ((quote (is not a function)) (+))
";
   (* doc.go:174 *) SMeta "lambda" 1 true "Create a function" (VCons (VAtom "args") (VAtom "more"))
"> ((lambda () t))
;;=>
t
> ((lambda (x) (+ 5 x)) 5)
;;=>
10
> ((lambda my-length (x)
     (if-not x
       0
       (+ 1 (my-length (cdr x)))))
    (range 20))
;;=>
20
";
   (* doc.go:197 *) SMeta "let" 1 true "Create a local scope with bindings" (VCons (VAtom "binding-pairs") (VAtom "body"))
"> (let ((a 1)
        (b 2))
    (+ a b))
;;=>
3
";
   (* doc.go:213 *) SMeta "loop" 1 true "Loop forever" VNil
"> (loop
    (printl '(Help me, I am looping forever!))
    (sleep 1000))
;; Prints =>
Help me, I am looping forever!
Help me, I am looping forever!
Help me, I am looping forever!
...
";
   (* doc.go:231 *) SMeta "or" 0 true "Boolean or" (VCons VNil (VAtom "xs"))
"> (or)
;; => false
> (or t t)
;; => true
> (or t t ())
;; => t";
   (* doc.go:246 *) SMeta "quote" 1 false "Quote an expression" (vlist [(VAtom "x")])
"> (quote foo)
foo
> (quote (1 2 3))
(1 2 3)
> '(1 2 3)
(1 2 3)
";
   (* doc.go:262 *) SMeta "set!" 2 false "Update a value in an existing binding" (vlist [(VAtom "name"); (VAtom "value")])
"> (def a 1)
;;=>
1
> a
;;=>
1
> (set! a 2)
;;=>
2
> a
;;=>
2
";
   (* doc.go:284 *) SMeta "swallow" 0 true "Swallow errors thrown in body, return t if any occur" (VCons VNil (VAtom "body"))
"> (swallow
	(error '(boom)))
;;=>
t
> (swallow 1 2 3)
;;=>
()
";
   (* doc.go:301 *) SMeta "syntax-quote" 1 false "Syntax-quote an expression" (vlist [(VAtom "x")])
"> (syntax-quote foo)
foo
> (syntax-quote (1 2 3 4))
(1 2 3 4)
> (syntax-quote (1 (unquote (+ 1 1)) (splicing-unquote (list 3 4))))
(1 2 3 4)
> `(1 ~(+ 1 1) ~@(list 3 4))
(1 2 3 4)
";
   (* doc.go:319 *) SMeta "try" 0 true "Try to evaluate body, catch errors and handle them" (VCons VNil (VAtom "body"))
"> (try (error '(boom)))
;;=>
ERROR:
((boom))
> (try
    (error '(boom))
    (catch e
      (printl e)))
;;=>
(boom)
> (try (/ 1 0) (catch e (len e)))
2
>
";
   (* doc.go:342 *) SMeta "test" 0 true "Run tests" (VCons VNil (VAtom "body"))
""].
