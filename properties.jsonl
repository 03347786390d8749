{"id": "C01", "title": "Reader/printer round trip", "statement": "Printing any value built from integers, readable symbols, (), lists and dotted pairs, and reading the printed text back, yields exactly one form, equal to the original value.", "quantifier": "all finite data values, of any depth and size, with integers of any magnitude and symbols that are readable", "why_tests_cant": "values nest without bound; lexer state machine, dotted-pair chunking and printer must agree for all of them", "anchors": ["lisp/lex.go: LexItems", "lisp/parse.go: Parse, parseList", "lisp/cons.go: String", "lisp/math.go: String, Num", "lisp/atom.go"]}
{"id": "C02", "title": "Reading always terminates, and crashes only on a dot without a tail", "statement": "Reading any text terminates with a list of forms, an error, or a process crash; the crash happens only when some dot inside a list has nothing readable between it and the parenthesis that closes its list (`(a . )`), and such texts do crash the process.", "quantifier": "all input texts (any bytes, any number of lines)", "why_tests_cant": "needs a termination argument over all token streams and an exhaustive argument that no other index panics", "anchors": ["lisp/parse.go: parseNext, parseList, Parse, listChunk, dotChunk", "lisp/lex.go"]}
{"id": "C03", "title": "Reading is compositional", "statement": "Reading one text followed (on a new line) by another gives the forms of the first followed by the forms of the second, whenever both can be read and the second does not start with a shebang line; line numbers influence error messages only.", "quantifier": "all pairs of texts", "why_tests_cant": "infinitely many inputs; a table of examples only samples them", "anchors": ["lisp/parse.go: Parse, parseNext", "lisp/lex.go: LexItems"]}
{"id": "C04", "title": "Whatever reads successfully is balanced; an unclosed list never reads", "statement": "If a text can be read then its parentheses are balanced as judged by the REPL's balance check, no prefix closes more than it opened, and a text with unclosed parentheses is never read successfully.", "quantifier": "all token sequences", "why_tests_cant": "infinitely many inputs; a table of examples only samples them", "anchors": ["lisp/lex.go: IsBalanced", "lisp/parse.go: Parse, listChunk"]}
{"id": "C05", "title": "Comments and blank space are invisible to the reader", "statement": "Removing a `;` comment (to the end of its line), and inserting spaces, tabs or carriage returns between lexemes, does not change the forms read; a `#_` form reads as a call of comment around the next form.", "quantifier": "all lines and all comment texts", "why_tests_cant": "infinitely many inputs; a table of examples only samples them", "anchors": ["lisp/lex.go: lexStart, ignoreToEndOfLine, isSpace", "lisp/parse.go: handleQuoteItem"]}
{"id": "C06", "title": "Quote shorthands are sugar", "statement": "If a text reads as the single form x then the same text prefixed by ', `, ~, ~@ or #_ reads as the two-element list (quote x), (syntax-quote x), (unquote x), (splicing-unquote x) or (comment x).", "quantifier": "all texts that read as one form", "why_tests_cant": "infinitely many inputs; a table of examples only samples them", "anchors": ["lisp/parse.go: handleQuoteItem, parseNext", "lisp/lex.go: lexUnquote, lexHashSugar"]}
{"id": "C07", "title": "Integers are exact, at any size, from text to text", "statement": "A literal written as an optional sign and decimal digits reads as exactly the integer it denotes, integers print as their canonical decimal text, and reading what was printed gives the same integer.", "quantifier": "all digit strings / all integers", "why_tests_cant": "unbounded magnitude", "anchors": ["lisp/math.go: Num, String", "lisp/lex.go: lexInt"]}
{"id": "C08", "title": "Evaluation is deterministic and does not depend on the resources it is given", "statement": "For fixed outside world (input, files, random numbers), evaluating the same form in the same state has at most one outcome and one final state; running it with more stack never changes an outcome reached with less.", "quantifier": "all forms, environments, states, hosts and stack sizes", "why_tests_cant": "ranges over all executions", "anchors": ["lisp/lisp.go: eval", "lisp/state.go", "lisp/env.go"]}
{"id": "C09", "title": "t can never be rebound", "statement": "No program can bind or assign t: in every state reachable from start-up by any evaluation (including failed or unfinished ones) no environment contains a binding for t, def/set!/let/function parameters named t fail with an error, and the form t evaluates to t.", "quantifier": "all programs, all reachable states", "why_tests_cant": "an invariant over all histories", "anchors": ["lisp/env.go: Set, SetTopLevel, Update", "lisp/lisp.go: evAtom"]}
{"id": "C10", "title": "Constants evaluate to themselves and quote protects any datum", "statement": "Integers and () evaluate to themselves, and (quote x) evaluates to x itself, in every environment and state, without any side effect.", "quantifier": "all integers, all data x, all environments and states", "why_tests_cant": "infinitely many inputs; a table of examples only samples them", "anchors": ["lisp/lisp.go: eval"]}
{"id": "C11", "title": "Bindings never disappear and environments are never recycled", "statement": "Once a name is bound in an environment it stays bound there during and after every later evaluation, successful or not; environments are only ever added, and an existing environment keeps its identity.", "quantifier": "all evaluations from all states", "why_tests_cant": "an invariant over all histories", "anchors": ["lisp/env.go"]}
{"id": "C12", "title": "Output is append-only and never rolled back", "statement": "Evaluation only ever adds to the sequence of output events; output produced, and variables set, before an error remain in effect after the error.", "quantifier": "all evaluations from all states, whatever their outcome", "why_tests_cant": "ranges over all histories and failure points", "anchors": ["lisp/lisp.go: eval", "lisp/builtin.go: print, println"]}
{"id": "C13", "title": "Local state is private (encapsulation)", "statement": "Evaluating a form can read and change only environments reachable from the environment it is evaluated in (through captured closures and stored values) or created during the evaluation: every other environment is unchanged afterwards, and its contents do not influence the result.", "quantifier": "all forms, environments, states and all sets of environments closed under reachability", "why_tests_cant": "quantifies over the whole heap and all programs", "anchors": ["lisp/env.go", "lisp/lambda.go", "lisp/lisp.go: eval"]}
{"id": "C14", "title": "Lexical scoping of functions", "statement": "The result of calling a user-defined function depends on the arguments and on the environment where the lambda was created, never on the caller's environment: calling it from two different environments gives the same outcome and effects.", "quantifier": "all closures, all argument values, all pairs of calling environments", "why_tests_cant": "infinitely many inputs; a table of examples only samples them", "anchors": ["lisp/lambda.go: mkLambda", "lisp/lisp.go: eval (function application)", "lisp/builtin.go: applyFn"]}
{"id": "C15", "title": "set! updates exactly the nearest binding or fails changing nothing", "statement": "If the value form succeeds, (set! x v) changes only the binding of x in the nearest enclosing environment that binds x; if no enclosing environment binds it, it is an error and no binding anywhere changes.", "quantifier": "all names, environments, value forms and states", "why_tests_cant": "infinitely many inputs; a table of examples only samples them", "anchors": ["lisp/lisp.go: evSet", "lisp/env.go: Update"]}
{"id": "C16", "title": "def binds at top level only", "statement": "(def x v), evaluated anywhere, binds x in the global environment and changes no other binding; afterwards x evaluates to the value in every scope that does not shadow it, unless x is t or a c[ad]+r name.", "quantifier": "all names, environments, value forms and states", "why_tests_cant": "infinitely many inputs; a table of examples only samples them", "anchors": ["lisp/lisp.go: evDef, isCxr", "lisp/env.go: SetTopLevel"]}
{"id": "C17", "title": "let binds in parallel and only inside its body", "statement": "(let ((x1 e1) ... (xn en)) body...) evaluates e1..en in order in the outer environment (none of them sees the new bindings), evaluates the body with x1..xn bound in a new environment, and the caller's environment chain is the same afterwards: a variable that is not assigned keeps its value.", "quantifier": "all binding lists and bodies, all environments and states", "why_tests_cant": "infinitely many inputs; a table of examples only samples them", "anchors": ["lisp/lisp.go: eval (let)"]}
{"id": "C18", "title": "Function calls check arity exactly and bind parameters positionally", "statement": "Calling a user function with n parameters succeeds in binding exactly when n arguments are given (at least n if it has a rest parameter); the first n arguments are bound positionally, the rest parameter gets the list of the remaining ones; otherwise the call is an error and the body is not evaluated.", "quantifier": "all parameter lists, all argument counts and values", "why_tests_cant": "infinitely many inputs; a table of examples only samples them", "anchors": ["lisp/lisp.go: setLambdaArgsInEnv"]}
{"id": "C19", "title": "Arguments are evaluated left to right, once, before the call", "statement": "In a call (f a1 ... an) the operator and then a1..an are evaluated once each, in that order, in the caller's environment, each seeing the effects of the previous ones; the first error stops the evaluation, later arguments are not evaluated and the function is not called.", "quantifier": "all operators, argument lists, environments and states", "why_tests_cant": "infinitely many inputs; a table of examples only samples them", "anchors": ["lisp/lisp.go: eval (function application)"]}
{"id": "C20", "title": "cond, and, or evaluate no more than needed", "statement": "cond evaluates tests in order until one is not (), then only that clause's first form, and returns () if none is; and stops at the first () and otherwise gives t; or returns the first non-() value; forms after the deciding one are not evaluated.", "quantifier": "all clause lists, environments and states", "why_tests_cant": "infinitely many inputs; a table of examples only samples them", "anchors": ["lisp/lisp.go: eval (cond, and, or)"]}
{"id": "C21", "title": "try/catch catches every error exactly once and passes everything else", "statement": "If the forms before the catch clause succeed, try returns the last value and the handler is not run; if one raises an l1 error, the following forms are skipped and the handler runs in a new environment where the name is bound to the error list; without catch clause the original error is raised unchanged; errors in the handler propagate.", "quantifier": "all bodies, handlers, environments and states", "why_tests_cant": "infinitely many inputs; a table of examples only samples them", "anchors": ["lisp/lisp.go: eval (try)"]}
{"id": "C22", "title": "swallow and errors observe failure exactly", "statement": "(swallow e1 ... en) returns t if some ei raises an error (stopping there) and () if none does; it never raises. (errors sig e1 ... en) succeeds exactly when the first error raised by the ei contains the signature text, and fails if none of them fails.", "quantifier": "all expression lists, environments and states", "why_tests_cant": "infinitely many inputs; a table of examples only samples them", "anchors": ["lisp/lisp.go: evErrors, eval (swallow)"]}
{"id": "C23", "title": "Errors keep their origin", "statement": "An error raised inside operators, arguments, bodies, bindings, conditions or assignments reaches the top with context entries added at the front only: the trace seen by catch always ends with the originally raised items.", "quantifier": "all evaluation contexts and all errors", "why_tests_cant": "infinitely many inputs; a table of examples only samples them", "anchors": ["lisp/error.go", "lisp/lisp.go"]}
{"id": "C24", "title": "Tail calls use constant stack", "statement": "The last form of a function or let body and the selected form of cond run without consuming additional stack: a tail-recursive function runs any number of iterations within a fixed stack bound, while non-tail recursion needs stack proportional to the depth and overflows any fixed bound.", "quantifier": "all iteration counts, all stack bounds, all forms in tail position", "why_tests_cant": "unbounded number of iterations", "anchors": ["lisp/lisp.go: eval (goto top)"]}
{"id": "C25", "title": "loop never returns", "statement": "(loop x1 ... xn) evaluates its forms in order, again and again, and never returns a value: it ends only where a form does by an error, by process exit or crash, or not at all.", "quantifier": "all bodies, environments, states and execution lengths", "why_tests_cant": "non-termination is not testable", "anchors": ["lisp/lisp.go: eval (loop)"]}
{"id": "C26", "title": "Native functions crash the process only on known arguments", "statement": "A native function that does not call back into the evaluator returns a value or an error on every argument list, except: isqrt of a negative integer, len and fuse of an improper list, randint of an integer whose absolute value has 64-bit low part 0 or >= 2^63 (and that is not 0), and readlist of text with a missing dotted tail. (apply, eval, load, macroexpand-1, sort-by, forms and help call the evaluator and exit ends the process; they are not covered here.)", "quantifier": "all argument lists of all native functions", "why_tests_cant": "infinitely many inputs; a table of examples only samples them", "anchors": ["lisp/builtin.go", "lisp/math.go", "lisp/term.go", "lisp/shell.go"]}
{"id": "C27", "title": "Addition, subtraction, multiplication are exact and n-ary", "statement": "(+ ...), (- ...), (* ...) on any number of integers return the exact mathematical sum, difference (negation for one argument), product; any non-integer argument is an error.", "quantifier": "all argument lists, all integers", "why_tests_cant": "unbounded magnitude and arity", "anchors": ["lisp/builtin.go: +, -, *", "lisp/math.go"]}
{"id": "C28", "title": "Division and remainder", "statement": "(/ a b) for b /= 0 is Euclidean division: the q with a = q*b + r and 0 <= r < |b|; (rem a b) is the truncated remainder (sign of a); division by zero is an error, not a crash; consequently a = (/ a b)*b + (rem a b) holds exactly when a >= 0 or b divides a.", "quantifier": "all integers a and b", "why_tests_cant": "unbounded magnitude, all sign combinations", "anchors": ["lisp/builtin.go: /, rem", "lisp/math.go: Div, Rem"]}
{"id": "C29", "title": "Comparison chains", "statement": "(< a1 ... an) with integers is t exactly when a1 < a2 < ... < an, and () otherwise; likewise <=, >, >=; no arguments, or a non-integer met before the chain is decided, is an error.", "quantifier": "all argument lists", "why_tests_cant": "infinitely many inputs; a table of examples only samples them", "anchors": ["lisp/builtin.go: compareMultipleNums, <, <=, >, >="]}
{"id": "C30", "title": "= is structural equality of data", "statement": "(= x y) is t exactly when x and y are the same data built from symbols, integers, () and pairs; it is an equivalence relation on data; with more arguments all are compared with the first; functions are never equal to anything, not even themselves.", "quantifier": "all values", "why_tests_cant": "infinitely many inputs; a table of examples only samples them", "anchors": ["lisp/builtin.go: =", "lisp/cons.go: Equal", "lisp/lambda.go: Equal", "lisp/builtin.go: Builtin.Equal"]}
{"id": "C31", "title": "Integer square root is exact", "statement": "(isqrt n) for n >= 0 is the largest integer whose square does not exceed n.", "quantifier": "all non-negative integers", "why_tests_cant": "unbounded magnitude", "anchors": ["lisp/builtin.go: isqrt"]}
{"id": "C32", "title": "List primitives obey the list laws", "statement": "car and cdr invert cons, (car ()) = (cdr ()) = (), list builds exactly its arguments in order, len counts the elements, list?/atom?/number? classify every value, not is t exactly on ().", "quantifier": "all values and argument lists", "why_tests_cant": "infinitely many inputs; a table of examples only samples them", "anchors": ["lisp/builtin.go: car, cdr, cons, list, len, list?, atom?, number?, not"]}
{"id": "C33", "title": "sort returns the unique sorted permutation", "statement": "(sort l) on a list of integers or of symbols returns a permutation of l in ascending order (numeric, or bytewise), and it is the only such list, so the sorting algorithm cannot be observed; lists of mixed or other types are errors.", "quantifier": "all lists of any length", "why_tests_cant": "infinitely many inputs; a table of examples only samples them", "anchors": ["lisp/builtin.go: sort"]}
{"id": "C34", "title": "shuffle only permutes; randint stays in range", "statement": "Whatever the random source does, (shuffle l) is a permutation of l and (randint n) for 0 < n < 2^63 is between 0 and n-1; randint of 0 is an error.", "quantifier": "all random sources, all lists, all n", "why_tests_cant": "randomised; the bad seed may never come up in a test", "anchors": ["lisp/builtin.go: shuffle, randint"]}
{"id": "C35", "title": "split and fuse are inverse", "statement": "(fuse (split x)) = x for every non-empty valid-UTF-8 symbol not starting with a digit and every non-negative integer, and split yields one element per character; for negative integers the round trip yields a symbol, not the number.", "quantifier": "all symbols and integers", "why_tests_cant": "infinitely many inputs; a table of examples only samples them", "anchors": ["lisp/builtin.go: split, fuse, listOfChars, listOfNums"]}
{"id": "C36", "title": "Case conversion", "statement": "On ASCII symbols upcase and downcase map letters one to one, keep everything else and the length, are idempotent, and (downcase (upcase x)) = (downcase x).", "quantifier": "all ASCII symbols", "why_tests_cant": "infinitely many inputs; a table of examples only samples them", "anchors": ["lisp/builtin.go: upcase, downcase"]}
{"id": "C37", "title": "cXr names compose car and cdr", "statement": "Every symbol of the form c[ad]+r with two or more letters evaluates, in the core environment, to a function of one argument equal to the composition of the corresponding cars and cdrs, applied right to left, for any number of letters.", "quantifier": "all letter sequences and all arguments", "why_tests_cant": "infinitely many function names", "anchors": ["lisp/lisp.go: isCxr, extractCxrLambda", "lisp/l1.l1: c*r"]}
{"id": "C38", "title": "apply is a function call", "statement": "(apply f a1 ... ak l) calls f once with the arguments a1..ak followed by the elements of the list l: same value, same effects as the direct call with those arguments; a last argument that is not a proper list is an error.", "quantifier": "all functions, argument values, states", "why_tests_cant": "infinitely many inputs; a table of examples only samples them", "anchors": ["lisp/builtin.go: applyFn"]}
{"id": "C39", "title": "eval evaluates data as code in the caller's environment", "statement": "(eval 'x) has the same value and effects as x in the same environment, and raises an error exactly when x does.", "quantifier": "all forms x, environments and states", "why_tests_cant": "infinitely many inputs; a table of examples only samples them", "anchors": ["lisp/builtin.go: eval"]}
{"id": "C40", "title": "Macro arguments are not evaluated; the expansion is evaluated in the caller's environment", "statement": "A macro call (m a1 ... an) binds the parameters to the argument forms themselves, evaluates the macro body in a new environment below the caller's, and then evaluates the resulting form in the caller's environment; a wrong number of argument forms is an error and nothing of the macro is evaluated; macroexpand-1 returns that form without evaluating it.", "quantifier": "all macros, argument forms, environments and states", "why_tests_cant": "infinitely many inputs; a table of examples only samples them", "anchors": ["lisp/lisp.go: macroexpand1, macroexpand, isMacroCall, eval"]}
{"id": "C41", "title": "gensym never repeats", "statement": "All symbols returned by gensym in one process, whatever the prefixes and whatever is evaluated in between, are pairwise different.", "quantifier": "all histories of a process", "why_tests_cant": "ranges over all histories", "anchors": ["lisp/state.go: gensym"]}
{"id": "C42", "title": "Syntax-quote builds exactly the template", "statement": "A syntax-quoted template evaluates to the template with every ~x replaced by the value of x, every ~@x replaced by the elements of the list x evaluates to, and everything else literal.", "quantifier": "all templates built from atoms, numbers, lists, unquotes and splices; all environments in which cons and concat2 have their standard meaning", "why_tests_cant": "templates nest without bound", "anchors": ["lisp/lisp.go: syntaxQuote, splicingUnquote", "lisp/l1.l1: concat2"]}
{"id": "C43", "title": "The core library loads in every environment", "statement": "At start-up the embedded library loads without error and without reading input, consulting the host or printing, and leaves every library name bound, whatever the host does.", "quantifier": "all hosts and standard inputs", "why_tests_cant": "ranges over all hosts", "anchors": ["lisp/l1.l1", "lisp/core.go", "main.go: main"]}
{"id": "C44", "title": "if, if-not, when, when-not, progn choose and sequence", "statement": "In an environment that does not shadow the names involved: (if c a b) evaluates c once and then exactly one of a and b in tail position; when/when-not/progn/if-not likewise; the branch not chosen is not evaluated.", "quantifier": "all condition and branch forms, environments and states", "why_tests_cant": "infinitely many inputs; a table of examples only samples them", "anchors": ["lisp/l1.l1: if, if-not, when, when-not, progn"]}
{"id": "C45", "title": "concat2 and concat concatenate", "statement": "(concat2 a b) and (concat l1 ... ln) return the concatenation of the argument lists in order, for any number of lists of any length.", "quantifier": "all lists", "why_tests_cant": "infinitely many inputs; a table of examples only samples them", "anchors": ["lisp/l1.l1: concat2, concat, reduce"]}
{"id": "C46", "title": "reverse reverses", "statement": "(reverse l) is l in reverse order for every proper list; in particular reversing twice gives l back.", "quantifier": "all lists", "why_tests_cant": "infinitely many inputs; a table of examples only samples them", "anchors": ["lisp/l1.l1: reverse"]}
{"id": "C47", "title": "map, filter, remove apply the function in order", "statement": "(map f l) calls f on the elements of l in order, once each, and collects the results in order; (filter f l) and (remove f l) keep exactly the elements on which f is not () / is (), in order.", "quantifier": "all lists, all functions f", "why_tests_cant": "infinitely many inputs; a table of examples only samples them", "anchors": ["lisp/l1.l1: map, filter, remove, complement"]}
{"id": "C48", "title": "reduce is a left fold", "statement": "(reduce f x l) is the left fold of f over l from x; (reduce f l) uses the first element as start and (f) for the empty list; more arguments are an error.", "quantifier": "all lists, functions and starting values", "why_tests_cant": "infinitely many inputs; a table of examples only samples them", "anchors": ["lisp/l1.l1: reduce"]}
{"id": "C49", "title": "range counts", "statement": "(range n) is (0 1 ... n-1) for n > 0 and () for n <= 0.", "quantifier": "all integers n", "why_tests_cant": "infinitely many inputs; a table of examples only samples them", "anchors": ["lisp/l1.l1: range, while"]}
{"id": "C50", "title": "nth, take, drop, last, butlast select positions", "statement": "For n >= 0 and any list: (nth n l) is the element at position n or () past the end; (take n l) the first n elements; (drop n l) the rest; (concat (take n l) (drop n l)) = l; (last l) the last element; (butlast l) all but the last.", "quantifier": "all lists and all n >= 0", "why_tests_cant": "infinitely many inputs; a table of examples only samples them", "anchors": ["lisp/l1.l1: nth, take, drop, last, butlast"]}
{"id": "C51", "title": "repeat and repeatedly", "statement": "(repeat n x) is the list of n copies of x (() for n <= 0); (repeatedly n f) calls f n times in order and lists the results for n >= 0, and never returns for n < 0 if f always returns.", "quantifier": "all n, x, f", "why_tests_cant": "infinitely many inputs; a table of examples only samples them", "anchors": ["lisp/l1.l1: repeat, repeatedly"]}
{"id": "C52", "title": "Exponentiation", "statement": "(** n m) is n to the power m for all integers n and m >= 0; for negative m it never returns a value.", "quantifier": "all integers", "why_tests_cant": "unbounded; non-termination", "anchors": ["lisp/l1.l1: **"]}
{"id": "C53", "title": "some and every", "statement": "(some f l) is the first non-() value of f on the elements in order, or (); (every f l) is t if f is non-() on all elements and () otherwise; both stop at the deciding element.", "quantifier": "all lists and functions", "why_tests_cant": "infinitely many inputs; a table of examples only samples them", "anchors": ["lisp/l1.l1: some, every"]}
{"id": "C54", "title": "min, max, abs and the integer predicates", "statement": "(max n1 ... nk) and (min ...) return the greatest/least argument for any k >= 1; abs, inc, dec, zero?, pos?, neg?, even?, odd? agree with arithmetic on all integers.", "quantifier": "all integers, any arity", "why_tests_cant": "infinitely many inputs; a table of examples only samples them", "anchors": ["lisp/l1.l1: max, min, abs, inc, dec, zero?, pos?, neg?, even?, odd?"]}
{"id": "C55", "title": "while and dotimes repeat their body the right number of times", "statement": "(while c body...) evaluates c and the body alternately until c gives (), at constant stack; (dotimes n body...) evaluates its body exactly n times for n >= 0 and never for n < 0.", "quantifier": "all conditions, bodies, iteration counts", "why_tests_cant": "unbounded number of iterations", "anchors": ["lisp/l1.l1: while, dotimes"]}
{"id": "C56", "title": "flatten, interpose, enumerate", "statement": "(flatten l) lists the non-list leaves of a nested proper list in order; (interpose x l) puts x between consecutive elements; (enumerate l) pairs every element with its index.", "quantifier": "all lists", "why_tests_cant": "infinitely many inputs; a table of examples only samples them", "anchors": ["lisp/l1.l1: flatten, interpose, enumerate"]}
{"id": "C57", "title": "Function combinators", "statement": "((comp f1 ... fn) x) = f1(...fn(x)), ((partial f a...) b...) = (f a... b...), ((juxt f...) x) lists the fi(x), ((constantly x) ...) = x, ((complement f) x) = (not (f x)).", "quantifier": "all functions and arguments", "why_tests_cant": "infinitely many inputs; a table of examples only samples them", "anchors": ["lisp/l1.l1: comp, partial, juxt, constantly, complement"]}
{"id": "C58", "title": "A program stops at its first error", "statement": "Evaluating a sequence of forms (file, -e expression, REPL input) evaluates them in order in the global environment, stops at the first error and keeps the effects of the forms before it; if the text cannot be read, nothing is evaluated.", "quantifier": "all texts and states", "why_tests_cant": "infinitely many inputs; a table of examples only samples them", "anchors": ["lisp/lisp.go: EvalExprs, LexParseEval", "lisp/builtin.go: LoadFile"]}
{"id": "C59", "title": "REPL protocol", "statement": "The REPL collects lines until their parentheses balance, evaluates the forms in the one persistent global environment, prints each result or the error, and then prompts again; an error never ends the session, it ends at end of input.", "quantifier": "all input line sequences", "why_tests_cant": "ranges over all sessions", "anchors": ["main.go: repl", "lisp/lex.go: IsBalanced"]}
{"id": "C60", "title": "Line input takes whole lines only when they arrive one at a time", "statement": "Reading a line returns the text up to the first newline; when the operating system delivers more than one line in one read, the lines after the first in that delivery (up to 4096 bytes) are lost.", "quantifier": "all input chunkings", "why_tests_cant": "depends on how the OS splits the input", "anchors": ["lisp/builtin.go: ReadLine, readlist", "main.go: repl"]}
{"id": "C61", "title": "Process exit codes", "statement": "l1 exits with status 0 after a successful -e or file run, with status 1 and the error on standard output if the expression or a file fails (later files are not loaded), and (exit ...) ends the process with status 0 whatever its arguments.", "quantifier": "all command lines, expressions and files", "why_tests_cant": "infinitely many inputs; a table of examples only samples them", "anchors": ["main.go: main", "lisp/builtin.go: exit"]}
{"id": "C62", "title": "source gives back the function", "statement": "Evaluating (source f) in f's defining environment yields a function with the same parameters and body as f, hence the same behaviour on all arguments, for every user-defined non-macro function whose body does not start with a doc form.", "quantifier": "all user-defined functions and arguments", "why_tests_cant": "infinitely many inputs; a table of examples only samples them", "anchors": ["lisp/builtin.go: source", "lisp/doc.go: combineArgs", "lisp/lambda.go: mkLambda"]}
{"id": "C63", "title": "shell runs exactly the given command and shapes its output", "statement": "(shell l) runs one process whose argument vector is the printed elements of l when l is a non-empty proper list of symbols and integers, and otherwise raises an error and runs nothing; the result lists the words of each output line.", "quantifier": "all arguments and all outputs", "why_tests_cant": "infinitely many inputs; a table of examples only samples them", "anchors": ["lisp/shell.go: doShell, shapeOutput"]}
{"id": "C64", "title": "Screen operations need a started screen", "statement": "In every history screen-start fails if the screen is already started, screen-clear, screen-size, screen-write and screen-get-key fail unless it is started, screen-end is always accepted, and only screen-start and screen-end change whether it is started. With a started screen, screen-get-key gives the symbol of the first key among the events that arrive (the character itself, or the documented name of a special key, or the empty symbol for any other key), passing over other events, and screen-write puts the characters of its list, separated by blanks, side by side into the given row from the given column on (each after the columns its predecessor takes, a character without width on a blank of its own) and shows them.", "quantifier": "all histories, all sequences of events, all texts and positions", "why_tests_cant": "ranges over all histories", "anchors": ["lisp/term.go: termStart, termEnd, termClear, termSize, termGetKey, termDrawText", "lisp/builtin.go: screen-start, screen-end, screen-clear, screen-size, screen-get-key, screen-write"]}
{"id": "C65", "title": "print and println write exactly the printed arguments", "statement": "(print a1 ... an) writes the printed forms of its arguments separated by single spaces and nothing else; println adds one newline; printl writes the elements of a list without the parentheses; each is one write and returns ().", "quantifier": "all argument lists", "why_tests_cant": "infinitely many inputs; a table of examples only samples them", "anchors": ["lisp/builtin.go: print, println, printl"]}
{"id": "C66", "title": "test runs all its forms or stops at the first failure", "statement": "(test desc form...) evaluates the description and then every form in order, printing one dot per success and a check mark at the end; an error in a form stops the test and is raised, after the dots of the forms before it.", "quantifier": "all test bodies, environments and states", "why_tests_cant": "infinitely many inputs; a table of examples only samples them", "anchors": ["lisp/lisp.go: evalTest"]}
{"id": "C67", "title": "Named lambdas can call themselves, and leak their name", "statement": "Evaluating (lambda f (args) body) returns the function and binds f to it in the current environment, so the body can call f recursively; the binding is visible to later code in that environment, and no other binding changes.", "quantifier": "all lambda forms with a name, environments and states", "why_tests_cant": "infinitely many inputs; a table of examples only samples them", "anchors": ["lisp/lambda.go: mkLambda"]}
{"id": "C68", "title": "Outside effects happen only through the functions named for them", "statement": "While any form is evaluated, a subprocess runs only if shell is called, the program pauses only if sleep is called, the screen is touched only if a screen-* function is called, standard input is consumed only if readlist is called, the gensym counter advances only if gensym is called, and random source, files and terminal are consulted only through randint, shuffle, load, shell and the screen-* functions.", "quantifier": "all forms, environments, states and execution lengths", "why_tests_cant": "quantifies over every program", "anchors": ["lisp/builtin.go: builtins", "lisp/shell.go", "lisp/term.go", "lisp/state.go"]}
{"id": "C69", "title": "let* binds one name after the other", "statement": "(let* ((s1 x1) ... (sn xn)) body...) evaluates x1 in the current scope, binds s1 in a new scope, evaluates x2 in that scope, and so on, then evaluates the body as progn would in the scope of all the bindings; a value form that fails stops it there. With no bindings it is progn, and (let* (b . bs) body...) is (let (b) (let* bs body...)).", "quantifier": "all binding lists, bodies, environments and states in which the names let* itself uses are not redefined", "why_tests_cant": "infinitely many inputs; a table of examples only samples them", "anchors": ["lisp/l1.l1: let*, list*", "lisp/lisp.go: eval (let)"]}
{"id": "C70", "title": "identity, true?, list*, not= and comment", "statement": "(identity x) is x; (true? x) is t exactly when x is t; (list* a b ... l) puts its leading arguments in front of its last; (not= ...) is the negation of =; (comment ...) evaluates nothing in its body, whatever it is, and gives ().", "quantifier": "all arguments, bodies, environments and states", "why_tests_cant": "infinitely many inputs; a table of examples only samples them", "anchors": ["lisp/l1.l1: identity, true?, list*, not=, comment"]}
{"id": "C71", "title": "mapcat and foreach", "statement": "(mapcat f l) calls f once on each element in order, threading the state, and gives the concatenation of the results; (foreach x l body...) behaves exactly as mapping a function of x with that body over l.", "quantifier": "all lists, functions with side effects, bodies and states", "why_tests_cant": "infinitely many inputs; a table of examples only samples them", "anchors": ["lisp/l1.l1: mapcat, foreach"]}
{"id": "C72", "title": "Words and sentences", "statement": "capitalize changes only the first letter of a word; punctuate-atom, bang, comma, period and colon append one mark to a word; punctuate applies a mark to the last element of a list; tosentence and exclaim capitalize the first word and punctuate the last.", "quantifier": "all words and lists of words", "why_tests_cant": "infinitely many inputs; a table of examples only samples them", "anchors": ["lisp/l1.l1: capitalize, punctuate-atom, punctuate, bang, comma, period, colon, tosentence, exclaim"]}
{"id": "C73", "title": "sort-by orders by the computed key", "statement": "(sort-by f l) gives a permutation of l in ascending order of the keys f computes, when the keys are all integers or all symbols; otherwise, as soon as there are two elements, it is an error; with distinct keys the order is determined; lists of length at most one come back without calling f.", "quantifier": "all lists and key functions", "why_tests_cant": "infinitely many inputs; a table of examples only samples them", "anchors": ["lisp/builtin.go: sort-by"]}
{"id": "C74", "title": "with-screen brackets its body with the screen", "statement": "(with-screen body...) starts the screen, evaluates the body as progn would with the screen on, ends the screen and gives the body's value. If the screen cannot be started the result is an error, nothing of the body is evaluated, and the screen is on afterwards only if it already was or the terminal failed while initialising. If the body fails, its error is passed on and the screen is left as the body left it.", "quantifier": "all bodies, environments and states in which the names with-screen uses are not redefined", "why_tests_cant": "infinitely many inputs; a table of examples only samples them", "anchors": ["lisp/l1.l1: with-screen", "lisp/term.go"]}
{"id": "C75", "title": "is evaluates its condition once and reports failures exactly", "statement": "(is c) evaluates c exactly once; a true value gives (), the value () is the error (assertion failed: c), and an error in c is passed on. (is (= a b)) evaluates a then b, once each, and succeeds exactly when the two values are equal; otherwise the error lists both expressions with their values.", "quantifier": "all conditions, environments and states in which the names is uses are not redefined", "why_tests_cant": "infinitely many inputs; a table of examples only samples them", "anchors": ["lisp/l1.l1: is"]}
{"id": "C76", "title": "randchoice, randigits and randalpha stay in range and draw no more than needed", "statement": "(randchoice l) gives the element of the non-empty list l at the drawn position and draws exactly one random number; on the empty list it is an error. (randigits n) gives n digits 0-9 and (randalpha n) gives n letters a-z, each from its own draw, in order; exactly n numbers are drawn and nothing else changes.", "quantifier": "all lists shorter than 2^63, all n, all random sources, environments and states", "why_tests_cant": "infinitely many inputs; a table of examples only samples them", "anchors": ["lisp/l1.l1: randchoice, randigits, randalpha", "lisp/builtin.go: randint"]}
{"id": "C77", "title": "forms and help list exactly what is available, by name", "statement": "(forms) gives one entry (name kind arity more? args doc) per special form, per native function and per name in scope (in every enclosing scope) that denotes a function or macro with documentation, sorted by name; (help) prints the same entries as a table in one write and gives (). The documented examples are evaluated in the calling scope, and an example that fails never makes forms or help fail.", "quantifier": "all environments, histories of definitions and states, all documented functions and their examples", "why_tests_cant": "infinitely many inputs; a table of examples only samples them", "anchors": ["lisp/doc.go: availableForms, formsAsSexprList, ShortDocStr, examplesToString, functionExamplesFromDoc", "lisp/env.go: EnvKeys"]}
{"id": "C78", "title": "The list walks of the library need a fixed stack", "statement": "(nth n l), (drop n l), (last l) and (range n) give their results within a fixed number of nested calls, however long the list and however large n; (reduce f a l), (some f l) and (every f l) need that many more than one call of f. take, map and filter need at most a fixed amount plus three nested calls per element.", "quantifier": "all numbers, lists, functions that compute a value within a given stack, environments and states", "why_tests_cant": "the bound must hold for every length, and a test can only try some", "anchors": ["lisp/l1.l1: nth, drop, last, range, while, reduce, some, every, take, map, filter", "lisp/lisp.go: eval (tail calls)"]}
{"id": "C79", "title": "lambda, defn and defmacro build the function they describe", "statement": "(lambda l body...) gives, without any effect, the function with the positional and rest parameters written in l, the documentation of a leading doc form, the remaining forms as body and the current environment; defn and defmacro bind such a function or macro in the outermost environment and give (). Every other parameter list, a missing one, a name that is not a symbol or a documentation that is not a list is an error that changes nothing. After (defn f l body...), (f a1 ... an) runs the body with the parameters bound to the arguments. doc and body give back what was written.", "quantifier": "all parameter lists, documentations, bodies, names, environments and states", "why_tests_cant": "infinitely many inputs; a table of examples only samples them", "anchors": ["lisp/lambda.go: mkLambda", "lisp/lisp.go: evDefn, eval (lambda, defn, defmacro)", "lisp/builtin.go: doc, body"]}
{"id": "C80", "title": "-doc and -longdoc document every form", "statement": "l1 -doc prints the table of (help) as it is after start-up and exits with status 0. l1 -longdoc prints, in one write, the number of available forms, an index with one link per form and one section per form (name, description, type, arity, arguments, and the examples with the results they have), in the order of (forms), and exits with status 0. Neither reads the files or the expression on the command line.", "quantifier": "all hosts, standard inputs and command lines", "why_tests_cant": "infinitely many inputs; a table of examples only samples them", "anchors": ["main.go: main", "lisp/doc.go: LongDocStr, ShortDocStr, examplesToString"]}
{"id": "C81", "title": "sleep pauses once and version never changes", "statement": "(sleep n) pauses the program exactly once, for the absolute value of n in milliseconds, gives () and changes nothing else; with anything but one integer it is an error without a pause. (version) gives the list of the release numbers, always the same, whatever the arguments and the state.", "quantifier": "all integers, argument lists, environments and states", "why_tests_cant": "infinitely many inputs; a table of examples only samples them", "anchors": ["lisp/builtin.go: sleep, version, semverAsExprs", "lisp/version.go"]}
{"id": "C82", "title": "The written syntax is exactly its grammar", "statement": "Reading succeeds exactly on the texts the documented grammar covers, with the values it gives: a line is blanks, a comment from a semicolon to its end, parentheses, dots, the five prefix marks, a shebang, numbers (an optional sign and all the digits that follow) and symbols (all characters up to the next blank or punctuation). A text is spelled in one way at most, and a text with a stray character is never read.", "quantifier": "all texts", "why_tests_cant": "infinitely many inputs; a table of examples only samples them", "anchors": ["lisp/lex.go: lexStart, lexAtom, lexInt, lexUnquote, lexHashSugar, ignoreToEndOfLine, LexItems", "lisp/parse.go: lexAndParse"]}
{"id": "C83", "title": "Reading errors name the right place", "statement": "If reading fails with an error, its last message is true of the text: 'unexpected right paren on line n' and 'unexpected lexeme ... on line n' point to such a lexeme on the n-th line (a dot, a shebang, or a character that starts nothing, named in the message), everything before which could still be continued to a readable text; 'unbalanced parens' means an opening parenthesis that is never closed; 'unexpected end of input' a quotation mark with nothing to quote. If the text before a first fault outside all parentheses is readable, that fault is the one reported.", "quantifier": "all texts", "why_tests_cant": "infinitely many inputs; a table of examples only samples them", "anchors": ["lisp/lex.go: LexItems", "lisp/parse.go: parseNext, parseList, parse, handleQuoteItem, listChunk, dotChunk"]}
{"id": "C84", "title": "The example programs compute what they claim", "statement": "After the definitions of examples/fact.l1, (println (fact n)) prints n!. After those of examples/tco.l1, sum-to and sum-to-with-let give n(n+1)/2, in an amount of stack that does not depend on n. After those of examples/primes.l1, (prime? n) gives t exactly if n is at most 1 or prime, also in a fixed amount of stack, and (n-primes n) gives the first n primes, counting 1 as a prime. This holds for the texts of the files run by l1, given by -e or in a file, from the start of the process to its output and exit status. On every machine, hello.l1 prints hello world, fails.l1 fails with status 1 after its first line, and badlex.l1 can be read but fails where it evaluates its ampersand.", "quantifier": "all n (natural numbers; all integers for prime?), hosts and standard inputs", "why_tests_cant": "infinitely many inputs; a table of examples only samples them", "anchors": ["examples/fact.l1", "examples/tco.l1", "examples/primes.l1", "examples/hello.l1", "examples/fails.l1", "examples/badlex.l1", "main.go: main", "lisp/lisp.go: eval", "lisp/l1.l1: zero?, if, reverse"]}
{"id": "C85", "title": "What earlier evaluations computed and dropped cannot be noticed", "statement": "If a state differs from another only by environments left behind by finished evaluations and by what they printed (nothing that existed was rebound, nothing was read or asked, and gensym was not used), then no form, program text or interactive session started in the two states can tell them apart: it ends in the one exactly if it ends in the other, with the same value (a function up to the environment it remembers), error, crash or exit status, and with the same effects. In particular, taking a form whose evaluation leaves only such garbage out of a program changes nothing but that what the form printed is missing from the output.", "quantifier": "all reachable states, environments, forms, program texts and sessions", "why_tests_cant": "infinitely many inputs; a table of examples only samples them", "anchors": ["lisp/lisp.go: eval, LexParseEval", "lisp/env.go: mkEnv, Lookup, Set, SetTopLevel", "lisp/lambda.go: mkLambda", "lisp/lisp.go: setLambdaArgsInEnv", "main.go: repl"]}
{"id": "C86", "title": "Every value has one written form", "statement": "print, println and printl write each value in one way only: a symbol as it is, a number in decimal without leading zeros, a list in parentheses with single blanks between its elements (and a dot before an end other than ()), a function or macro as <lambda(parameters . rest)>, a native function as <builtin: name>. Different readable data have different forms. printl writes a list, proper or not, without its outer parentheses.", "quantifier": "all values, environments and states", "why_tests_cant": "infinitely many inputs; a table of examples only samples them", "anchors": ["lisp/atom.go: String", "lisp/math.go: String", "lisp/cons.go: String", "lisp/lambda.go: String", "lisp/builtin.go: String, print, println, printl", "lisp/util.go: unwrapList"]}
{"id": "C87", "title": "A compiled program behaves like the interpreted one, but keeps silent about errors", "statement": "The program l1c builds from a source text does what l1 -e does with the same text: the same end and the same effects, except that where l1 -e prints an error message and gives status 1, the compiled program ends there without a message and with status 0. It ends with status 0 unless the Go runtime crashes.", "quantifier": "all source texts, hosts and standard inputs", "why_tests_cant": "infinitely many inputs; a table of examples only samples them", "anchors": ["l1c: main.go template", "lisp/lisp.go: LexParseEval", "lisp/core.go: RawCore", "main.go: main"]}
{"id": "C88", "title": "Loading the library again restores it and nothing else", "statement": "In every state in which def, defn and defmacro are not macros and fuse and car have not been redefined, evaluating the text of the library (or loading a file with this text) succeeds; afterwards every library name has the meaning it has after start-up, whatever it meant before, all other bindings and environments are as they were, and nothing has been printed, read or asked. If only library names had been redefined, the library is as loaded again.", "quantifier": "all states (histories of definitions), hosts and inputs", "why_tests_cant": "infinitely many inputs; a table of examples only samples them", "anchors": ["lisp/l1.l1", "lisp/lisp.go: evDef, evDefn, LexParseEval", "lisp/builtin.go: load, LoadFile"]}
{"id": "C89", "title": "A let is the call of a function made on the spot", "statement": "(let ((s1 x1) ... (sn xn)) body ...) and ((lambda (s1 ... sn) body ...) x1 ... xn) can be exchanged anywhere: one ends exactly if the other does, with the same value (up to which environments the functions in it were made in), panic or exit status and with the same output, input, questions to the operating system, gensym counter and screen; a failing evaluation gives the same error except for the one line added by the let or by the call. This holds if let and lambda are not shadowed by macros, no name is t (neither form can bind it) and the body does not begin with a (doc ...) form (which lambda takes off and let does not).", "quantifier": "all names, value forms and bodies, environments and reachable states", "why_tests_cant": "infinitely many inputs; a table of examples only samples them", "anchors": ["lisp/lisp.go: eval", "lisp/lambda.go: mkLambda", "lisp/lisp.go: setLambdaArgsInEnv", "lisp/env.go: mkEnv, Set, Lookup"]}
{"id": "C90", "title": "What can be written down, and names for what cannot", "statement": "Reading gives only symbols whose names contain no blank, newline, parenthesis or any of ~ @ # ; ` ' and do not start like a number or with a dot; every value made of such symbols, integers and lists can be written down, and no others. After the start, SPACE, NEWLINE, TAB, BANG, QMARK, PERIOD, COMMA, COLON, HASH, ATSIGN, CHECK, QUOTE, BQUOTE, DQUOTE and UPLINE are bound to the symbols named by these characters, and (fuse (list ...)) puts any sequence of words and these characters together to one symbol (a number if it starts with a digit), so that any text can be made.", "quantifier": "all texts, values, hosts, inputs, and sequences of words and named characters", "why_tests_cant": "infinitely many inputs; a table of examples only samples them", "anchors": ["lisp/builtin.go: InitGlobals, fuse", "lisp/lex.go", "lisp/parse.go", "intro.md: Special Characters"]}
{"id": "C91", "title": "Programs compose", "statement": "If several program texts can all be read and none but the first contains a shebang, then running the one text made of them, each on lines of its own, is running them one after the other, each in the state the one before has left, up to the first that does not end with a value: the same outcomes, states and effects, and it ends exactly if they do. If one of two texts cannot be read, nothing of the other is run.", "quantifier": "all lists of texts, environments and states", "why_tests_cant": "infinitely many inputs; a table of examples only samples them", "anchors": ["lisp/lisp.go: LexParseEval, EvalExprs", "lisp/lex.go", "lisp/parse.go: Parse"]}
{"id": "C92", "title": "Standard input does not matter to an evaluation that does not read it", "statement": "An evaluation that never calls readlist ends, if started in a state with another standard input and other earlier output but the same variables, gensym counter, screen and operating system, exactly if it ends in the first one, with the same outcome, leaving the same variables, counters and screen, adding the same output, and leaving either standard input untouched.", "quantifier": "all forms, environments, states, standard inputs and earlier outputs", "why_tests_cant": "infinitely many inputs; a table of examples only samples them", "anchors": ["lisp/lisp.go: eval", "lisp/builtin.go: readlist", "lisp/builtin.go: ReadLine"]}
{"id": "C93", "title": "Typing a program line by line does what running it does", "statement": "If the lines of a program that runs to its end and never calls readlist are entered into an interactive session instead (no line ends in a quote, backquote, tilde or hash mark, and each fits the line buffer), then however forms are spread over lines, the session ends normally in the same state, and its output is that of the program, mixed with the prompts and with one line for the value of each form, in order, and a newline at the end. In particular l1 -e text and l1 with the lines of the text typed on its standard input (each delivered by itself) have the same effect and the same exit status.", "quantifier": "all programs, ways to break them into lines, hosts and states", "why_tests_cant": "infinitely many inputs; a table of examples only samples them", "anchors": ["main.go: repl, main", "lisp/lisp.go: LexParseEval, EvalExprs", "lisp/lex.go: LexItems", "lisp/parse.go: Parse", "lisp/builtin.go: ReadLine"]}
{"id": "C94", "title": "A program that asks the outside nothing does the same everywhere", "statement": "An evaluation that calls none of readlist, randint, shuffle, load, shell and the screen functions ends, in any state with the same variables and gensym counter, whatever the operating system, standard input, screen and earlier output are, in the same way: same value, error, crash or exit status, same new output, same variables, and nothing of the outside is used up. So l1 -e text, or l1 with a file of the same contents, gives the same output and the same exit status on every machine (built with the same character tables), and ends on all of them or on none.", "quantifier": "all forms, program texts, environments, states, hosts, standard inputs", "why_tests_cant": "infinitely many inputs; a table of examples only samples them", "anchors": ["lisp/lisp.go: eval, LexParseEval", "lisp/builtin.go: builtins", "lisp/term.go", "lisp/shell.go", "main.go: main"]}
{"id": "C95", "title": "Only what is within reach can be called", "statement": "A form can call a native function (apply excepted) only if it is within its reach: as a value found in the form, in a variable of its environment or of the environment of a function found in this way, or by its name, in such an environment in which the name is not bound. No evaluation brings a function within reach of anything from which it was out of reach before. So if a native function is out of reach of an environment, no program or session run there calls it or has an effect only it has. After the start it is enough, for every native function but car (which the library keeps as first) and apply, to give the variable with its name another value: after (def shell ()) at the head of a program or of the first file, l1 runs no subprocess, whatever the rest of the program and the other files contain.", "quantifier": "all reachable states, forms, environments, native functions, program texts, files, sessions, hosts and standard inputs", "why_tests_cant": "infinitely many inputs; a table of examples only samples them", "anchors": ["lisp/lisp.go: eval, evAtom, evDef", "lisp/env.go: Lookup", "lisp/builtin.go: builtins, applyFn", "lisp/lambda.go: mkLambda", "lisp/l1.l1", "main.go: main"]}
{"id": "C96", "title": "Programs without recursion, user macros and higher-order calls always end", "statement": "Take forms built from numbers, variables, quoted data, functions and macros that are defined but not called, def, set!, let, let*, cond, and, or, if, if-not, when, when-not, progn, comment, swallow, test, error, errors, try with its catch; calls of native functions other than those that call functions or evaluate forms (apply, eval, macroexpand-1, sort-by, load, forms, help) or wait for the outside (readlist, shell, sleep, the screen); and calls of functions of the library (inc, odd?, abs ...) or of the program whose bodies are built in this way, so that none calls itself, directly or not. Such a form ends - with a value, an error, a crash or an exit - in every state in which the names of the library, native functions, special forms and functions of the program mean what they mean globally, if it binds none of these names itself; afterwards they still mean it. So a program of such forms and of definitions of such functions, each calling only those before it, ends, and so do l1 -e text and l1 with files that are such programs, with a status or a crash, and an interactive session in which such forms, and definitions of such functions one at a time, are typed. Only recursion, loop, calls of macros (those of the list excepted), and the functions listed can make l1 run on. And recursion does: a call of a function without parameters whose body begins by calling it never returns, so that l1 -e '(defn f () (f)) (f)' does not end on any host.", "quantifier": "all forms so built, of any size, all environments, states, program texts, files, typed sessions, hosts and standard inputs", "why_tests_cant": "infinitely many inputs; a table of examples only samples them", "anchors": ["lisp/lisp.go: eval, evDef, evDefn, evSet, evErrors, evalTest", "lisp/lambda.go: mkLambda", "lisp/builtin.go: builtins", "lisp/env.go: Set, Update", "lisp/l1.l1", "main.go: main, repl"]}
{"id": "C97", "title": "Native functions say what is wrong with their arguments, and fail for nothing else", "statement": "Calling a native function with arguments it does not take raises an error, and changes nothing: the error is a list whose first element reads 'builtin function <name>' and whose last element is the message for that mistake, with the offending value in it where the message shows one. The mistakes are: a wrong number of arguments (each function has its count and its message); an argument of the wrong kind (car, cdr, len, sort, shuffle, printl and fuse want a list; isqrt, randint, sleep a number; upcase, downcase, gensym, load a symbol; body a lambda; doc and source a function, source not a native one; split a symbol or number; shell a nonempty list of these; screen-write two numbers and a list); the first argument of + - * that is no number; the first of / that is no number or a divisor 0, whichever comes first; for comparisons the first that is no number, if all before it compare as asked; rem by 0, randint of 0; a list that does not end in () given to sort, sort-by, shuffle, apply; elements of different kinds, or of a kind that has no order, given to sort; something that is no function given to apply. And the functions that call no others, evaluate nothing and reach for nothing outside (car, +, sort, split and thirty-odd others) raise no other errors: every error of theirs is one of these.", "quantifier": "all native functions, argument lists, environments and states", "why_tests_cant": "infinitely many inputs; a table of examples only samples them", "anchors": ["lisp/builtin.go: builtins, compareMultipleNums, applyFn", "lisp/math.go: Div, Rem", "lisp/util.go: consToExprs", "lisp/error.go: baseErrorf, extendError", "lisp/shell.go: doShell"]}
{"id": "C98", "title": "A form that is put together wrongly is rejected, with the reason, before anything is evaluated", "statement": "Evaluating a form that breaks the rules of its operator raises an error that names the mistake, and changes nothing. The mistakes are: quote, syntax-quote, error or errors without what they need; def or set! without a name, with something else for the name, or without a value; errors whose signature is no list; let without a list of bindings; a cond clause that is not a pair; lambda, defn and defmacro without a name or parameter list, with parameters that are no list, with an item of the parameters that is no symbol, with a rest parameter missing or of the wrong kind, or with documentation that is no list; a definition of t; a dotted call; a function where a form should be. For quote, lambda, defn and defmacro these are the only errors. A symbol bound nowhere raises 'unknown symbol' with its name; calling a value that is no function raises '<value> is not a function' after the arguments have been evaluated; set! of a name bound nowhere, and def or set! of t, raise their messages after the value has been evaluated, and bind nothing. A clause of cond that is no pair, or holds and has nothing to evaluate, and a catch clause whose name is no symbol raise their messages when they are reached, after what comes before them has been evaluated.", "quantifier": "all forms, environments and states in which the operator's name is not that of a macro", "why_tests_cant": "infinitely many inputs; a table of examples only samples them", "anchors": ["lisp/lisp.go: evAtom, evDef, evSet, evDefn, evErrors, setLambdaArgsInEnv, eval", "lisp/lambda.go: mkLambda", "lisp/env.go: Set, SetTopLevel, Update", "lisp/error.go: baseErrorf, extendError"]}
