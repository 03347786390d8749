# A Rocq model of eigenhombre/l1 and proofs of its user-visible properties

## 1. What is modelled

`rocq/theories/Model/` is a function-by-function functional model of the Go code
(each definition cites the file and lines it models).

| file | models |
|---|---|
| `Base.v` | the Go library functions on byte strings that the interpreter uses (Split, Join, Contains, UTF-8 decoding, `big.Int` text conversion, `%q`) |
| `Syntax.v` | `Sexpr` values, printing (`String`), `Equal`, errors (`atom.go cons.go math.go lambda.go util.go error.go`) |
| `World.v` | all mutable/external state: environments (`env.go`), gensym counter (`state.go`), standard output (events), standard input, screen flag, and a `host` record of oracles for the OS |
| `Lex.v`, `Parse.v` | `lex.go`, `parse.go` |
| `Prog.v` | the shape of a Go computation: a tree of primitive operations and recursive calls, and the interpreter `run` of such trees with a step budget (`fuel`) and a stack bound (`depth`) |
| `Meta.v` | the documentation tables (generated from `builtin.go`, `doc.go`) |
| `Eval.v` | `lisp.go`, `lambda.go`: special forms, macros, function calls, `EvalExprs`, `LexParseEval`, `LoadFile` |
| `Builtins.v` | all 52 native functions (`builtin.go math.go shell.go term.go doc.go`), the REPL (`main.go`) |
| `CoreSrc.v` | the exact text of `lisp/l1.l1` (the embedded core library) |
| `Main.v` | `main.go` |
| `Compiled.v` | the `main` of a program built by `l1c` |
| `Conformance.v` | tests, not proofs: the model run on the project's own test tables, on the examples with results in `api.md`, on the help text in `lisp/examples.txt`, on `tests.l1`, and on `-longdoc`, whose output is compared byte for byte with the 45 kB reference manual `api.md` (which includes the evaluated examples of all functions) |

A Go function is a *program tree* (`prog`): it returns, raises, panics, exits,
performs a primitive operation on the world, or calls a recursive entry point.
`step : call -> prog tres` is the code of each entry point; `TTail` is Go's
`goto top`.  `run step fuel depth call world` executes it.  `fuel` is a device of
the model (a call that has not finished has outcome `OutOfFuel`; C08 shows that a
settled result does not depend on it); `depth` is the Go stack (`Inf`, or `Fin n`
nested entry-point calls; exceeding it is `Overflow`).

### Not modelled / simplified

* the lexutil library (not in /repo): modelled from its documented interface;
* Go map iteration order (only `EnvKeys`/`forms`/`help` can see it): insertion order;
* `sort.Slice`'s algorithm: insertion sort.  Unobservable for `sort` (proved);
  for `sort-by` it fixes the order of equal keys and the calls of the key function;
* `rand`, files, subprocesses, tcell, non-ASCII case mapping and `unicode.IsDigit`
  on non-ASCII are oracles in `host`; every theorem holds for all oracles.  Of tcell
  and go-runewidth only the event source and the width function are oracles: the
  loops of `termGetKey` and `termDrawText` are modelled; waiting forever for a key is not;
* of `l1c`, the Go program it writes is modelled (`Compiled.v`), not `go build`;
* stack bound: one unit per nested entry-point call; stack used by helper
  recursion (String, Equal, Parse, Lookup) is not counted; memory is unbounded;
* concurrency: the code starts no goroutines except lexutil's lexer channel
  (whose items are consumed in order); time and CPU profiling (`-p`) are left out;
* `%q` on non-ASCII text assumes printable;
* read errors other than EOF on stdin;
* the aliasing of argument slices by Go's `append` in `applyFn` is not modelled
  (no later read of the aliased slot exists).

## 2. Trusted base

* Coq 8.16.1's kernel (and `coqchk`), which checks every theorem.
* No axioms are added, and no axiom of any library is used: see section 5.
* That the definitions in `theories/Model/` say what the Go code does.  Evidence:
  the citations, and `theories/Model/Conformance.v`, which stops the build if the
  model disagrees with the project's own tests and recorded outputs.
* That the statements in `theories/Props/`, read with the vocabularies in
  `theories/Spec/`, say what `properties.jsonl` says.

## 3. How the proofs are organised

* `Spec/*.v`: the words the statements are written in, separate from the model's
  helpers: evaluation and outcomes (`Vocabulary`), reading (`Reader`), effects
  (`Effects`), the loaded library (`Library`), calls of function arguments
  (`Calling`), repetition (`Repeating`), choice (`Choosing`), sessions and
  processes (`Session`), templates (`Template`), let* (`Binding`).
* `Proofs/Run.v`: facts about `run` for *any* code table: more fuel or more stack
  does not change a settled result, determinism, composition rules
  (`calls`/`runs` relations), preservation of world relations by induction on
  program trees.
* `Proofs/Heap.v Scope.v Encap.v Reach.v Same.v`: frame algebra, invariants
  (append-only output, monotone heap, `t` unbound), encapsulation through sets of
  frames closed under reachability, reachable states, irrelevance of unread frames.
* `Proofs/Rules.v Forms.v Natives.v Ops.v`: one equivalence per evaluation rule,
  per loop of the evaluator and per native call; which primitive operations each
  part can perform.
* `Proofs/Decimal.v LexFacts.v ParseFacts.v`: numerals, lexer, parser.
* `Proofs/Core.v Wp.v Step.v Symb.v Macro.v Macros.v Open.v
  Guard.v`: symbolic execution
  of the library's Lisp source: weakest preconditions, one rule per form, what
  each macro expands to, unknown functions as arguments.
* `Proofs/Hof.v Lib.v User.v Never.v Plan.v Combi.v Loop.v While.v Dotimes.v
  Range.v`: the library functions and macros.
* `Props/*.v`: the property theorems, each with an example that meets its hypotheses.

Evaluation relations are total: `evals x e w r w'` relates a form to a value, an
error, a crash or an exit, and every theorem says for which of these it speaks.
Divergence is the absence of any result.  Statements of the form "exactly" are
equivalences between the model's run and a specification relation.

## 4. Properties

For each property: what is proved, how, and by which theorems (all in `theories/Props/`).

* **C01** Reader/printer round trip. Lexer, parser and printer; induction on values, with a lexer invariant for delimiters and a chunk lemma for nested lists. *proved*: `C01_round_trip`, `C01_sequence`
* **C02** Reading always terminates, and crashes only on a dot without a tail. Well-founded argument on (token count, call kind) for the recursion bound; case analysis of the only unguarded indexing expression. *proved*: `C02_total`, `C02_crash_iff`, `C02_crash_dot`, `C02_crashes`
* **C03** Reading is compositional. Grammar of spec/reader shown equivalent to the parser; induction over token streams. *proved*: `C03_lines`, `C03_compositional`, `C03_shebang_first`
* **C04** Whatever reads successfully is balanced; an unclosed list never reads. Induction over token streams and nesting level. *proved*: `C04_balanced`, `C04_unbalanced`, `C04_prefix`, `C04_unclosed`
* **C05** Comments and blank space are invisible to the reader. Induction over lexer states. *proved*: `C05_comment`, `C05_blanks`
* **C06** Quote shorthands are sugar. The grammar, one production per shorthand. *proved*: `C06_shorthand`, `C06_first`
* **C07** Integers are exact, at any size, from text to text. Decimal conversion; induction on digits. *proved*: `C07_literal`, `C07_print`, `C07_round_trip`
* **C08** Evaluation is deterministic and does not depend on the resources it is given. Generic induction on the step budget and program trees, for any code table. *proved*: `C08_evaluation_deterministic`, `C08_more_stack`, `C08_finite_stack`
* **C09** t can never be rebound. World invariant over every primitive operation. *proved*: `C09_t_never_bound`, `C09_t_evaluates_to_t`, `C09_def_t_fails`, `C09_defn_t_fails`, `C09_let_t_fails`, `C09_parameter_t_fails`
* **C10** Constants evaluate to themselves and quote protects any datum. Direct. *proved*: `C10_constants`
* **C11** Bindings never disappear and environments are never recycled. World invariant over every primitive operation. *proved*: `C11_bindings_persist`, `C11_new_environments_are_empty`
* **C12** Output is append-only and never rolled back. World invariant over every primitive operation. *proved*: `C12_output_only_grows`, `C12_no_rollback`, `C12_effects_before_error_remain`
* **C13** Local state is private (encapsulation). Sets of frames closed under reachability; unary (unchanged) and binary (not read) induction over program trees. *proved*: `C13_other_environments_unchanged`, `C13_other_environments_unread`
* **C14** Lexical scoping of functions. Relational specification of the form (spec/vocabulary), equivalent to the model in both directions. *proved*: `C14_lexical_scoping`, `C14_caller_environment_irrelevant`
* **C15** set! updates exactly the nearest binding or fails changing nothing. Relational specification of the form (spec/vocabulary), equivalent to the model in both directions. *proved*: `C15_set_updates_nearest`, `C15_set_unbound_changes_nothing`, `C15_set_failed_value`
* **C16** def binds at top level only. Relational specification of the form (spec/vocabulary), equivalent to the model in both directions. *proved*: `C16_def_binds_global_only`, `C16_def_visible_unless_shadowed`, `C16_def_failed_value`
* **C17** let binds in parallel and only inside its body. Relational specification of the form (spec/vocabulary), equivalent to the model in both directions. *proved*: `C17_let_parallel`, `C17_let_does_not_leak`
* **C18** Function calls check arity exactly and bind parameters positionally. Relational specification of the form (spec/vocabulary), equivalent to the model in both directions. *proved*: `C18_call_binds_and_runs_body`, `C18_wrong_arity_is_an_error`, `C18_arity`, `C18_parameters_are_positional`, `C18_rest_parameter`
* **C19** Arguments are evaluated left to right, once, before the call. Relational specification of the form (spec/vocabulary), equivalent to the model in both directions. *proved*: `C19_arguments_left_to_right`, `C19_invokes_user_function`, `C19_invokes_native_function`, `C19_invokes_non_function`
* **C20** cond, and, or evaluate no more than needed. Relational specification of the form (spec/vocabulary), equivalent to the model in both directions. *proved*: `C20_cond`, `C20_and`, `C20_or`
* **C21** try/catch catches every error exactly once and passes everything else. Relational specification of the form (spec/vocabulary), equivalent to the model in both directions. *proved*: `C21_try_catch`, `C21_try_without_catch`
* **C22** swallow and errors observe failure exactly. Relational specification of the form (spec/vocabulary), equivalent to the model in both directions. *proved*: `C22_swallow`, `C22_swallow_never_raises`, `C22_errors`
* **C23** Errors keep their origin. Relational specification of the form (spec/vocabulary), equivalent to the model in both directions. *proved*: `C23_errors_keep_origin`, `C23_raised_datum_is_last`
* **C24** Tail calls use constant stack. Runs with a finite stack; induction on the number of iterations, both bounds. *proved*: `C24_same_or_overflow`, `C24_cond_is_tail`, `C24_let_body_is_tail`, `C24_function_body_is_tail`, `C24_tail_recursion_in_fixed_stack`, `C24_recursion_needs_at_most`, `C24_recursion_overflows`
* **C25** loop never returns. Induction on the step budget. *proved*: `C25_loop_never_returns`, `C25_loop_rounds`
* **C26** Native functions crash the process only on known arguments. Case analysis over all native functions, both directions. *proved*: `C26_crash_arguments`
* **C27** Addition, subtraction, multiplication are exact and n-ary. Native functions: arithmetic and list inductions. *proved*: `C27_add`, `C27_mul`, `C27_sub`, `C27_negate`, `C27_sub_no_arguments`, `C27_non_integer`
* **C28** Division and remainder. Native functions: arithmetic and list inductions. *proved*: `C28_div`, `C28_div_two`, `C28_div_rejects`, `C28_rem`, `C28_rem_rejects`, `C28_div_rem_fit`
* **C29** Comparison chains. Native functions: arithmetic and list inductions. *proved*: `C29_true`, `C29_false`, `C29_error`
* **C30** = is structural equality of data. Native functions: arithmetic and list inductions. *proved*: `C30_equal_true`, `C30_equal_false`, `C30_no_arguments`, `C30_identity_on_data`, `C30_equivalence`, `C30_functions_never_equal`
* **C31** Integer square root is exact. Native functions: arithmetic and list inductions. *proved*: `C31_isqrt`, `C31_isqrt_negative`, `C31_isqrt_rejects`
* **C32** List primitives obey the list laws. Native functions: arithmetic and list inductions. *proved*: `C32_cons`, `C32_car`, `C32_cdr`, `C32_car_nil`, `C32_cdr_nil`, `C32_car_cdr_rejects`, `C32_cons_rejects`, `C32_list`, `C32_len`, `C32_len_improper`, `C32_len_rejects`, `C32_predicates`, `C32_car_of_cons`
* **C33** sort returns the unique sorted permutation. Native functions: arithmetic and list inductions. *proved*: `C33_sort_integers`, `C33_sort_symbols`, `C33_sort_rejects`
* **C34** shuffle only permutes; randint stays in range. Native functions: arithmetic and list inductions. *proved*: `C34_shuffle_permutes`, `C34_shuffle_rejects`, `C34_randint`, `C34_randint_other`, `C34_randint_rejects`
* **C35** split and fuse are inverse. Native functions: arithmetic and list inductions. *proved*: `C35_split_symbol`, `C35_fuse_split_symbol`, `C35_fuse_digit_first`, `C35_split_integer`, `C35_split_negative`, `C35_fuse`, `C35_rejects`
* **C36** Case conversion. Native functions: arithmetic and list inductions. *proved*: `C36_case`, `C36_idempotent`, `C36_downcase_after_upcase`, `C36_rejects`
* **C37** cXr names compose car and cdr. Induction on the letters of the name. *proved*: `C37_cxr`, `C37_cxr_value`, `C37_cxr_composes`
* **C38** apply is a function call. Equality of outcome relations. *proved*: `C38_apply_is_a_call`, `C38_direct_call`, `C38_apply_needs_a_list`
* **C39** eval evaluates data as code in the caller's environment. Equality of outcome relations. *proved*: `C39_eval`
* **C40** Macro arguments are not evaluated; the expansion is evaluated in the caller's environment. Relational specification of macro expansion. *proved*: `C40_macro_call`, `C40_failed_expansion`, `C40_wrong_arity`, `C40_macroexpand_1`
* **C41** gensym never repeats. Counter monotonicity and injectivity of the decimal suffix. *proved*: `C41_gensym_never_repeats`, `C41_gensym_arguments`, `C41_gensym_name`
* **C42** Syntax-quote builds exactly the template. Induction on templates (spec/template). *proved*: `C42_template`, `C42_template_gives`, `C42_template_value`
* **C43** The core library loads in every environment. Execution of the loader for a symbolic host and input. *proved*: `C43_core_library_loads`
* **C44** if, if-not, when, when-not, progn choose and sequence. The lisp source of the core library executed symbolically with the rules of wp/step/guard, induction on lists or integers. *proved*: `C44_if`, `C44_if_not`, `C44_when`, `C44_when_not`, `C44_progn`
* **C45** concat2 and concat concatenate. The lisp source of the core library executed symbolically with the rules of wp/step/guard, induction on lists or integers. *proved*: `C45_concat2`, `C45_concat`
* **C46** reverse reverses. The lisp source of the core library executed symbolically with the rules of wp/step/guard, induction on lists or integers. *proved*: `C46_reverse`, `C46_reverse_twice`
* **C47** map, filter, remove apply the function in order. The lisp source of the core library executed symbolically with the rules of wp/step/guard, induction on lists or integers. *proved*: `C47_map`, `C47_filter`, `C47_remove`
* **C48** reduce is a left fold. The lisp source of the core library executed symbolically with the rules of wp/step/guard, induction on lists or integers. *proved*: `C48_reduce_from`, `C48_reduce_first`, `C48_reduce_empty`, `C48_reduce_too_many`
* **C49** range counts. The lisp source of the core library executed symbolically with the rules of wp/step/guard, induction on lists or integers. *proved*: `C49_range`
* **C50** nth, take, drop, last, butlast select positions. The lisp source of the core library executed symbolically with the rules of wp/step/guard, induction on lists or integers. *proved*: `C50_nth`, `C50_take`, `C50_drop`, `C50_negative`, `C50_take_drop`, `C50_last`, `C50_butlast`, `C50_first_second`
* **C51** repeat and repeatedly. The lisp source of the core library executed symbolically with the rules of wp/step/guard, induction on lists or integers. *proved*: `C51_repeatedly`, `C51_repeatedly_negative`, `C51_repeat`
* **C52** Exponentiation. The lisp source of the core library executed symbolically with the rules of wp/step/guard, induction on lists or integers. *proved*: `C52_power`, `C52_negative_power`
* **C53** some and every. The lisp source of the core library executed symbolically with the rules of wp/step/guard, induction on lists or integers. *proved*: `C53_some`, `C53_every`
* **C54** min, max, abs and the integer predicates. The lisp source of the core library executed symbolically with the rules of wp/step/guard, induction on lists or integers. *proved*: `C54_max`, `C54_min`, `C54_max_min_nothing`, `C54_arithmetic`, `C54_predicates`
* **C55** while and dotimes repeat their body the right number of times. The lisp source of the core library executed symbolically with the rules of wp/step/guard, induction on lists or integers. *proved*: `C55_while`, `C55_while_ends`, `C55_dotimes`, `C55_dotimes_ends`
* **C56** flatten, interpose, enumerate. The lisp source of the core library executed symbolically with the rules of wp/step/guard, induction on lists or integers. *proved*: `C56_flatten`, `C56_interpose`, `C56_leaves_of_lists`, `C56_interposed_spec`, `C56_enumerate`
* **C57** Function combinators. The lisp source of the core library executed symbolically with the rules of wp/step/guard, induction on lists or integers. *proved*: `C57_constantly`, `C57_complement`, `C57_partial_application`, `C57_juxt`, `C57_comp`, `C57_comp_nothing`
* **C58** A program stops at its first error. EvalExprs, REPL and main; inductions over forms, lines and files. *proved*: `C58_program`, `C58_load`, `C58_append`
* **C59** REPL protocol. EvalExprs, REPL and main; inductions over forms, lines and files. *proved*: `C59_session`, `C59_end`, `C59_entry`
* **C60** Line input takes whole lines only when they arrive one at a time. EvalExprs, REPL and main; inductions over forms, lines and files. *proved*: `C60_one_at_a_time`, `C60_lost`, `C60_loss_bounded`, `C60_total`, `C60_readlist`
* **C61** Process exit codes. EvalExprs, REPL and main; inductions over forms, lines and files. *proved*: `C61_only_exit`, `C61_exit`, `C61_process`, `C61_status`, `C61_eval`, `C61_files`
* **C62** source gives back the function. Both evaluations simulated; encapsulation for the copy. *proved*: `C62_source`, `C62_body`, `C62_same_behaviour`, `C62_not_a_function`
* **C63** shell runs exactly the given command and shapes its output. Specification predicates over events and states; case analysis and induction. *proved*: `C63_shape_unique`, `C63_shell`, `C63_rejects`
* **C64** Screen operations need a started screen. Specification predicates over events and states; case analysis and induction. *proved*: `C64_start`, `C64_end`, `C64_need_screen`, `C64_with_screen`, `C64_only_start_and_end`, `C64_sessions`
* **C65** print and println write exactly the printed arguments. Specification predicates over events and states; case analysis and induction. *proved*: `C65_print`, `C65_println`, `C65_printl`, `C65_printl_rejects`
* **C66** test runs all its forms or stops at the first failure. Specification predicates over events and states; case analysis and induction. *proved*: `C66_test`
* **C67** Named lambdas can call themselves, and leak their name. Specification predicates over events and states; case analysis and induction. *proved*: `C67_named_lambda`
* **C68** Outside effects happen only through the functions named for them. Specification predicates over events and states; case analysis and induction. *proved*: `C68_effects`, `C68_host_fixed`
* **C69** let* binds one name after the other. What the library macro let* expands to, by symbolic execution of its source; one equivalence per binding; induction on the binding list against a separate relation. *proved*: `C69_let_star_none`, `C69_let_star_some`, `C69_let_star_step`, `C69_let_star_one_by_one`
* **C70** identity, true?, list*, not= and comment. Symbolic execution of each function's library source; list induction where the arity is arbitrary. *proved*: `C70_identity`, `C70_true`, `C70_list_star`, `C70_list_star_nothing`, `C70_not_equal`, `C70_not_equal_nothing`, `C70_comment`
* **C71** mapcat and foreach. Induction on the list through the library's mapcat with a caller-supplied history invariant; foreach by its expansion. *proved*: `C71_mapcat`, `C71_foreach`, `C71_mapcat_computing`
* **C72** Words and sentences. Library execution with symbolic words: split/upcase/fuse on arbitrary decoded text. *proved*: `C72_capitalize`, `C72_punctuate_atom`, `C72_marks`, `C72_punctuate`, `C72_sentence`
* **C73** sort-by orders by the computed key. Refinement of the stateful comparison loop to a pure insertion sort, whose output is shown sorted and a permutation; invariant on the error flag for the rejecting case. *proved*: `C73_sort_by_integers`, `C73_sort_by_symbols`, `C73_sort_by_determined`, `C73_sort_by_rejects`, `C73_sort_by_short`
* **C74** with-screen brackets its body with the screen. Expansion of the macro, then the equivalences for let and progn; a frame condition on the world says that only the screen and the host's answers changed. *proved*: `C74_not_started`, `C74_started`
* **C75** is evaluates its condition once and reports failures exactly. Symbolic execution of the macro's source on an arbitrary condition; equivalences for the let it expands to; forward and backward, so 'exactly once' is a statement about evaluations. *proved*: `C75_is`, `C75_is_equation`
* **C76** randchoice, randigits and randalpha stay in range and draw no more than needed. Library execution under an invariant that counts the draws made; the random source is an arbitrary function of the host. *proved*: `C76_randchoice`, `C76_randchoice_empty`, `C76_randigits`, `C76_randalpha`
* **C77** forms and help list exactly what is available, by name. Inversion of the runs of the listing program against a relational specification of trying examples and collecting entries; insertion sort shown to give a sorted permutation. *proved*: `C77_forms`, `C77_help`
* **C78** The list walks of the library need a fixed stack. The library execution of c50, c51, c54 and c57 repeated with a depth bound: every nested call spends one unit of stack, every tail call none; induction on the list. *proved*: `C78_nth`, `C78_drop`, `C78_last`, `C78_range`, `C78_reduce`, `C78_reduce_first`, `C78_some`, `C78_every`, `C78_take`, `C78_map`, `C78_filter`
* **C79** lambda, defn and defmacro build the function they describe. A grammar of parameter lists and of bodies with documentation (spec/defining) shown equivalent to the loops of mklambda by induction on the list; evaluation rules for the defining forms. *proved*: `C79_lambda`, `C79_lambda_rejects`, `C79_define`, `C79_define_rejects`, `C79_define_and_call`, `C79_doc_and_body`
* **C80** -doc and -longdoc document every form. Spec/Forms writes the table line, index line and section of an entry; the loops of ShortDocStr and LongDocStr are followed by induction on the list of forms; -doc is shown to be (help) after start-up. *proved*: `C80_doc`, `C80_longdoc`
* **C81** sleep pauses once and version never changes. Direct, from the rule for native calls; 64-bit arithmetic by lia. *proved*: `C81_sleep`, `C81_sleep_once`, `C81_sleep_rejects`, `C81_version`
* **C82** The written syntax is exactly its grammar. A relation between lines and lexemes (spec/lexical.v) proved equal to the lexer's result by induction on the length of the line, and the grammar of c03 on top of it. *proved*: `C82_lexemes`, `C82_unambiguous`, `C82_reads`, `C82_rejects`
* **C83** Reading errors name the right place. Induction on the recursion of the parser, with a predicate for faults (spec/faults.v) that is closed under what the parser does around the failing part; line numbers by induction over the lines. *proved*: `C83_errors`, `C83_stray_close`, `C83_stray_lexeme`, `C83_unclosed`
* **C84** The example programs compute what they claim. The texts are read and their definitions evaluated inside coq (symbolically for the state, on every host); the functions are then followed with the weakest-precondition rules by induction on n; primes from the standard library's znumtheory, and euclid's theorem for the termination of n-primes. *proved*: `C84_hello`, `C84_fails`, `C84_badlex`, `C84_fact`, `C84_sum`, `C84_sum_stack`, `C84_prime`, `C84_prime_stack`, `C84_not_above_1`, `C84_n_primes`, `C84_n_primes_prints`
* **C85** What earlier evaluations computed and dropped cannot be noticed. A renaming theorem (proofs/rename.v): the whole step function commutes with every injective renaming of environments, so runs in states that are renamings of one another go hand in hand, fuel for fuel; a state with left-over environments is the renaming that moves the next free place past them. *proved*: `C85_evaluation`, `C85_program`, `C85_session`, `C85_removed`
* **C86** Every value has one written form. An inductive relation of values and texts (spec/printing.v), shown functional and total by induction on the value and on the derivation; digits are unique by induction from the right. *proved*: `C86_one_form`, `C86_faithful`, `C86_print`, `C86_println`, `C86_printl`
* **C87** A compiled program behaves like the interpreted one, but keeps silent about errors. Model/Compiled.v models the main function l1c generates; with C43 (the library always loads) and C58 (what running a text is) its runs are those of the text, and C61's description of l1 -e is compared case by case. *proved*: `C87_compiled`, `C87_same_as_e`, `C87_status`
* **C88** Loading the library again restores it and nothing else. Each of the 70 top-level forms of the library is shown to be one definition in any state that keeps the defining forms (a generic lemma for defn and defmacro, two native calls for def); the list of their results is folded over the global environment and compared, by computation, with the environment c43 describes. *proved*: `C88_reload`, `C88_restored`, `C88_load`
* **C89** A let is the call of a function made on the spot. Both sides are put in the same normal form (value forms in order, then a body in a new environment); an injective renaming of environments relates the evaluations of the value forms, another one, which also moves the environment of the call before those of its arguments, the two bodies (the renaming theorem behind c85); that the value forms of a let end if the let does follows from hiding its half-filled environment. *proved*: `C89_let_is_a_call`
* **C90** What can be written down, and names for what cannot. Induction over the grammar of C82 for what reading gives, C01 for the converse; the initial global frame, read off for a symbolic host and input; fuse and list as native calls (C35) on arguments evaluated in order.. *proved*: `C90_readable`, `C90_exactly`, `C90_names`, `C90_spelled`
* **C91** Programs compose. Reading is compositional (C03) and a program is its forms evaluated in order (C58); induction on the list of texts from its end.. *proved*: `C91_composes`, `C91_all_or_nothing`
* **C92** Standard input does not matter to an evaluation that does not read it. A simulation between states that differ in output and standard input, carried through every operation but the reading of a line and through all calls; the calls made are those of C68's trace of calls.. *proved*: `C92_evaluation`
* **C93** Typing a program line by line does what running it does. In the grammar of C82 the parentheses of a form balance only at its end (or after a prefix mark), so that where a session's count of open parentheses is zero the forms read so far and those to come divide the program; induction on the lines, with C92 for each form and C58/C59 for the program and the session.. *proved*: `C93_typing`, `C93_process`
* **C94** A program that asks the outside nothing does the same everywhere. A simulation between two states, kept by every operation but those that ask the outside and by every call whose trace of calls (C68) contains none of the asking functions; induction on the forms of a program, then C58 and C61 for programs and processes.. *proved*: `C94_evaluation`, `C94_program`, `C94_option`, `C94_file`
* **C95** Only what is within reach can be called. An invariant of all values, environments and calls inside the part of the store within reach (no occurrence of the function, its name bound in every environment), kept by every operation and call; C68 turns uncalled functions into absent effects; C58, C59 and C61 carry it to programs, sessions and processes; what the library stores after start-up is computed.. *proved*: `C95_only_within_reach`, `C95_stays_out`, `C95_program`, `C95_session`, `C95_disabled`, `C95_option`, `C95_files`, `C95_no_subprocess`
* **C96** Programs without recursion, user macros and higher-order calls always end. Structural induction on the forms (mutual with lists of forms; a call of a library or program function is one of their cases, with its body, so that calls are well-founded), with the invariant that the library is as loaded, the functions defined so far are in force, and their names keep their meaning in the environment; a native function that neither calls nor waits is a straight-line program over total operations; C44, C69 and C70 give what the library's macros do, C79 what a definition does; C58, C59 and C61 carry the result to programs, files, sessions and processes. For the contrast, every round of an endless recursion makes an environment, and a run that ends has made finitely many.. *proved*: `C96_ends`, `C96_program`, `C96_session`, `C96_simple_lines`, `C96_start`, `C96_option`, `C96_interactive`, `C96_files`, `C96_recursion`
* **C97** Native functions say what is wrong with their arguments, and fail for nothing else. A table of mistakes and messages, written as a separate relation; one direction by cases on the relation, with induction over the arguments before the offending one; the other by cases on the function and its arguments, each failing run being traced to a row of the table, again with induction for the functions of any number of arguments.. *proved*: `C97_rejects`, `C97_only_then`, `C97_exactly`
* **C98** A form that is put together wrongly is rejected, with the reason, before anything is evaluated. A relation of misused forms and messages; by cases on it, with induction over the parameter list for the misplaced item; conversely an error of a quotation or definition is traced to a row of the relation, since whatever is no such mistake is a parameter list and a body (C79's relations) and is made into a function.. *proved*: `C98_misuse`, `C98_only`, `C98_unknown_symbol`, `C98_not_a_function`, `C98_unbound_set`, `C98_t`, `C98_cond`, `C98_catch`

## 5. Assumptions

`Print Assumptions` was run on each of the 373 theorems named above: every one is
"Closed under the global context", that is, uses no axiom at all.  (`coqchk` also
lists, for the whole context, seven parameters `Coq.ssr.ssrunder.Under_rel.*`:
they are the abstract fields of a sealed module in Coq's standard library that
is loaded by `From Coq Require Import ssreflect` machinery, are implemented there,
and are used by no theorem here.)

## 6. Wrong programs

`seeded/LOG.jsonl` records the mutations of the model that were tried, the
theorems that stopped proving, and the theorems tightened as a result.
