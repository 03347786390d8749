{
 "claims": [
  {
   "property": "C01",
   "status": "proved",
   "theorems": [
    "C01_round_trip",
    "C01_sequence"
   ],
   "note": "Reader/printer round trip"
  },
  {
   "property": "C02",
   "status": "proved",
   "theorems": [
    "C02_total",
    "C02_crash_iff",
    "C02_crash_dot",
    "C02_crashes"
   ],
   "note": "Reading always terminates, and crashes only on a dot without a tail"
  },
  {
   "property": "C03",
   "status": "proved",
   "theorems": [
    "C03_lines",
    "C03_compositional",
    "C03_shebang_first"
   ],
   "note": "Reading is compositional"
  },
  {
   "property": "C04",
   "status": "proved",
   "theorems": [
    "C04_balanced",
    "C04_unbalanced",
    "C04_prefix",
    "C04_unclosed"
   ],
   "note": "Whatever reads successfully is balanced; an unclosed list never reads"
  },
  {
   "property": "C05",
   "status": "proved",
   "theorems": [
    "C05_comment",
    "C05_blanks"
   ],
   "note": "Comments and blank space are invisible to the reader"
  },
  {
   "property": "C06",
   "status": "proved",
   "theorems": [
    "C06_shorthand",
    "C06_first"
   ],
   "note": "Quote shorthands are sugar"
  },
  {
   "property": "C07",
   "status": "proved",
   "theorems": [
    "C07_literal",
    "C07_print",
    "C07_round_trip"
   ],
   "note": "Integers are exact, at any size, from text to text"
  },
  {
   "property": "C08",
   "status": "proved",
   "theorems": [
    "C08_evaluation_deterministic",
    "C08_more_stack",
    "C08_finite_stack"
   ],
   "note": "Evaluation is deterministic and does not depend on the resources it is given"
  },
  {
   "property": "C09",
   "status": "proved",
   "theorems": [
    "C09_t_never_bound",
    "C09_t_evaluates_to_t",
    "C09_def_t_fails",
    "C09_defn_t_fails",
    "C09_let_t_fails",
    "C09_parameter_t_fails"
   ],
   "note": "t can never be rebound"
  },
  {
   "property": "C10",
   "status": "proved",
   "theorems": [
    "C10_constants"
   ],
   "note": "Constants evaluate to themselves and quote protects any datum"
  },
  {
   "property": "C11",
   "status": "proved",
   "theorems": [
    "C11_bindings_persist",
    "C11_new_environments_are_empty"
   ],
   "note": "Bindings never disappear and environments are never recycled"
  },
  {
   "property": "C12",
   "status": "proved",
   "theorems": [
    "C12_output_only_grows",
    "C12_no_rollback",
    "C12_effects_before_error_remain"
   ],
   "note": "Output is append-only and never rolled back"
  },
  {
   "property": "C13",
   "status": "proved",
   "theorems": [
    "C13_other_environments_unchanged",
    "C13_other_environments_unread"
   ],
   "note": "Local state is private (encapsulation)"
  },
  {
   "property": "C14",
   "status": "proved",
   "theorems": [
    "C14_lexical_scoping",
    "C14_caller_environment_irrelevant"
   ],
   "note": "Lexical scoping of functions"
  },
  {
   "property": "C15",
   "status": "proved",
   "theorems": [
    "C15_set_updates_nearest",
    "C15_set_unbound_changes_nothing",
    "C15_set_failed_value"
   ],
   "note": "set! updates exactly the nearest binding or fails changing nothing"
  },
  {
   "property": "C16",
   "status": "proved",
   "theorems": [
    "C16_def_binds_global_only",
    "C16_def_visible_unless_shadowed",
    "C16_def_failed_value"
   ],
   "note": "def binds at top level only"
  },
  {
   "property": "C17",
   "status": "proved",
   "theorems": [
    "C17_let_parallel",
    "C17_let_does_not_leak"
   ],
   "note": "let binds in parallel and only inside its body"
  },
  {
   "property": "C18",
   "status": "proved",
   "theorems": [
    "C18_call_binds_and_runs_body",
    "C18_wrong_arity_is_an_error",
    "C18_arity",
    "C18_parameters_are_positional",
    "C18_rest_parameter"
   ],
   "note": "Function calls check arity exactly and bind parameters positionally"
  },
  {
   "property": "C19",
   "status": "proved",
   "theorems": [
    "C19_arguments_left_to_right",
    "C19_invokes_user_function",
    "C19_invokes_native_function",
    "C19_invokes_non_function"
   ],
   "note": "Arguments are evaluated left to right, once, before the call"
  },
  {
   "property": "C20",
   "status": "proved",
   "theorems": [
    "C20_cond",
    "C20_and",
    "C20_or"
   ],
   "note": "cond, and, or evaluate no more than needed"
  },
  {
   "property": "C21",
   "status": "proved",
   "theorems": [
    "C21_try_catch",
    "C21_try_without_catch"
   ],
   "note": "try/catch catches every error exactly once and passes everything else"
  },
  {
   "property": "C22",
   "status": "proved",
   "theorems": [
    "C22_swallow",
    "C22_swallow_never_raises",
    "C22_errors"
   ],
   "note": "swallow and errors observe failure exactly"
  },
  {
   "property": "C23",
   "status": "proved",
   "theorems": [
    "C23_errors_keep_origin",
    "C23_raised_datum_is_last"
   ],
   "note": "Errors keep their origin"
  },
  {
   "property": "C24",
   "status": "proved",
   "theorems": [
    "C24_same_or_overflow",
    "C24_cond_is_tail",
    "C24_let_body_is_tail",
    "C24_function_body_is_tail",
    "C24_tail_recursion_in_fixed_stack",
    "C24_recursion_needs_at_most",
    "C24_recursion_overflows"
   ],
   "note": "Tail calls use constant stack"
  },
  {
   "property": "C25",
   "status": "proved",
   "theorems": [
    "C25_loop_never_returns",
    "C25_loop_rounds"
   ],
   "note": "loop never returns"
  },
  {
   "property": "C26",
   "status": "proved",
   "theorems": [
    "C26_crash_arguments"
   ],
   "note": "Native functions crash the process only on known arguments"
  },
  {
   "property": "C27",
   "status": "proved",
   "theorems": [
    "C27_add",
    "C27_mul",
    "C27_sub",
    "C27_negate",
    "C27_sub_no_arguments",
    "C27_non_integer"
   ],
   "note": "Addition, subtraction, multiplication are exact and n-ary"
  },
  {
   "property": "C28",
   "status": "proved",
   "theorems": [
    "C28_div",
    "C28_div_two",
    "C28_div_rejects",
    "C28_rem",
    "C28_rem_rejects",
    "C28_div_rem_fit"
   ],
   "note": "Division and remainder"
  },
  {
   "property": "C29",
   "status": "proved",
   "theorems": [
    "C29_true",
    "C29_false",
    "C29_error"
   ],
   "note": "Comparison chains"
  },
  {
   "property": "C30",
   "status": "proved",
   "theorems": [
    "C30_equal_true",
    "C30_equal_false",
    "C30_no_arguments",
    "C30_identity_on_data",
    "C30_equivalence",
    "C30_functions_never_equal"
   ],
   "note": "= is structural equality of data"
  },
  {
   "property": "C31",
   "status": "proved",
   "theorems": [
    "C31_isqrt",
    "C31_isqrt_negative",
    "C31_isqrt_rejects"
   ],
   "note": "Integer square root is exact"
  },
  {
   "property": "C32",
   "status": "proved",
   "theorems": [
    "C32_cons",
    "C32_car",
    "C32_cdr",
    "C32_car_nil",
    "C32_cdr_nil",
    "C32_car_cdr_rejects",
    "C32_cons_rejects",
    "C32_list",
    "C32_len",
    "C32_len_improper",
    "C32_len_rejects",
    "C32_predicates",
    "C32_car_of_cons"
   ],
   "note": "List primitives obey the list laws"
  },
  {
   "property": "C33",
   "status": "proved",
   "theorems": [
    "C33_sort_integers",
    "C33_sort_symbols",
    "C33_sort_rejects"
   ],
   "note": "sort returns the unique sorted permutation"
  },
  {
   "property": "C34",
   "status": "proved",
   "theorems": [
    "C34_shuffle_permutes",
    "C34_shuffle_rejects",
    "C34_randint",
    "C34_randint_other",
    "C34_randint_rejects"
   ],
   "note": "shuffle only permutes; randint stays in range"
  },
  {
   "property": "C35",
   "status": "proved",
   "theorems": [
    "C35_split_symbol",
    "C35_fuse_split_symbol",
    "C35_fuse_digit_first",
    "C35_split_integer",
    "C35_split_negative",
    "C35_fuse",
    "C35_rejects"
   ],
   "note": "split and fuse are inverse"
  },
  {
   "property": "C36",
   "status": "proved",
   "theorems": [
    "C36_case",
    "C36_idempotent",
    "C36_downcase_after_upcase",
    "C36_rejects"
   ],
   "note": "Case conversion"
  },
  {
   "property": "C37",
   "status": "proved",
   "theorems": [
    "C37_cxr",
    "C37_cxr_value",
    "C37_cxr_composes"
   ],
   "note": "cXr names compose car and cdr"
  },
  {
   "property": "C38",
   "status": "proved",
   "theorems": [
    "C38_apply_is_a_call",
    "C38_direct_call",
    "C38_apply_needs_a_list"
   ],
   "note": "apply is a function call"
  },
  {
   "property": "C39",
   "status": "proved",
   "theorems": [
    "C39_eval"
   ],
   "note": "eval evaluates data as code in the caller's environment"
  },
  {
   "property": "C40",
   "status": "proved",
   "theorems": [
    "C40_macro_call",
    "C40_failed_expansion",
    "C40_wrong_arity",
    "C40_macroexpand_1"
   ],
   "note": "Macro arguments are not evaluated; the expansion is evaluated in the caller's environment"
  },
  {
   "property": "C41",
   "status": "proved",
   "theorems": [
    "C41_gensym_never_repeats",
    "C41_gensym_arguments",
    "C41_gensym_name"
   ],
   "note": "gensym never repeats"
  },
  {
   "property": "C42",
   "status": "proved",
   "theorems": [
    "C42_template",
    "C42_template_gives",
    "C42_template_value"
   ],
   "note": "Syntax-quote builds exactly the template"
  },
  {
   "property": "C43",
   "status": "proved",
   "theorems": [
    "C43_core_library_loads"
   ],
   "note": "The core library loads in every environment"
  },
  {
   "property": "C44",
   "status": "proved",
   "theorems": [
    "C44_if",
    "C44_if_not",
    "C44_when",
    "C44_when_not",
    "C44_progn"
   ],
   "note": "if, if-not, when, when-not, progn choose and sequence"
  },
  {
   "property": "C45",
   "status": "proved",
   "theorems": [
    "C45_concat2",
    "C45_concat"
   ],
   "note": "concat2 and concat concatenate"
  },
  {
   "property": "C46",
   "status": "proved",
   "theorems": [
    "C46_reverse",
    "C46_reverse_twice"
   ],
   "note": "reverse reverses"
  },
  {
   "property": "C47",
   "status": "proved",
   "theorems": [
    "C47_map",
    "C47_filter",
    "C47_remove"
   ],
   "note": "map, filter, remove apply the function in order"
  },
  {
   "property": "C48",
   "status": "proved",
   "theorems": [
    "C48_reduce_from",
    "C48_reduce_first",
    "C48_reduce_empty",
    "C48_reduce_too_many"
   ],
   "note": "reduce is a left fold"
  },
  {
   "property": "C49",
   "status": "proved",
   "theorems": [
    "C49_range"
   ],
   "note": "range counts"
  },
  {
   "property": "C50",
   "status": "proved",
   "theorems": [
    "C50_nth",
    "C50_take",
    "C50_drop",
    "C50_negative",
    "C50_take_drop",
    "C50_last",
    "C50_butlast",
    "C50_first_second"
   ],
   "note": "nth, take, drop, last, butlast select positions"
  },
  {
   "property": "C51",
   "status": "proved",
   "theorems": [
    "C51_repeatedly",
    "C51_repeatedly_negative",
    "C51_repeat"
   ],
   "note": "repeat and repeatedly"
  },
  {
   "property": "C52",
   "status": "proved",
   "theorems": [
    "C52_power",
    "C52_negative_power"
   ],
   "note": "Exponentiation"
  },
  {
   "property": "C53",
   "status": "proved",
   "theorems": [
    "C53_some",
    "C53_every"
   ],
   "note": "some and every"
  },
  {
   "property": "C54",
   "status": "proved",
   "theorems": [
    "C54_max",
    "C54_min",
    "C54_max_min_nothing",
    "C54_arithmetic",
    "C54_predicates"
   ],
   "note": "min, max, abs and the integer predicates"
  },
  {
   "property": "C55",
   "status": "proved",
   "theorems": [
    "C55_while",
    "C55_while_ends",
    "C55_dotimes",
    "C55_dotimes_ends"
   ],
   "note": "while and dotimes repeat their body the right number of times"
  },
  {
   "property": "C56",
   "status": "proved",
   "theorems": [
    "C56_flatten",
    "C56_interpose",
    "C56_leaves_of_lists",
    "C56_interposed_spec",
    "C56_enumerate"
   ],
   "note": "flatten, interpose, enumerate"
  },
  {
   "property": "C57",
   "status": "proved",
   "theorems": [
    "C57_constantly",
    "C57_complement",
    "C57_partial_application",
    "C57_juxt",
    "C57_comp",
    "C57_comp_nothing"
   ],
   "note": "Function combinators"
  },
  {
   "property": "C58",
   "status": "proved",
   "theorems": [
    "C58_program",
    "C58_load",
    "C58_append"
   ],
   "note": "A program stops at its first error"
  },
  {
   "property": "C59",
   "status": "proved",
   "theorems": [
    "C59_session",
    "C59_end",
    "C59_entry"
   ],
   "note": "REPL protocol"
  },
  {
   "property": "C60",
   "status": "proved",
   "theorems": [
    "C60_one_at_a_time",
    "C60_lost",
    "C60_loss_bounded",
    "C60_total",
    "C60_readlist"
   ],
   "note": "Line input takes whole lines only when they arrive one at a time"
  },
  {
   "property": "C61",
   "status": "proved",
   "theorems": [
    "C61_only_exit",
    "C61_exit",
    "C61_process",
    "C61_status",
    "C61_eval",
    "C61_files"
   ],
   "note": "Process exit codes"
  },
  {
   "property": "C62",
   "status": "proved",
   "theorems": [
    "C62_source",
    "C62_body",
    "C62_same_behaviour",
    "C62_not_a_function"
   ],
   "note": "source gives back the function"
  },
  {
   "property": "C63",
   "status": "proved",
   "theorems": [
    "C63_shape_unique",
    "C63_shell",
    "C63_rejects"
   ],
   "note": "shell runs exactly the given command and shapes its output"
  },
  {
   "property": "C64",
   "status": "proved",
   "theorems": [
    "C64_start",
    "C64_end",
    "C64_need_screen",
    "C64_with_screen",
    "C64_only_start_and_end",
    "C64_sessions"
   ],
   "note": "Screen operations need a started screen"
  },
  {
   "property": "C65",
   "status": "proved",
   "theorems": [
    "C65_print",
    "C65_println",
    "C65_printl",
    "C65_printl_rejects"
   ],
   "note": "print and println write exactly the printed arguments"
  },
  {
   "property": "C66",
   "status": "proved",
   "theorems": [
    "C66_test"
   ],
   "note": "test runs all its forms or stops at the first failure"
  },
  {
   "property": "C67",
   "status": "proved",
   "theorems": [
    "C67_named_lambda"
   ],
   "note": "Named lambdas can call themselves, and leak their name"
  },
  {
   "property": "C68",
   "status": "proved",
   "theorems": [
    "C68_effects",
    "C68_host_fixed"
   ],
   "note": "Outside effects happen only through the functions named for them"
  },
  {
   "property": "C69",
   "status": "proved",
   "theorems": [
    "C69_let_star_none",
    "C69_let_star_some",
    "C69_let_star_step",
    "C69_let_star_one_by_one"
   ],
   "note": "let* binds one name after the other"
  },
  {
   "property": "C70",
   "status": "proved",
   "theorems": [
    "C70_identity",
    "C70_true",
    "C70_list_star",
    "C70_list_star_nothing",
    "C70_not_equal",
    "C70_not_equal_nothing",
    "C70_comment"
   ],
   "note": "identity, true?, list*, not= and comment"
  },
  {
   "property": "C71",
   "status": "proved",
   "theorems": [
    "C71_mapcat",
    "C71_foreach",
    "C71_mapcat_computing"
   ],
   "note": "mapcat and foreach"
  },
  {
   "property": "C72",
   "status": "proved",
   "theorems": [
    "C72_capitalize",
    "C72_punctuate_atom",
    "C72_marks",
    "C72_punctuate",
    "C72_sentence"
   ],
   "note": "Words and sentences"
  },
  {
   "property": "C73",
   "status": "proved",
   "theorems": [
    "C73_sort_by_integers",
    "C73_sort_by_symbols",
    "C73_sort_by_determined",
    "C73_sort_by_rejects",
    "C73_sort_by_short"
   ],
   "note": "sort-by orders by the computed key"
  },
  {
   "property": "C74",
   "status": "proved",
   "theorems": [
    "C74_not_started",
    "C74_started"
   ],
   "note": "with-screen brackets its body with the screen"
  },
  {
   "property": "C75",
   "status": "proved",
   "theorems": [
    "C75_is",
    "C75_is_equation"
   ],
   "note": "is evaluates its condition once and reports failures exactly"
  },
  {
   "property": "C76",
   "status": "proved",
   "theorems": [
    "C76_randchoice",
    "C76_randchoice_empty",
    "C76_randigits",
    "C76_randalpha"
   ],
   "note": "randchoice, randigits and randalpha stay in range and draw no more than needed"
  },
  {
   "property": "C77",
   "status": "proved",
   "theorems": [
    "C77_forms",
    "C77_help"
   ],
   "note": "forms and help list exactly what is available, by name"
  },
  {
   "property": "C78",
   "status": "proved",
   "theorems": [
    "C78_nth",
    "C78_drop",
    "C78_last",
    "C78_range",
    "C78_reduce",
    "C78_reduce_first",
    "C78_some",
    "C78_every",
    "C78_take",
    "C78_map",
    "C78_filter"
   ],
   "note": "The list walks of the library need a fixed stack"
  },
  {
   "property": "C79",
   "status": "proved",
   "theorems": [
    "C79_lambda",
    "C79_lambda_rejects",
    "C79_define",
    "C79_define_rejects",
    "C79_define_and_call",
    "C79_doc_and_body"
   ],
   "note": "lambda, defn and defmacro build the function they describe"
  },
  {
   "property": "C80",
   "status": "proved",
   "theorems": [
    "C80_doc",
    "C80_longdoc"
   ],
   "note": "-doc and -longdoc document every form"
  },
  {
   "property": "C81",
   "status": "proved",
   "theorems": [
    "C81_sleep",
    "C81_sleep_once",
    "C81_sleep_rejects",
    "C81_version"
   ],
   "note": "sleep pauses once and version never changes"
  },
  {
   "property": "C82",
   "status": "proved",
   "theorems": [
    "C82_lexemes",
    "C82_unambiguous",
    "C82_reads",
    "C82_rejects"
   ],
   "note": "The written syntax is exactly its grammar"
  },
  {
   "property": "C83",
   "status": "proved",
   "theorems": [
    "C83_errors",
    "C83_stray_close",
    "C83_stray_lexeme",
    "C83_unclosed"
   ],
   "note": "Reading errors name the right place"
  },
  {
   "property": "C84",
   "status": "proved",
   "theorems": [
    "C84_hello",
    "C84_fails",
    "C84_badlex",
    "C84_fact",
    "C84_sum",
    "C84_sum_stack",
    "C84_prime",
    "C84_prime_stack",
    "C84_not_above_1",
    "C84_n_primes",
    "C84_n_primes_prints"
   ],
   "note": "The example programs compute what they claim"
  },
  {
   "property": "C85",
   "status": "proved",
   "theorems": [
    "C85_evaluation",
    "C85_program",
    "C85_session",
    "C85_removed"
   ],
   "note": "What earlier evaluations computed and dropped cannot be noticed"
  },
  {
   "property": "C86",
   "status": "proved",
   "theorems": [
    "C86_one_form",
    "C86_faithful",
    "C86_print",
    "C86_println",
    "C86_printl"
   ],
   "note": "Every value has one written form"
  },
  {
   "property": "C87",
   "status": "proved",
   "theorems": [
    "C87_compiled",
    "C87_same_as_e",
    "C87_status"
   ],
   "note": "A compiled program behaves like the interpreted one, but keeps silent about errors"
  },
  {
   "property": "C88",
   "status": "proved",
   "theorems": [
    "C88_reload",
    "C88_restored",
    "C88_load"
   ],
   "note": "Loading the library again restores it and nothing else"
  },
  {
   "property": "C89",
   "status": "proved",
   "theorems": [
    "C89_let_is_a_call"
   ],
   "note": "A let is the call of a function made on the spot"
  },
  {
   "property": "C90",
   "status": "proved",
   "theorems": [
    "C90_readable",
    "C90_exactly",
    "C90_names",
    "C90_spelled"
   ],
   "note": "What can be written down, and names for what cannot"
  },
  {
   "property": "C91",
   "status": "proved",
   "theorems": [
    "C91_composes",
    "C91_all_or_nothing"
   ],
   "note": "Programs compose"
  },
  {
   "property": "C92",
   "status": "proved",
   "theorems": [
    "C92_evaluation"
   ],
   "note": "Standard input does not matter to an evaluation that does not read it"
  },
  {
   "property": "C93",
   "status": "proved",
   "theorems": [
    "C93_typing",
    "C93_process"
   ],
   "note": "Typing a program line by line does what running it does"
  },
  {
   "property": "C94",
   "status": "proved",
   "theorems": [
    "C94_evaluation",
    "C94_program",
    "C94_option",
    "C94_file"
   ],
   "note": "A program that asks the outside nothing does the same everywhere"
  },
  {
   "property": "C95",
   "status": "proved",
   "theorems": [
    "C95_only_within_reach",
    "C95_stays_out",
    "C95_program",
    "C95_session",
    "C95_disabled",
    "C95_option",
    "C95_files",
    "C95_no_subprocess"
   ],
   "note": "Only what is within reach can be called"
  },
  {
   "property": "C96",
   "status": "proved",
   "theorems": [
    "C96_ends",
    "C96_program",
    "C96_session",
    "C96_simple_lines",
    "C96_start",
    "C96_option",
    "C96_interactive",
    "C96_files",
    "C96_recursion"
   ],
   "note": "Programs without recursion, user macros and higher-order calls always end"
  },
  {
   "property": "C97",
   "status": "proved",
   "theorems": [
    "C97_rejects",
    "C97_only_then",
    "C97_exactly"
   ],
   "note": "Native functions say what is wrong with their arguments, and fail for nothing else"
  },
  {
   "property": "C98",
   "status": "proved",
   "theorems": [
    "C98_misuse",
    "C98_only",
    "C98_unknown_symbol",
    "C98_not_a_function",
    "C98_unbound_set",
    "C98_t",
    "C98_cond",
    "C98_catch"
   ],
   "note": "A form that is put together wrongly is rejected, with the reason, before anything is evaluated"
  }
 ]
}