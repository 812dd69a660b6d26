{
 "claims": [
  {
   "property": "C01",
   "status": "proved",
   "theorems": [
    "C01_string_literal",
    "C01_every_string_has_a_spelling",
    "C01_byte_literal"
   ],
   "note": "In any spelling, whatever follows; together with C07 for a literal at any place of a well-formed source."
  },
  {
   "property": "C02",
   "status": "proved",
   "theorems": [
    "C02_quoted_words",
    "C02_every_word"
   ],
   "note": "from the source text through lexer, parser and analyser to the request given to the operating system; any number of words, written between single quotes, between double quotes with everything escaped, or bare with everything escaped"
  },
  {
   "property": "C03",
   "status": "proved",
   "theorems": [
    "C03_lexer_terminates"
   ],
   "note": "At most 16 + 16 * length rounds of the automaton."
  },
  {
   "property": "C04",
   "status": "partial",
   "theorems": [
    "C04_no_crash_refuted",
    "C04_crash_only_inside_a_command_block",
    "C04_no_brace_no_crash"
   ],
   "note": "Refuted as stated: [ or { in a command argument reaches todo!(). Proved instead: a crash needs [ or { after an opening brace."
  },
  {
   "property": "C05",
   "status": "proved",
   "theorems": [
    "C05_positions"
   ],
   "note": "For every source, including erroneous ones and those where the lexer crashes later."
  },
  {
   "property": "C06",
   "status": "proved",
   "theorems": [
    "C06_integer_literal",
    "C06_integer_tokens"
   ],
   "note": ""
  },
  {
   "property": "C07",
   "status": "proved",
   "theorems": [
    "C07_layout"
   ],
   "note": "Covers command blocks as well as ordinary code."
  },
  {
   "property": "C08",
   "status": "proved",
   "theorems": [
    "C08_print_parse",
    "C08_exactly_the_grammar",
    "C08_unambiguous",
    "C08_from_text"
   ],
   "note": "Stronger than asked: the parser accepts exactly a separately written grammar. Functions, conditionals and command blocks are printed by a parameter constrained to spell them according to the grammar."
  },
  {
   "property": "C09",
   "status": "partial",
   "theorems": [
    "C09_no_statement_dropped_refuted",
    "C09_text_refuted",
    "C09_statements_kept_partial"
   ],
   "note": "Refuted as stated: statements up to a top-level return that is not last are dropped without an error. Proved instead: exactly those are dropped."
  },
  {
   "property": "C10",
   "status": "proved",
   "theorems": [
    "C10_placeholders_are_reported",
    "C10_tokens"
   ],
   "note": ""
  },
  {
   "property": "C100",
   "status": "proved",
   "theorems": [
    "C100_first_error",
    "C100_hopeless",
    "C100_hope_until",
    "C100_hope_at_end"
   ],
   "note": "Well-formed is the grammar of C08. One token beyond the named one can matter: in a command a number is an argument or a file descriptor depending on what follows (C100_next)."
  },
  {
   "property": "C101",
   "status": "partial",
   "theorems": [
    "C101_recovery_partial",
    "C101_command_refuted",
    "C101_condition_refuted"
   ],
   "note": "Refuted as stated: after a mistake in a command the closing brace is skipped and then missed, so the statements up to the next closing brace are lost; in an if the token out of place is taken for the end of the file. Proved for statements where an operand is missing or where brackets or an end other than that of an if are not closed where they should be, for empty command blocks and those with something after their last question mark. The statements may stand in the bodies of functions, loops and conditions, nested to any depth. Mistakes inside the arguments of a call or the items of an array are not covered."
  },
  {
   "property": "C102",
   "status": "partial",
   "theorems": [
    "C102_equal_hash_partial",
    "C102_equal_hash_refuted"
   ],
   "note": "Refuted as stated: 0.0 == -0.0, but their bits, which are hashed, differ; the same for arrays of them. Proved for plain data of any depth without -0.0, in both directions."
  },
  {
   "property": "C103",
   "status": "partial",
   "theorems": [
    "C103_any_hasher_partial",
    "C103_agrees_partial",
    "C103_grown_partial",
    "C103_changed_key_refuted",
    "C103_zero_refuted"
   ],
   "note": "Refuted as stated: an array, dict or error used as a key and changed afterwards is at the place of its old hash, so it is not found either by its old or by its new contents, and can be inserted a second time; and by -0.0 what is stored under 0.0 is not found. Proved for keys of plain data without -0.0 that were not changed since: for every hash function, order of probing and growth of the table; the dicts of the interpreter model, which know no hashes, then give the same."
  },
  {
   "property": "C104",
   "status": "partial",
   "theorems": [
    "C104_names_partial",
    "C104_small_partial",
    "C104_later_partial",
    "C104_enough_partial",
    "C104_shown_partial",
    "C104_path_refuted"
   ],
   "note": "Refuted as stated: a script called <invalid symbol> gets the dummy symbol and is shown as ill-formed. Proved for all names as far as symbols and names correspond, and for every identifier of a source as far as the dummy symbol and what is shown are concerned."
  },
  {
   "property": "C105",
   "status": "proved",
   "theorems": [
    "C105_place",
    "C105_inside",
    "C105_variable",
    "C105_message"
   ],
   "note": ""
  },
  {
   "property": "C106",
   "status": "partial",
   "theorems": [
    "C106_waited_partial",
    "C106_left_partial",
    "C106_alone_partial",
    "C106_failed_start_refuted",
    "C106_panic_refuted"
   ],
   "note": "Refuted as stated: when a command of a pipeline cannot be started, those after it, which have been started, are not waited for. Proved for blocks that are carried out, and for all endings of blocks without pipelines; C106_left_partial says what can be left over."
  },
  {
   "property": "C107",
   "status": "proved",
   "theorems": [
    "C107_requests",
    "C107_later",
    "C107_kept",
    "C107_block"
   ],
   "note": ""
  },
  {
   "property": "C108",
   "status": "proved",
   "theorems": [
    "C108_joined_later",
    "C108_joined_at_once"
   ],
   "note": "The threads are modelled as running without a break, when they are started or when they are joined; steps of a thread between steps of the interpreter are not modelled."
  },
  {
   "property": "C109",
   "status": "proved",
   "theorems": [
    "C109_statement",
    "C109_expression",
    "C109_call",
    "C109_program",
    "C109_collector"
   ],
   "note": "The collector is modelled as emptying objects, between statements; what Rust variables hold during a statement are roots in the program and are covered by the theorems on expressions and calls only as far as the values named there."
  },
  {
   "property": "C11",
   "status": "proved",
   "theorems": [
    "C11_parser_terminates",
    "C11_analysis_terminates"
   ],
   "note": "Fuel linear in the number of tokens is proved sufficient."
  },
  {
   "property": "C110",
   "status": "proved",
   "theorems": [
    "C110_changes",
    "C110_depends",
    "C110_statement_changes",
    "C110_statement_depends"
   ],
   "note": "Evaluations in which a module was left by a panic are set aside: there the stack is not restored (finding of C21). The stacks have the same height in the theorems on what a call depends on, unless there is no limit."
  },
  {
   "property": "C111",
   "status": "proved",
   "theorems": [
    "C111_statement",
    "C111_expression",
    "C111_call",
    "C111_program",
    "C111_for"
   ],
   "note": "Processes that commands start and wait for are taken to end: they are oracles."
  },
  {
   "property": "C12",
   "status": "proved",
   "theorems": [
    "C12_lexical_scope",
    "C12_illegal_rejected",
    "C12_legal_accepted",
    "C12_trees"
   ],
   "note": "From text to slots; also that distinct variables of a function never share a slot, and that legal programs are accepted (up to C13)."
  },
  {
   "property": "C13",
   "status": "partial",
   "theorems": [
    "C13_distinct_rejected_refuted",
    "C13_repeated_accepted_refuted",
    "C13_keys_partial"
   ],
   "note": "Refuted as stated, in both directions: the key set is shared between nested literals and cleared by each.  Proved for programs in which only the last value of a dict literal has dict literals in it."
  },
  {
   "property": "C14",
   "status": "proved",
   "theorems": [
    "C14_accepted_control_flow",
    "C14_no_invalid_flow"
   ],
   "note": "The libraries around the interpreter are assumed to build data only, not functions (record honest)."
  },
  {
   "property": "C15",
   "status": "proved",
   "theorems": [
    "C15_slots_exist",
    "C15_analyser_no_panic",
    "C15_no_missing_slot"
   ],
   "note": "The libraries around the interpreter are assumed to build data only, not functions (record honest)."
  },
  {
   "property": "C16",
   "status": "proved",
   "theorems": [
    "C16_builtins_stand_alone"
   ],
   "note": ""
  },
  {
   "property": "C17",
   "status": "partial",
   "theorems": [
    "C17_integer_arithmetic_partial",
    "C17_remainder_refuted"
   ],
   "note": "Refuted as stated for one pair: the remainder of the smallest integer and -1 is 0 but panics. Proved for every other pair and operator."
  },
  {
   "property": "C18",
   "status": "partial",
   "theorems": [
    "C18_negation_partial",
    "C18_negation_refuted"
   ],
   "note": "Refuted as stated: the opposite of the smallest integer wraps around. Proved for every other integer."
  },
  {
   "property": "C19",
   "status": "proved",
   "theorems": [
    "C19_trichotomy",
    "C19_transitive",
    "C19_irreflexive_refuted"
   ],
   "note": "Holds for all comparable values, floats that are not numbers included. Recorded beside it: such a float is lower than itself."
  },
  {
   "property": "C20",
   "status": "proved",
   "theorems": [
    "C20_sort"
   ],
   "note": "For arrays of plain data of any depth (no functions, no NaN), in any heap."
  },
  {
   "property": "C21",
   "status": "partial",
   "theorems": [
    "C21_call_partial",
    "C21_catch_partial",
    "C21_reached",
    "C21_stack_refuted",
    "C21_arguments_refuted"
   ],
   "note": "Refuted as stated: a caught failed import leaves slots on the stack, and a panicking Hush function leaves arguments. Proved for all calls during which no module panics, also that slots are the same and not only their number; the arguments are always removed by std.catch."
  },
  {
   "property": "C22",
   "status": "partial",
   "theorems": [
    "C22_refuted",
    "C22_not_run_partial",
    "C21_call_partial"
   ],
   "note": "Refuted as stated: when the module itself panics its variables stay on the stack and the variables of the caller are looked up among them. Proved for imports that fail before the module runs."
  },
  {
   "property": "C23",
   "status": "proved",
   "theorems": [
    "C23_same_result",
    "C23_same_call",
    "C23_chain_outcome",
    "C23_chain_stack",
    "C23_chain_needs",
    "C23_overflow"
   ],
   "note": "Tail position is what the code treats as one: the last statement of a function body, when it is a call or returns a call (a call at the end of an if branch is not). Equality of results is for an interpreter without stack limit, whose runs do not leak through a failed import; the constant stack holds for any limit."
  },
  {
   "property": "C24",
   "status": "proved",
   "theorems": [
    "C24_logic"
   ],
   "note": ""
  },
  {
   "property": "C25",
   "status": "proved",
   "theorems": [
    "C25_for",
    "C25_reached"
   ],
   "note": "Stated for every state of a run; ends at the first change of the length of the array."
  },
  {
   "property": "C26",
   "status": "partial",
   "theorems": [
    "C26_catch_partial",
    "C26_message_refuted"
   ],
   "note": "Refuted as stated: the error holds the message of the panic, and the message of a panic with an array that contains itself has no end, so std.catch never returns (C26_message_refuted). Proved for every panic whose message is finite, and that std.catch itself never panics."
  },
  {
   "property": "C27",
   "status": "partial",
   "theorems": [
    "C27_equality_ends_partial",
    "C27_equality_ends_refuted"
   ],
   "note": "Refuted as stated: an array that contains itself. Proved when one of the two values is not part of itself, in any heap."
  },
  {
   "property": "C28",
   "status": "partial",
   "theorems": [
    "C28_equal_functions_refuted",
    "C28_library_functions_partial",
    "C28_plain_functions_partial"
   ],
   "note": "Refuted as stated: all bound functions are equal. Proved for the functions of the library, and for the functions of an accepted program that capture nothing."
  },
  {
   "property": "C29",
   "status": "proved",
   "theorems": [
    "C29_finite_map"
   ],
   "note": "Keys are plain data of any depth of which the dict is not a part."
  },
  {
   "property": "C30",
   "status": "proved",
   "theorems": [
    "C30_no_reinterpretation"
   ],
   "note": "for every argument made of literals, scalar variables, home and wildcards; the glob syntax is specified separately and shown to have one reading"
  },
  {
   "property": "C31",
   "status": "partial",
   "theorems": [
    "C31_array_product_partial",
    "C31_empty_array_refuted"
   ],
   "note": "Refuted as stated: an empty array next to other pieces is skipped instead of giving no argument; proved whenever no array is empty"
  },
  {
   "property": "C32",
   "status": "partial",
   "theorems": [
    "C32_every_argument_partial",
    "C32_empty_argument_refuted"
   ],
   "note": "Refuted as stated: an empty quoted argument is not passed; proved for all non-empty words"
  },
  {
   "property": "C33",
   "status": "partial",
   "theorems": [
    "C33_block_partial",
    "C33_forgotten_refuted"
   ],
   "note": "Refuted as stated: when the operating system refuses a request (for example a program that cannot be started) the failures collected before are forgotten; proved for all runs without such a refusal"
  },
  {
   "property": "C34",
   "status": "partial",
   "theorems": [
    "C34_try_partial",
    "C34_start_refuted"
   ],
   "note": "Refuted as stated: a command marked with ? that cannot be started stops its block; proved for failing with a status or signal"
  },
  {
   "property": "C35",
   "status": "proved",
   "theorems": [
    "C35_redirections"
   ],
   "note": ""
  },
  {
   "property": "C36",
   "status": "proved",
   "theorems": [
    "C36_pipeline"
   ],
   "note": "the error stream of all commands but the last is that of the shell"
  },
  {
   "property": "C37",
   "status": "proved",
   "theorems": [
    "C37_created",
    "C37_join_once_partial",
    "C37_join_again",
    "C37_once"
   ],
   "note": "C37_once covers every history in between; the function joining the threads is assumed to add data to the heap only (record honest)."
  },
  {
   "property": "C38",
   "status": "proved",
   "theorems": [
    "C38_hex_round_trip",
    "C38_hex_decode"
   ],
   "note": ""
  },
  {
   "property": "C39",
   "status": "proved",
   "theorems": [
    "C39_base64_round_trip",
    "C39_base64_injective",
    "C39_base64_bits",
    "C39_base64_decode"
   ],
   "note": ""
  },
  {
   "property": "C40",
   "status": "proved",
   "theorems": [
    "C40_split",
    "C40_split_empty"
   ],
   "note": ""
  },
  {
   "property": "C41",
   "status": "proved",
   "theorems": [
    "C41_replace"
   ],
   "note": "The empty pattern is covered explicitly."
  },
  {
   "property": "C42",
   "status": "proved",
   "theorems": [
    "C42_substr"
   ],
   "note": "In a release build; the addition of start and length overflows for huge values, which stops a debug build."
  },
  {
   "property": "C43",
   "status": "partial",
   "theorems": [
    "C43_range_partial",
    "C43_floats",
    "C43_zero_step_refuted",
    "C43_overflow_refuted"
   ],
   "note": "Refuted as stated: a zero step with from above to never finishes, and the addition wraps. Proved for every other case."
  },
  {
   "property": "C44",
   "status": "proved",
   "theorems": [
    "C44_iterate_string",
    "C44_iterate_dict"
   ],
   "note": "The iteration order of a HashMap is an arbitrary permutation."
  },
  {
   "property": "C45",
   "status": "proved",
   "theorems": [
    "C45_integer_text"
   ],
   "note": ""
  },
  {
   "property": "C46",
   "status": "proved",
   "theorems": [
    "C46_has_error"
   ],
   "note": "The function takes one argument in the code."
  },
  {
   "property": "C47",
   "status": "proved",
   "theorems": [
    "C47_typecheck_same",
    "C47_typecheck_other",
    "C47_typecheck_unknown"
   ],
   "note": ""
  },
  {
   "property": "C48",
   "status": "proved",
   "theorems": [
    "C48_push_pop",
    "C48_pop_empty"
   ],
   "note": ""
  },
  {
   "property": "C49",
   "status": "proved",
   "theorems": [
    "C49_static_error",
    "C49_check",
    "C49_status",
    "C49_nothing_to_run"
   ],
   "note": "clap, which recognises the options, is a parameter."
  },
  {
   "property": "C50",
   "status": "proved",
   "theorems": [
    "C50_more_steps",
    "C50_from_any_state"
   ],
   "note": ""
  },
  {
   "property": "C51",
   "status": "proved",
   "theorems": [
    "C51_shared",
    "C51_reached",
    "C51_closure",
    "C51_assignment",
    "C51_call",
    "C51_new_variables"
   ],
   "note": "The libraries around the interpreter are assumed not to look inside closures."
  },
  {
   "property": "C52",
   "status": "partial",
   "theorems": [
    "C52_refuted",
    "C52_activation_partial",
    "C52_calls_partial"
   ],
   "note": "Refuted as stated: the iterations of a loop share their variables, as all closures of one activation capture the variables that its slots had from the beginning. Proved for iterations that call a function: the variables of the call are new."
  },
  {
   "property": "C53",
   "status": "proved",
   "theorems": [
    "C53_arguments",
    "C53_std_args"
   ],
   "note": "clap is a parameter."
  },
  {
   "property": "C54",
   "status": "proved",
   "theorems": [
    "C54_if",
    "C54_while",
    "C54_for",
    "C54_return",
    "C54_break",
    "C54_expression"
   ],
   "note": "Stated as rules without step bounds, in both directions."
  },
  {
   "property": "C55",
   "status": "proved",
   "theorems": [
    "C55_literal",
    "C55_name",
    "C55_array",
    "C55_dict",
    "C55_unary",
    "C55_binary",
    "C55_access"
   ],
   "note": "Dict literals with a repeated name are excluded; the analyser rejects them. Arithmetic, comparison and dict lookup by arbitrary keys are the functions of C17, C19 and C29. and/or: C24."
  },
  {
   "property": "C56",
   "status": "proved",
   "theorems": [
    "C56_variable",
    "C56_assign_variable",
    "C56_assign_field"
   ],
   "note": "Dict entries are those of C29."
  },
  {
   "property": "C57",
   "status": "proved",
   "theorems": [
    "C57_call",
    "C57_function",
    "C57_function_value",
    "C57_tidy"
   ],
   "note": ""
  },
  {
   "property": "C58",
   "status": "proved",
   "theorems": [
    "C58_program",
    "C58_import"
   ],
   "note": "The resolution of paths is a parameter."
  },
  {
   "property": "C59",
   "status": "proved",
   "theorems": [
    "C59_catch",
    "C59_bind"
   ],
   "note": ""
  },
  {
   "property": "C60",
   "status": "proved",
   "theorems": [
    "C60_to_string",
    "C60_one_text"
   ],
   "note": "Escaping of strings, texts of floats and colours are functions of the library crates (parameters)."
  },
  {
   "property": "C61",
   "status": "proved",
   "theorems": [
    "C61_printing"
   ],
   "note": "The parts are written at once; a partial write before an output error is not modelled."
  },
  {
   "property": "C62",
   "status": "proved",
   "theorems": [
    "C62_encode",
    "C62_decode"
   ],
   "note": "The text of a JSON tree and its parser belong to serde_json (parameters)."
  },
  {
   "property": "C63",
   "status": "proved",
   "theorems": [
    "C63_round_trip",
    "C63_encodable"
   ],
   "note": "The hypothesis that the JSON library reads what it wrote is about that one tree."
  },
  {
   "property": "C64",
   "status": "proved",
   "theorems": [
    "C64_repair"
   ],
   "note": ""
  },
  {
   "property": "C65",
   "status": "proved",
   "theorems": [
    "C65_number",
    "C65_refused",
    "C65_accepted"
   ],
   "note": ""
  },
  {
   "property": "C66",
   "status": "partial",
   "theorems": [
    "C66_first_wrong_partial",
    "C66_first_wrong_refuted"
   ],
   "note": "Refuted as stated: std.substr with two wrong arguments reports a wrong number of arguments (supplied 3, expected 3), std.randint(1, nil) blames the 1. Proved for all other functions."
  },
  {
   "property": "C67",
   "status": "proved",
   "theorems": [
    "C67_leaves"
   ],
   "note": ""
  },
  {
   "property": "C68",
   "status": "proved",
   "theorems": [
    "C68_length",
    "C68_array",
    "C68_dict",
    "C68_string"
   ],
   "note": "Equality of items is the operator == (C27); indexing of dicts is C29."
  },
  {
   "property": "C69",
   "status": "partial",
   "theorems": [
    "C69_export_partial",
    "C69_env_partial",
    "C69_empty_name_refuted"
   ],
   "note": "Refuted as stated: an empty name stops the process. Proved for all other names. That a variable that is set reads as set is a hypothesis about the operating system."
  },
  {
   "property": "C70",
   "status": "proved",
   "theorems": [
    "C70_int",
    "C70_float"
   ],
   "note": "Floats are those of the standard library of Coq (SpecFloat)."
  },
  {
   "property": "C71",
   "status": "proved",
   "theorems": [
    "C71_made"
   ],
   "note": "That the variables exist is C15; the double dollar and the splitting into parts are those of the lexer."
  },
  {
   "property": "C72",
   "status": "partial",
   "theorems": [
    "C72_number_partial",
    "C72_number_refuted"
   ],
   "note": "Refuted as stated: two items are reported as 1, as one is removed before counting. Proved for no items; for patterns that match several paths the number is right (C73_one_program)."
  },
  {
   "property": "C73",
   "status": "proved",
   "theorems": [
    "C73_requested",
    "C73_not_started",
    "C73_one_program",
    "C73_complaint"
   ],
   "note": "Matching of patterns is a function of the operating system."
  },
  {
   "property": "C74",
   "status": "proved",
   "theorems": [
    "C74_capture"
   ],
   "note": "What ends up in the pipes is the operating system's; C36 says which commands write there."
  },
  {
   "property": "C75",
   "status": "partial",
   "theorems": [
    "C75_cd",
    "C75_exec",
    "C75_spawn0",
    "C75_alias_refuted"
   ],
   "note": "Refuted as stated: alias reaches todo!() and stops the process. The other built-in commands are proved."
  },
  {
   "property": "C76",
   "status": "partial",
   "theorems": [
    "C76_status_partial",
    "C76_signal_refuted"
   ],
   "note": "Refuted as stated: the offset is 255 instead of 128. Proved for commands that exit."
  },
  {
   "property": "C77",
   "status": "proved",
   "theorems": [
    "C77_exit"
   ],
   "note": "That std.catch does not stop it is C59."
  },
  {
   "property": "C78",
   "status": "partial",
   "theorems": [
    "C78_order",
    "C78_none",
    "C78_syntax_shown",
    "C78_semantic_shown",
    "C78_syntax_partial",
    "C78_semantic_partial",
    "C78_number_refuted"
   ],
   "note": "Refuted as stated: the last line always says 20. Order, contents and the limit of twenty lines are proved; reports of at most twenty errors are as stated."
  },
  {
   "property": "C79",
   "status": "partial",
   "theorems": [
    "C79_place_partial",
    "C79_end_refuted",
    "C79_line_partial",
    "C79_line_refuted"
   ],
   "note": "Refuted as stated: the error for an early end of the text has no place, and invalid escape sequences, numbers and identifiers are shown without escaping. Proved: the place of every other syntax error, and one line for every semantic error (if the escaping function yields no end of line)."
  },
  {
   "property": "C80",
   "status": "partial",
   "theorems": [
    "C80_words_partial",
    "C80_numbers_partial",
    "C80_arguments_refuted"
   ],
   "note": "Refuted as stated: $x in arguments is shown as ${{x}}. Proved for words, symbols, names and integers (without colours). Strings and bytes are shown escaped; the text of floats is a parameter."
  },
  {
   "property": "C81",
   "status": "proved",
   "theorems": [
    "C81_lines",
    "C81_shown"
   ],
   "note": "If the lexer crashes (C04) nothing more is listed."
  },
  {
   "property": "C82",
   "status": "proved",
   "theorems": [
    "C82_regex",
    "C82_methods",
    "C82_refused"
   ],
   "note": "The regex engine is a parameter."
  },
  {
   "property": "C83",
   "status": "proved",
   "theorems": [
    "C83_error",
    "C83_small"
   ],
   "note": "The operating system and the random generator are parameters."
  },
  {
   "property": "C84",
   "status": "proved",
   "theorems": [
    "C84_trim"
   ],
   "note": "Both directions."
  },
  {
   "property": "C85",
   "status": "proved",
   "theorems": [
    "C85_left",
    "C85_left_logical",
    "C85_right",
    "C85_unary",
    "C85_accepted"
   ],
   "note": ""
  },
  {
   "property": "C86",
   "status": "proved",
   "theorems": [
    "C86_order",
    "C86_concat",
    "C86_floats",
    "C86_remainder",
    "C86_minus",
    "C86_not"
   ],
   "note": "IEEE 754 is the specification of the Coq standard library (SpecFloat). Equality is C27."
  },
  {
   "property": "C87",
   "status": "partial",
   "theorems": [
    "C87_reason_partial",
    "C87_quotient_refuted"
   ],
   "note": "Refuted as stated: the quotient of the smallest integer and -1 overflows but is reported as a division by zero. Every other case is proved."
  },
  {
   "property": "C88",
   "status": "partial",
   "theorems": [
    "C88_same_tree_partial",
    "C88_separator_refuted",
    "C88_empty_refuted",
    "C88_call_refuted",
    "C88_field_refuted",
    "C88_float_refuted",
    "C88_expansion_refuted",
    "C88_dollar_refuted"
   ],
   "note": "Refuted as stated: statements separated by semicolons, empty branches on one line, operations after an expression, fields of numbers, whole floats, expansions and dollars in command arguments are not read back. Every other tree is (readable_block in SpecAst)."
  },
  {
   "property": "C89",
   "status": "proved",
   "theorems": [
    "C89_any_order",
    "C89_every_function",
    "C89_initial",
    "C89_found",
    "C89_missing"
   ],
   "note": ""
  },
  {
   "property": "C90",
   "status": "proved",
   "theorems": [
    "C90_read"
   ],
   "note": ""
  },
  {
   "property": "C91",
   "status": "partial",
   "theorems": [
    "C91_described_refuted",
    "C91_escape_refuted",
    "C91_described_partial"
   ],
   "note": "Refuted as stated: a number cut off after its dot or exponent blames the byte after it but points at its first digit, and an invalid escape in a command argument goes on after its letter, so that `\\ef` is reported as `\\e` and again as `\\ef`. Proved that every error of every source is described at its place but for these two."
  },
  {
   "property": "C92",
   "status": "partial",
   "theorems": [
    "C92_no_failure_refuted",
    "C92_only_these_partial",
    "C92_library",
    "C92_library_fails",
    "C92_key",
    "C92_block"
   ],
   "note": "Refuted as stated: an accepted program can make the interpreter fail in five ways: a dict stored under a key that contains it (or sorting an array that contains itself), std.randint with an empty interval, std.export without a name, the import of a file on which the lexer fails, and the built-in alias. Proved that there is no other way, and which library calls, keys and blocks these are."
  },
  {
   "property": "C93",
   "status": "partial",
   "theorems": [
    "C93_shown_apart_partial",
    "C93_expansion_refuted",
    "C93_slot_refuted",
    "C93_float_refuted"
   ],
   "note": "Refuted as stated: `*` and `\"*\"`, a variable and a quoted text in the notation of slots, and `1.0` and `1` are printed alike. Proved for all programs without such texts (`legible_program`), by a reader that gives back every legible program from its text. Without colours, and for an `escape_debug` that leaves words as they are."
  },
  {
   "property": "C94",
   "status": "partial",
   "theorems": [
    "C94_mark_partial",
    "C94_builtin",
    "C94_mark_refuted"
   ],
   "note": "Refuted as stated: built-in commands are printed with a question mark exactly if they are written without one, proved for all of them. Proved for all commands of pipelines."
  },
  {
   "property": "C95",
   "status": "proved",
   "theorems": [
    "C95_places",
    "C95_equal",
    "C95_same_expression"
   ],
   "note": "The places ascend in the order of the text, which also rules out a function that is listed twice. The code compares the addresses of the bodies where the model compares places; C95_places is what makes these the same."
  },
  {
   "property": "C96",
   "status": "partial",
   "theorems": [
    "C96_order_partial",
    "C96_total_partial",
    "C96_kinds_partial",
    "C96_library_partial",
    "C96_order_refuted"
   ],
   "note": "Refuted as stated: two closures of the same expression that hold different values are not equal, and neither comes first. Proved that the order of closures is that of their expressions in the text, and that the order of all functions is total and transitive."
  },
  {
   "property": "C97",
   "status": "partial",
   "theorems": [
    "C97_reported_partial",
    "C97_exact_partial",
    "C97_shown",
    "C97_hidden_refuted",
    "C97_accepted_refuted"
   ],
   "note": "Refuted as stated: a ? outside a function is not reported while its operand has a fault, nor is more of a misplaced builtin, of an invalid assignment's left side, or of a setting whose name has a fault; variables set for a builtin are never looked at, so an undeclared one there is accepted. Proved: the errors other than about keys are the faults shown, in order; exact equality for all programs without errors about keys, which for dicts nested in last values only is a condition on the source (C97_exact_partial). Repeated keys are C13."
  },
  {
   "property": "C98",
   "status": "proved",
   "theorems": [
    "C98_names"
   ],
   "note": "The renaming works on the syntax tree; C98_case has two texts whose trees are related so. std keeps its name as it is the one variable that is there from the start."
  },
  {
   "property": "C99",
   "status": "proved",
   "theorems": [
    "C99_unaided"
   ],
   "note": "The condition is on the syntax tree: no identifier std, no command block. Nothing is assumed of the outside, not even honesty. The equality of the outcomes includes the whole state of the interpreter apart from the world and the array of arguments."
  }
 ]
}