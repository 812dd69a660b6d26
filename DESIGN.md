# Verification design for hush

The subject is the Hush shell language (`/repo`, Rust). The Rocq/Coq development in
`rocq/theories` contains executable Gallina models of the code, written function by function
from the source text, and machine-checked theorems about those models. The Rust code was never
built or run: the only tie between model and code is the citation (file and lines) attached to
every definition.

## 1. Layout

| layer | files | content |
|---|---|---|
| model | `Base`, `Lexer`, `Ast`, `Parser`, `Program`, `Sema`, `Value`, `Text`, `Json`, `StdLib`, `Exec`, `Runtime`, `Report`, `Main`, `Library`, `AstFmt`, `ProgFmt`, `HashTable`, `Interner`, `Threads` | the Rust code; no proofs in these files |
| examples | `Demo` | a small outside world in which whole programs are run by `vm_compute` for the `Example`s |
| specifications | `Spec*.v` | small definitions, independent of the model's helper functions, in which the properties are stated |
| proofs | `*Proofs.v` | lemmas |
| statements | `Prop*.v` | the theorems, each closed by `exact`, with `Print Assumptions` below and a concrete `Example` beside it that meets the hypotheses |

Conventions. Bytes are `Coq.Init.Byte.byte`; strings of bytes are `list byte`. Integers are `Z` with
explicit 64-bit range checks where the code checks, and explicit wrapping where a release build
wraps. Floats are `SpecFloat.spec_float` (binary64 in plain Gallina). `&mut self` methods return
the new state. `Result` and `Option` stay data. A Rust panic (`todo!`, `unreachable!`, a failed
`expect`, a second mutable borrow) is an explicit *crash* value, different from a Hush panic.
Unbounded loops and recursion take fuel and return an explicit out-of-fuel value; every theorem
either quantifies over the fuel in a way that makes its lack visible, or proves that enough fuel
exists. No theorem bounds the size of programs, data, or runs.

The interpreter is a step-indexed evaluator `run`; the rules of C54 to C59 relate it to big-step
rules without fuel (`SpecLaws`), in both directions.

## 2. The properties

### C01 String literals denote exactly the bytes written — proved

* Modelled: `string.rs`, `root.rs` (Lexer).
* Proof: Relation between bytes and spellings in SpecLexer; induction over the spelling, 256-case analysis per byte.
* Theorems (`PropLexer.v`): `C01_string_literal`, `C01_every_string_has_a_spelling`, `C01_byte_literal`.
* Note: In any spelling, whatever follows; together with C07 for a literal at any place of a well-formed source.

### C02 Quoting protects command arguments — proved

* Modelled: argument automata, `build_arg`, analyser, `arg.rs`, request to the OS (Lexer, Parser, Sema, Exec).
* Proof: Word spellings in SpecExec; induction over the bytes, then composition of all stages.
* Theorems (`PropExec.v`): `C02_quoted_words`, `C02_every_word`.
* Note: from the source text through lexer, parser and analyser to the request given to the operating system; any number of words, written between single quotes, between double quotes with everything escaped, or bare with everything escaped.

### C03 The lexer reads every source to its end — proved

* Modelled: whole lexer automaton.
* Proof: Lexicographic measure (remaining bytes, rank of the state) decreases at every transition.
* Theorems (`PropLexer.v`): `C03_lexer_terminates`.
* Note: At most 16 + 16 * length rounds of the automaton.

### C04 No source text crashes the front end — partial

* Modelled: same; `todo!` in `expansion.rs` is an explicit crash.
* Proof: Refuted by a witness; invariant over automaton states for what does hold.
* Theorems (`PropLexer.v`): `C04_no_crash_refuted`, `C04_crash_only_inside_a_command_block`, `C04_no_brace_no_crash`.
* Note: Refuted as stated: [ or { in a command argument reaches todo!(). Proved instead: a crash needs [ or { after an opening brace.

### C05 Token positions point at the token — proved

* Modelled: cursor and automaton.
* Proof: Invariant: position is a function of the consumed prefix; tokens carry the position of their first byte.
* Theorems (`PropLexer.v`): `C05_positions`.
* Note: For every source, including erroneous ones and those where the lexer crashes later.

### C06 Integer literals are read exactly or rejected — proved

* Modelled: `number.rs`.
* Proof: Value by Horner's rule in the specification; induction over digits.
* Theorems (`PropLexer.v`): `C06_integer_literal`, `C06_integer_tokens`.

### C07 Tokens are recovered from their spelling whatever the layout — proved

* Modelled: whole lexer.
* Proof: Declarative tokenisation (spellings, gaps, longest match) in SpecLexer; induction over tokens.
* Theorems (`PropLexer.v`): `C07_layout`.
* Note: Covers command blocks as well as ordinary code.

### C08 Operator precedence and associativity are honoured — proved

* Modelled: whole parser.
* Proof: Declarative grammar (SpecParser) and printer (SpecPrinter); soundness and completeness of the parser for the grammar, both by induction over fuel/derivations.
* Theorems (`PropParser.v`): `C08_print_parse`, `C08_exactly_the_grammar`, `C08_unambiguous`, `C08_from_text`.
* Note: Stronger than asked: the parser accepts exactly a separately written grammar. Functions, conditionals and command blocks are printed by a parameter constrained to spell them according to the grammar.

### C09 No statement of an accepted source is dropped — partial

* Modelled: `Parser::parse`, `parse_block`.
* Proof: Refuted by a witness; the dropped statements are characterised exactly.
* Theorems (`PropParser.v`): `C09_no_statement_dropped_refuted`, `C09_text_refuted`, `C09_statements_kept_partial`.
* Note: Refuted as stated: statements up to a top-level return that is not last are dropped without an error. Proved instead: exactly those are dropped.

### C10 A malformed piece of source is always reported — proved

* Modelled: whole parser.
* Proof: Induction over fuel: an ill-formed node implies an error in the list.
* Theorems (`PropParser.v`): `C10_placeholders_are_reported`, `C10_tokens`.

### C11 The parser stops on every input — proved

* Modelled: whole parser.
* Proof: Measure: remaining tokens; linear fuel proved sufficient.
* Theorems (`PropParser.v`): `C11_parser_terminates`, `C11_analysis_terminates`.
* Note: Fuel linear in the number of tokens is proved sufficient.

### C12 Variables resolve by lexical scope — proved

* Modelled: `scope.rs`, analyser.
* Proof: Declarative lexical resolution (SpecSema); simulation between scope stack and environments.
* Theorems (`PropSema.v`): `C12_lexical_scope`, `C12_illegal_rejected`, `C12_legal_accepted`, `C12_trees`.
* Note: From text to slots; also that distinct variables of a function never share a slot, and that legal programs are accepted (up to C13).

### C13 Duplicate dict keys are rejected, distinct ones accepted — partial

* Modelled: `analyze_literal`.
* Proof: Two witnesses; for flat literals induction over the tree: every analysis adds exactly the repeated keys to the errors, and leaves the set of keys alone when the tree has no dict literal.
* Theorems (`PropSema.v`): `C13_distinct_rejected_refuted`, `C13_repeated_accepted_refuted`, `C13_keys_partial`.
* Note: Refuted as stated, in both directions: the key set is shared between nested literals and cleared by each.  Proved for programs in which only the last value of a dict literal has dict literals in it.

### C14 Control flow statements only where they make sense — proved

* Modelled: analyser and interpreter.
* Proof: Structural induction in the analyser; invariant `sound` over all runs of the interpreter.
* Theorems (`PropRun.v`, `PropSema.v`): `C14_accepted_control_flow`, `C14_no_invalid_flow`.
* Note: The libraries around the interpreter are assumed to build data only, not functions (record honest).

### C15 Accepted programs never touch a variable slot that does not exist — proved

* Modelled: scopes, frames, `mem.rs`.
* Proof: Invariant of the scope stack; invariant `sound` (all slots and captures in range) over all runs.
* Theorems (`PropRun.v`, `PropSema.v`): `C15_slots_exist`, `C15_analyser_no_panic`, `C15_no_missing_slot`.
* Note: The libraries around the interpreter are assumed to build data only, not functions (record honest).

### C16 Builtin commands are only accepted in synchronous, undecorated position — proved

* Modelled: `analyze_command`.
* Proof: Case analysis and induction over the block.
* Theorems (`PropSema.v`): `C16_builtins_stand_alone`.

### C17 Integer arithmetic is exact or panics — partial

* Modelled: `binop` arithmetic.
* Proof: Arithmetic over Z; one witness.
* Theorems (`PropValue.v`): `C17_integer_arithmetic_partial`, `C17_remainder_refuted`.
* Note: Refuted as stated for one pair: the remainder of the smallest integer and -1 is 0 but panics. Proved for every other pair and operator.

### C18 Negation never overflows silently — partial

* Modelled: unary minus.
* Proof: Arithmetic; one witness.
* Theorems (`PropValue.v`): `C18_negation_partial`, `C18_negation_refuted`.
* Note: Refuted as stated: the opposite of the smallest integer wraps around. Proved for every other integer.

### C19 Comparison is a total order consistent with equality — proved

* Modelled: derived ordering of values.
* Proof: Mathematical trees (SpecOrder) with an independent total order; `vcmp` refines it.
* Theorems (`PropValue.v`): `C19_trichotomy`, `C19_transitive`, `C19_irreflexive_refuted`.
* Note: Holds for all comparable values, floats that are not numbers included. Recorded beside it: such a float is lower than itself.

### C20 std.sort sorts — proved

* Modelled: `Array::sort` (an insertion sort stands for the stable sort of the Rust library).
* Proof: Permutation, order and stability; uniqueness of the result.
* Theorems (`PropValue.v`): `C20_sort`.
* Note: For arrays of plain data of any depth (no functions, no NaN), in any heap.

### C21 Calls leave the caller's variables and argument list in place — partial

* Modelled: `call`, `eval_call`, `catch`.
* Proof: Induction over fuel for all mutually recursive evaluators; two witnesses.
* Theorems (`PropRun.v`): `C21_call_partial`, `C21_catch_partial`, `C21_reached`, `C21_stack_refuted`, `C21_arguments_refuted`.
* Note: Refuted as stated: a caught failed import leaves slots on the stack, and a panicking Hush function leaves arguments. Proved for all calls during which no module panics, also that slots are the same and not only their number; the arguments are always removed by std.catch.

### C22 A failed import leaves the caller's variables in place — partial

* Modelled: `eval`, `import`.
* Proof: Witness; direct computation for failures before the module runs.
* Theorems (`PropRun.v`): `C22_refuted`, `C22_not_run_partial`, `C21_call_partial`.
* Note: Refuted as stated: when the module itself panics its variables stay on the stack and the variables of the caller are looked up among them. Proved for imports that fail before the module runs.

### C23 Tail calls do not grow the stack — proved

* Modelled: tail-call loop of `call`.
* Proof: A second interpreter without the loop; simulation by induction over fuel; stack depth by induction over the chain of calls.
* Theorems (`PropTail.v`): `C23_same_result`, `C23_same_call`, `C23_chain_outcome`, `C23_chain_stack`, `C23_chain_needs`, `C23_overflow`.
* Note: Tail position is what the code treats as one: the last statement of a function body, when it is a call or returns a call (a call at the end of an if branch is not). Equality of results is for an interpreter without stack limit, whose runs do not leak through a failed import; the constant stack holds for any limit.

### C24 and / or evaluate only what they must — proved

* Modelled: `eval_expr`.
* Proof: Case analysis.
* Theorems (`PropValue.v`): `C24_logic`.

### C25 for visits every element once, in order — proved

* Modelled: `For`, `iter.rs`.
* Proof: Induction over the array, the loop body being any invariant-preserving program.
* Theorems (`PropLoop.v`): `C25_for`, `C25_reached`.
* Note: Stated for every state of a run; ends at the first change of the length of the array.

### C26 std.catch turns every panic into an error value — partial

* Modelled: `catch.rs`, `panic.rs`, `value/fmt.rs`.
* Proof: Case analysis on the outcome; text of messages by C60; witness for a cyclic value.
* Theorems (`PropValue.v`): `C26_catch_partial`, `C26_message_refuted`.
* Note: Refuted as stated: the error holds the message of the panic, and the message of a panic with an array that contains itself has no end, so std.catch never returns (C26_message_refuted). Proved for every panic whose message is finite, and that std.catch itself never panics.

### C27 Comparing two values always terminates — partial

* Modelled: derived equality.
* Proof: `grounded` values by induction; witness: for every fuel the comparison is still running.
* Theorems (`PropValue.v`): `C27_equality_ends_partial`, `C27_equality_ends_refuted`.
* Note: Refuted as stated: an array that contains itself. Proved when one of the two values is not part of itself, in any heap.

### C28 Equal functions behave alike — partial

* Modelled: function equality.
* Proof: Witness; functions of a program by C95.
* Theorems (`PropPlace.v`, `PropValue.v`): `C28_equal_functions_refuted`, `C28_library_functions_partial`, `C28_plain_functions_partial`.
* Note: Refuted as stated: all bound functions are equal. Proved for the functions of the library, and for the functions of an accepted program that capture nothing.

### C29 A dict behaves like a finite map — proved

* Modelled: `dict.rs`, assignment.
* Proof: Refinement of hash map operations to a finite map over trees, induction over histories of insertions.
* Theorems (`PropValue.v`): `C29_finite_map`.
* Note: Keys are plain data of any depth of which the dict is not a part.

### C30 Variable contents are never re-interpreted — proved

* Modelled: `arg.rs`, `build_argument`.
* Proof: Pattern language with its own matching relation in SpecExec; induction over the parts.
* Theorems (`PropExec.v`): `C30_no_reinterpretation`.
* Note: for every argument made of literals, scalar variables, home and wildcards; the glob syntax is specified separately and shown to have one reading.

### C31 Arrays in arguments expand to one argument per element — partial

* Modelled: same.
* Proof: Induction over parts; witness.
* Theorems (`PropExec.v`): `C31_array_product_partial`, `C31_empty_array_refuted`.
* Note: Refuted as stated: an empty array next to other pieces is skipped instead of giving no argument; proved whenever no array is empty.

### C32 Every argument written is passed — partial

* Modelled: `build_arg` and all stages.
* Proof: as C02; witness.
* Theorems (`PropExec.v`): `C32_every_argument_partial`, `C32_empty_argument_refuted`.
* Note: Refuted as stated: an empty quoted argument is not passed; proved for all non-empty words.

### C33 A command block stops at the first aborting failure and reports the failures in order — partial

* Modelled: `exec/mod.rs` over an oracle for the operating system.
* Proof: Inductive rules for blocks (SpecExec); equivalence by induction over the block; witness.
* Theorems (`PropExec.v`): `C33_block_partial`, `C33_forgotten_refuted`.
* Note: Refuted as stated: when the operating system refuses a request (for example a program that cannot be started) the failures collected before are forgotten; proved for all runs without such a refusal.

### C34 ? makes a command failure non-fatal — partial

* Modelled: same.
* Proof: as C33; witness.
* Theorems (`PropExec.v`): `C34_try_partial`, `C34_start_refuted`.
* Note: Refuted as stated: a command marked with ? that cannot be started stops its block; proved for failing with a status or signal.

### C35 Redirections apply left to right — proved

* Modelled: `Stdio` updates.
* Proof: Refinement to a left fold over a map of descriptors.
* Theorems (`PropExec.v`): `C35_redirections`.

### C36 Pipelines connect neighbours only — proved

* Modelled: pipeline wiring.
* Proof: Induction over the pipeline.
* Theorems (`PropExec.v`): `C36_pipeline`.
* Note: the error stream of all commands but the last is that of the shell.

### C37 An asynchronous block can be joined once — proved

* Modelled: `join.rs`.
* Proof: Invariant over all runs: a joined handle stays joined.
* Theorems (`PropExec.v`, `PropRun.v`): `C37_created`, `C37_join_once_partial`, `C37_join_again`, `C37_once`.
* Note: C37_once covers every history in between; the function joining the threads is assumed to add data to the heap only (record honest).

### C38 std.hex round-trips — proved

* Modelled: `hex.rs` and the hex crate restated.
* Proof: 256-case analysis, induction.
* Theorems (`PropCode.v`, `PropLib.v`): `C38_hex_round_trip`, `C38_hex_decode`.

### C39 std.base64 round-trips — proved

* Modelled: `base64.rs` and the base64 crate restated.
* Proof: Per group of three bytes, induction.
* Theorems (`PropCode.v`, `PropLib.v`): `C39_base64_round_trip`, `C39_base64_injective`, `C39_base64_bits`, `C39_base64_decode`.

### C40 std.split cuts a string without losing anything — proved

* Modelled: `split.rs` and bstr's search restated.
* Proof: Induction over the search.
* Theorems (`PropCode.v`, `PropLib.v`): `C40_split`, `C40_split_empty`.

### C41 std.replace replaces every occurrence found left to right — proved

* Modelled: `replace.rs` and bstr's search restated.
* Proof: same.
* Theorems (`PropLib.v`): `C41_replace`.
* Note: The empty pattern is covered explicitly.

### C42 std.substr returns the requested bytes or nil — proved

* Modelled: `substr.rs` with wrapping addition.
* Proof: Arithmetic.
* Theorems (`PropLib.v`): `C42_substr`.
* Note: In a release build; the addition of start and length overflows for huge values, which stops a debug build.

### C43 std.range enumerates an arithmetic progression and stops — partial

* Modelled: `range.rs` with wrapping addition.
* Proof: Coinductive reading `yields` by induction over the number of calls; two witnesses.
* Theorems (`PropLib.v`): `C43_range_partial`, `C43_floats`, `C43_zero_step_refuted`, `C43_overflow_refuted`.
* Note: Refuted as stated: a zero step with from above to never finishes, and the addition wraps. Proved for every other case.

### C44 Iterating a string or a dict visits everything once — proved

* Modelled: `iter.rs`.
* Proof: as C43.
* Theorems (`PropLib.v`): `C44_iterate_string`, `C44_iterate_dict`.
* Note: The iteration order of a HashMap is an arbitrary permutation.

### C45 Integers survive conversion to text and back — proved

* Modelled: `int.rs`, `to_string.rs`.
* Proof: Induction over digits.
* Theorems (`PropLib.v`): `C45_integer_text`.

### C46 std.has_error finds an error at any depth — proved

* Modelled: `has_error.rs`.
* Proof: Inductive `holds_error`; induction over the walk.
* Theorems (`PropLib.v`): `C46_has_error`.
* Note: The function takes one argument in the code.

### C47 std.type and std.typecheck agree — proved

* Modelled: `type_.rs`, `typecheck.rs`.
* Proof: Case analysis.
* Theorems (`PropLib.v`): `C47_typecheck_same`, `C47_typecheck_other`, `C47_typecheck_unknown`.

### C48 push and pop are inverse — proved

* Modelled: `push.rs`, `pop.rs`.
* Proof: List lemmas.
* Theorems (`PropLib.v`): `C48_push_pop`, `C48_pop_empty`.

### C49 A program with a static error is never run — proved

* Modelled: `main.rs`.
* Proof: Case analysis.
* Theorems (`PropMain.v`): `C49_static_error`, `C49_check`, `C49_status`, `C49_nothing_to_run`.
* Note: clap, which recognises the options, is a parameter.

### C50 Evaluation is deterministic and monotone in resources — proved

* Modelled: whole interpreter.
* Proof: Induction over fuel with an information order on outcomes.
* Theorems (`PropEval.v`): `C50_more_steps`, `C50_from_any_state`.

### C51 Captured variables are shared, not copied — proved

* Modelled: slots and captures.
* Proof: Simulation between the lazily boxed stack and a machine with one cell per variable and activation.
* Theorems (`PropShare.v`): `C51_shared`, `C51_reached`, `C51_closure`, `C51_assignment`, `C51_call`, `C51_new_variables`.
* Note: The libraries around the interpreter are assumed not to look inside closures.

### C52 Each loop iteration has its own variables — partial

* Modelled: same.
* Proof: Witness; the variable of a slot never changes during an activation (from the invariant of C21), so captures of it agree; the variables of a new activation are mentioned by nothing before it (C51).
* Theorems (`PropEval.v`, `PropShare.v`): `C52_refuted`, `C52_activation_partial`, `C52_calls_partial`.
* Note: Refuted as stated: the iterations of a loop share their variables, as all closures of one activation capture the variables that its slots had from the beginning. Proved for iterations that call a function: the variables of the call are new.

### C53 Script arguments reach the script unchanged — proved

* Modelled: `args.rs`, `main.rs`.
* Proof: Case analysis.
* Theorems (`PropMain.v`): `C53_arguments`, `C53_std_args`.
* Note: clap is a parameter.

### C54 Conditionals, loops, break and return follow the program text — proved

* Modelled: `eval_block`, `eval_statement`, `flow.rs`.
* Proof: Big-step rules (SpecLaws) without fuel; equivalence through monotonicity (C50).
* Theorems (`PropLaws.v`): `C54_if`, `C54_while`, `C54_for`, `C54_return`, `C54_break`, `C54_expression`.
* Note: Stated as rules without step bounds, in both directions.

### C55 Operands are evaluated once, left to right, before the operation — proved

* Modelled: `eval_literal`, `eval_expr`.
* Proof: same.
* Theorems (`PropLaws.v`): `C55_literal`, `C55_name`, `C55_array`, `C55_dict`, `C55_unary`, `C55_binary`, `C55_access`.
* Note: Dict literals with a repeated name are excluded; the analyser rejects them. Arithmetic, comparison and dict lookup by arbitrary keys are the functions of C17, C19 and C29. and/or: C24.

### C56 An assignment changes exactly its target — proved

* Modelled: assignment, `mem.rs`.
* Proof: same.
* Theorems (`PropLaws.v`): `C56_variable`, `C56_assign_variable`, `C56_assign_field`.
* Note: Dict entries are those of C29.

### C57 Calls pass arguments and self to the function called — proved

* Modelled: calls.
* Proof: same.
* Theorems (`PropLaws.v`): `C57_call`, `C57_function`, `C57_function_value`, `C57_tidy`.

### C58 A module runs once and every import gives its value — proved

* Modelled: `import.rs`.
* Proof: same.
* Theorems (`PropLaws.v`): `C58_program`, `C58_import`.
* Note: The resolution of paths is a parameter.

### C59 catch runs the function once; bind only fixes self — proved

* Modelled: `catch.rs`, `bind.rs`.
* Proof: same.
* Theorems (`PropLaws.v`): `C59_catch`, `C59_bind`.

### C60 The text of a value is determined by its contents — proved

* Modelled: `value/fmt.rs`, `to_string.rs`.
* Proof: Inductive `shown` (SpecShow); equivalence with the walk through monotonicity; termination on well-founded values.
* Theorems (`PropShow.v`): `C60_to_string`, `C60_one_text`.
* Note: Escaping of strings, texts of floats and colours are functions of the library crates (parameters).

### C61 print and println write the texts of their arguments — proved

* Modelled: `print.rs`, `println.rs`.
* Proof: as C60.
* Theorems (`PropShow.v`): `C61_printing`.
* Note: The parts are written at once; a partial write before an output error is not modelled.

### C62 JSON holds what the value holds, and the other way round — proved

* Modelled: `json.rs`.
* Proof: Inductive `encodes`/`decodes` (SpecJson); induction over fuel and over the tree.
* Theorems (`PropJson.v`): `C62_encode`, `C62_decode`.
* Note: The text of a JSON tree and its parser belong to serde_json (parameters).

### C63 Encoding and decoding JSON gives an equal copy — proved

* Modelled: same.
* Proof: `decodes` after `encodes` gives a copy; copies are equal.
* Theorems (`PropJson.v`): `C63_round_trip`, `C63_encodable`.
* Note: The hypothesis that the JSON library reads what it wrote is about that one tree.

### C64 Replacing invalid UTF-8 gives text and keeps text — proved

* Modelled: `from_utf8_lossy` restated.
* Proof: Declarative `repaired`; maximality of the beginnings by case analysis on the first four bytes.
* Theorems (`PropJson.v`): `C64_repair`.

### C65 Wrong arguments are refused before anything happens — proved

* Modelled: all files of `runtime/lib` except catch and import.
* Proof: Table of kinds `takes` (SpecSig), case analysis over functions and argument lists.
* Theorems (`PropSig.v`): `C65_number`, `C65_refused`, `C65_accepted`.

### C66 The panic for a wrong argument names the first wrong argument — partial

* Modelled: same.
* Proof: same; witnesses.
* Theorems (`PropSig.v`): `C66_first_wrong_partial`, `C66_first_wrong_refuted`.
* Note: Refuted as stated: std.substr with two wrong arguments reports a wrong number of arguments (supplied 3, expected 3), std.randint(1, nil) blames the 1. Proved for all other functions.

### C67 Library functions change nothing but what they are for — proved

* Modelled: same.
* Proof: Frame condition `left_as`, case analysis.
* Theorems (`PropSig.v`): `C67_leaves`.

### C68 len, is_empty and contains agree with the contents — proved

* Modelled: `length.rs`, `is_empty.rs`, `contains.rs`.
* Proof: Induction over the items; fuel by C50.
* Theorems (`PropSig.v`): `C68_length`, `C68_array`, `C68_dict`, `C68_string`.
* Note: Equality of items is the operator == (C27); indexing of dicts is C29.

### C69 Exported variables are what env reads — partial

* Modelled: `env.rs`.
* Proof: Case analysis; witness.
* Theorems (`PropSig.v`): `C69_export_partial`, `C69_env_partial`, `C69_empty_name_refuted`.
* Note: Refuted as stated: an empty name stops the process. Proved for all other names. That a variable that is set reads as set is a hypothesis about the operating system.

### C70 Conversions between integers and floats are exact where they can be — proved

* Modelled: `int.rs`, `float.rs`, Rust's `as` casts.
* Proof: `truncated` and `same_number` (SpecSig) state the values in integers; rounding of SpecFloat shown exact below 2^53.
* Theorems (`PropSig.v`): `C70_int`, `C70_float`.
* Note: Floats are those of the standard library of Coq (SpecFloat).

### C71 A command block is made as it is written, or panics before anything is run — proved

* Modelled: `command/mod.rs` building of blocks, `arg.rs`.
* Proof: Relation `block_as` and the list of faults `bad_block` (SpecCmd); both directions by induction over parts and lists.
* Theorems (`PropCmd.v`): `C71_made`.
* Note: That the variables exist is C15; the double dollar and the splitting into parts are those of the lexer.

### C72 The panic for a wrong number of items says how many there are — partial

* Modelled: `build_single_argument`.
* Proof: same; witness with two items.
* Theorems (`PropCmd.v`): `C72_number_partial`, `C72_number_refuted`.
* Note: Refuted as stated: two items are reported as 1, as one is removed before counting. Proved for no items; for patterns that match several paths the number is right (C73_one_program).

### C73 What is started is what was written, and nothing is started when preparing fails — proved

* Modelled: `exec/mod.rs` BasicCommand.
* Proof: `requested`, `resolves` (SpecCmd); every step before spawning starts nothing; `complaint` lists what each panic is about.
* Theorems (`PropCmd.v`): `C73_requested`, `C73_not_started`, `C73_one_program`, `C73_complaint`.
* Note: Matching of patterns is a function of the operating system.

### C74 The value of a capture block is what the commands wrote — proved

* Modelled: `command/mod.rs` capture blocks.
* Proof: `captured_in` over the new heap, and C33's `block_ran` and `reported`.
* Theorems (`PropCmd.v`): `C74_capture`.
* Note: What ends up in the pipes is the operating system's; C36 says which commands write there.

### C75 Built-in commands do what they are for — partial

* Modelled: `exec/mod.rs` Builtin.
* Proof: Case analysis over the resolved arguments; witness for alias.
* Theorems (`PropCmd.v`): `C75_cd`, `C75_exec`, `C75_spawn0`, `C75_alias_refuted`.
* Note: Refuted as stated: alias reaches todo!() and stops the process. The other built-in commands are proved.

### C76 The status of a failed command is that of other shells — partial

* Modelled: `exec/mod.rs` wait_child.
* Proof: Case analysis; witness signal 9.
* Theorems (`PropCmd.v`): `C76_status_partial`, `C76_signal_refuted`.
* Note: Refuted as stated: the offset is 255 instead of 128. Proved for commands that exit.

### C77 std.exit ends the process with its argument — proved

* Modelled: `exit.rs`.
* Proof: Case analysis on the range.
* Theorems (`PropCode.v`): `C77_exit`.
* Note: That std.catch does not stop it is C59.

### C78 The report of static errors shows the errors in order, twenty at most, and how many more there are — partial

* Modelled: `syntax/mod.rs` analyze, `error/fmt.rs`; errors carry how far the tokens had been asked for.
* Proof: `in_source_order`, `report_of` (SpecReport); an invariant of every parser function gives the token at hand; witness with 21 errors.
* Theorems (`PropReport.v`): `C78_order`, `C78_none`, `C78_syntax_shown`, `C78_semantic_shown`, `C78_syntax_partial`, `C78_semantic_partial`, `C78_number_refuted`.
* Note: Refuted as stated: the last line always says 20. Order, contents and the limit of twenty lines are proved; reports of at most twenty errors are as stated.

### C79 Every static error is told with its place and on one line — partial

* Modelled: `lexer/error/fmt.rs`, `parser/error/fmt.rs`, `semantic/error/fmt.rs`.
* Proof: `placed` (SpecShow) with C05; witnesses.
* Theorems (`PropReport.v`): `C79_place_partial`, `C79_end_refuted`, `C79_line_partial`, `C79_line_refuted`.
* Note: Refuted as stated: the error for an early end of the text has no place, and invalid escape sequences, numbers and identifiers are shown without escaping. Proved: the place of every other syntax error, and one line for every semantic error (if the escaping function yields no end of line).

### C80 Tokens are named in messages as they are written — partial

* Modelled: `lexer/token/fmt.rs`.
* Proof: `written_as` (SpecLexer) with C05; witness.
* Theorems (`PropReport.v`): `C80_words_partial`, `C80_numbers_partial`, `C80_arguments_refuted`.
* Note: Refuted as stated: $x in arguments is shown as ${{x}}. Proved for words, symbols, names and integers (without colours). Strings and bytes are shown escaped; the text of floats is a parameter.

### C81 --lex lists every token and error in order — proved

* Modelled: `main.rs` 98-113.
* Proof: `lexeme_line` (SpecReport), induction over the outputs.
* Theorems (`PropReport.v`): `C81_lines`, `C81_shown`.
* Note: If the lexer crashes (C04) nothing more is listed.

### C82 Regular expressions — proved

* Modelled: `lib/regex.rs`; the engine is a parameter.
* Proof: `regex_methods`, `regex_answer`, `regex_takes` (SpecRest); case analysis.
* Theorems (`PropRest.v`): `C82_regex`, `C82_methods`, `C82_refused`.
* Note: The regex engine is a parameter.

### C83 Error values and small functions — proved

* Modelled: `lib/error.rs` and nine small functions.
* Proof: `answers` (SpecRest) lists what each does; case analysis.
* Theorems (`PropRest.v`): `C83_error`, `C83_small`.
* Note: The operating system and the random generator are parameters.

### C84 Trimming — proved

* Modelled: `lib/trim.rs` and `bstr`'s trim.
* Proof: `trimmed` (SpecRest) over the characters of Unicode with White_Space; no white character begins inside another one.
* Theorems (`PropRest.v`): `C84_trim`.
* Note: Both directions.

### C85 Operators refuse wrong operands — proved

* Modelled: `runtime/mod.rs` eval_binary_op, eval_unary_op.
* Proof: `left_kind`, `right_kind`, `spot` (SpecOps); case analysis, and every evaluation reports the place of its expression.
* Theorems (`PropOps.v`): `C85_left`, `C85_left_logical`, `C85_right`, `C85_unary`, `C85_accepted`.

### C86 What the operators compute — proved

* Modelled: the same, `float.rs`.
* Proof: `lower`, `says`, `ieee`, `remainder` (SpecOps); rounding of a remainder shown exact.
* Theorems (`PropOps.v`): `C86_order`, `C86_concat`, `C86_floats`, `C86_remainder`, `C86_minus`, `C86_not`.
* Note: IEEE 754 is the specification of the Coq standard library (SpecFloat). Equality is C27.

### C87 The reason of an arithmetic panic — partial

* Modelled: the same.
* Proof: `reason` (SpecOps); bounds of quotient and remainder; witness.
* Theorems (`PropOps.v`): `C87_reason_partial`, `C87_quotient_refuted`.
* Note: Refuted as stated: the quotient of the smallest integer and -1 overflows but is reported as a division by zero. Every other case is proved.

### C88 The printed syntax tree can be read again — partial

* Modelled: `ast/fmt.rs`, `fmt.rs`.
* Proof: `readable`, `unplaced` (SpecAst); induction over trees: every piece of the text is laid out as tokens that the grammar reads as the same piece; witnesses.
* Theorems (`PropAst.v`): `C88_same_tree_partial`, `C88_separator_refuted`, `C88_empty_refuted`, `C88_call_refuted`, `C88_field_refuted`, `C88_float_refuted`, `C88_expansion_refuted`, `C88_dollar_refuted`.
* Note: Refuted as stated: statements separated by semicolons, empty branches on one line, operations after an expression, fields of numbers, whole floats, expansions and dollars in command arguments are not read back. Every other tree is (readable_block in SpecAst).

### C89 Every library function is found under its name — proved

* Modelled: `lib.rs` 23-57 (`Library`), and the library the interpreter starts with (`Runtime`).
* Proof: `library`, `found`, `holds_library` (SpecNames); invariant over the functions registered so far; the interpreter's library is the one built in the model's order.
* Theorems (`PropNames.v`): `C89_any_order`, `C89_every_function`, `C89_initial`, `C89_found`, `C89_missing`.

### C90 std.int takes exactly the texts that spell a 64-bit integer — proved

* Modelled: `int.rs`; `str::parse::<i64>` is modelled by `parse_int`.
* Proof: `spells`, `writes` (SpecLib); induction over the digits from the right.
* Theorems (`PropLib.v`): `C90_read`.

### C91 An error of the lexer describes the text at the place it names — partial

* Modelled: the lexer automaton.
* Proof: `described`, `about_cut_number`, `about_long_escape` (SpecLexError); an invariant that ties each state to the text read since the backslash, digit, quote or dollar sign; witnesses.
* Theorems (`PropLexError.v`): `C91_described_refuted`, `C91_escape_refuted`, `C91_described_partial`.
* Note: Refuted as stated: a number cut off after its dot or exponent blames the byte after it but points at its first digit, and an invalid escape in a command argument goes on after its letter, so that `\ef` is reported as `\e` and again as `\ef`. Proved that every error of every source is described at its place but for these two.

### C92 A program never makes the interpreter itself fail — partial

* Modelled: all of the interpreter; Rust panics are the outcome `Crash`.
* Proof: `fails`, `inside`, `has_alias` (SpecCrash); what a comparison or a hash finds borrowed is a part of the value; no step of a pipeline fails but `alias`; with C15 and C14 for the other kinds; witnesses.
* Theorems (`PropCrash.v`): `C92_no_failure_refuted`, `C92_only_these_partial`, `C92_library`, `C92_library_fails`, `C92_key`, `C92_block`.
* Note: Refuted as stated: an accepted program can make the interpreter fail in five ways: a dict stored under a key that contains it (or sorting an array that contains itself), std.randint with an empty interval, std.export without a name, the import of a file on which the lexer fails, and the built-in alias. Proved that there is no other way, and which library calls, keys and blocks these are.

### C93 Programs printed alike are alike — partial

* Modelled: `program/fmt.rs`, `mem/fmt.rs`; how floats are shown and strings escaped is a parameter.
* Proof: `bare_program`, `legible_program` (SpecProg); a reader of the printed text and the proof, by induction over programs, that it gives back the program; witnesses from sources.
* Theorems (`PropProg.v`): `C93_shown_apart_partial`, `C93_expansion_refuted`, `C93_slot_refuted`, `C93_float_refuted`.
* Note: Refuted as stated: `*` and `"*"`, a variable and a quoted text in the notation of slots, and `1.0` and `1` are printed alike. Proved for all programs without such texts (`legible_program`), by a reader that gives back every legible program from its text. Without colours, and for an `escape_debug` that leaves words as they are.

### C94 A printed command has a question mark exactly if the written one has — partial

* Modelled: `program/fmt.rs` and the analysis of commands.
* Proof: `marked` (SpecProg); the last byte of the text; a witness.
* Theorems (`PropProg.v`): `C94_mark_partial`, `C94_builtin`, `C94_mark_refuted`.
* Note: Refuted as stated: built-in commands are printed with a question mark exactly if they are written without one, proved for all of them. Proved for all commands of pipelines.

### C95 Functions written at different places are different — proved

* Modelled: lexer, parser and analyser for the places; `function.rs` 109-116 for the equality.
* Proof: `functions`, `before` (SpecPlace); the places of functions are some of the places of tokens, in order, which ascend by C05; induction over the grammar of C08 and over the relation of C12.
* Theorems (`PropPlace.v`): `C95_places`, `C95_equal`, `C95_same_expression`.
* Note: The places ascend in the order of the text, which also rules out a function that is listed twice. The code compares the addresses of the bodies where the model compares places; C95_places is what makes these the same.

### C96 Functions of which neither comes first are equal — partial

* Modelled: `function.rs` 24-27, 122-135 and 252-263, `source.rs` 49-54.
* Proof: `before` (SpecPlace) and C95; the laws of an order for all kinds of functions; witness.
* Theorems (`PropPlace.v`): `C96_order_partial`, `C96_total_partial`, `C96_kinds_partial`, `C96_library_partial`, `C96_order_refuted`.
* Note: Refuted as stated: two closures of the same expression that hold different values are not equal, and neither comes first. Proved that the order of closures is that of their expressions in the text, and that the order of all functions is total and transitive.

### C97 The analyser reports exactly what is wrong with a program — partial

* Modelled: `semantic/mod.rs`, `scope.rs`.
* Proof: `faults`, `shown_faults` (SpecFault), over the syntax tree and lists of names alone; an invariant of the analyser that gives the errors added, next to that of C12 for the scopes; C13 for keys; `C97_shown` ties the faults to `legal` of C12; witnesses.
* Theorems (`PropFault.v`): `C97_reported_partial`, `C97_exact_partial`, `C97_shown`, `C97_hidden_refuted`, `C97_accepted_refuted`.
* Note: Refuted as stated: a ? outside a function is not reported while its operand has a fault, nor is more of a misplaced builtin, of an invalid assignment's left side, or of a setting whose name has a fault; variables set for a builtin are never looked at, so an undeclared one there is accepted. Proved: the errors other than about keys are the faults shown, in order; exact equality for all programs without errors about keys, which for dicts nested in last values only is a condition on the source (C97_exact_partial). Repeated keys are C13.

### C98 Names of variables and layout do not matter — proved

* Modelled: `semantic/mod.rs`, `scope.rs`.
* Proof: `renaming`, `rename_block`, `move_program` (SpecAlpha); the analyser run on the renamed tree in the renamed state simulates the analyser, step by step; names followed by `@closed` are renamed with them.
* Theorems (`PropAlpha.v`): `C98_names`.
* Note: The renaming works on the syntax tree; C98_case has two texts whose trees are related so. std keeps its name as it is the one variable that is there from the start.

### C99 A program that is given nothing can do nothing — proved

* Modelled: analyser and interpreter.
* Proof: `unaided_block`, `undisturbed` (SpecPure); the analyser never hands out slot 0 for another name than std, nor captures it (invariant over the frames); then two runs side by side: no value within reach is a native function, a dict of the library or the array of arguments, and comparing and hashing such values does not look at those.
* Theorems (`PropPure.v`): `C99_unaided`.
* Note: The condition is on the syntax tree: no identifier std, no command block. Nothing is assumed of the outside, not even honesty. The equality of the outcomes includes the whole state of the interpreter apart from the world and the array of arguments.

### C100 The first syntax error is where hope ends — proved

* Modelled: the parser with its recovery; the lexer for the tokens of a source.
* Proof: `source_tokens`, `hopeful` (SpecFirst) and the grammar of C08; for every function of the parser: (1) two runs on inputs that agree up to the named token and the next go alike until the error is recorded, which later steps never take back, (2) what was read when the first error arises can be completed, with an explicit completion for every place where an error is raised.
* Theorems (`PropFirst.v`): `C100_first_error`, `C100_hopeless`, `C100_hope_until`, `C100_hope_at_end`.
* Note: Well-formed is the grammar of C08. One token beyond the named one can matter: in a command a number is an argument or a file descriptor depending on what follows (C100_next).

### C101 A mistake in one statement costs that statement only — partial

* Modelled: the parser with its recovery (`sync.rs`).
* Proof: `broken`, `faulty`, `bad_block`, `mended` (SpecRecover), on top of the grammar of C08; each kind of mistake makes the parser fail at the token out of place, with a strategy that skips exactly the rest of the statement; induction over the statements and the blocks nested in them; witnesses.
* Theorems (`PropRecover.v`): `C101_recovery_partial`, `C101_command_refuted`, `C101_condition_refuted`.
* Note: Refuted as stated: after a mistake in a command the closing brace is skipped and then missed, so the statements up to the next closing brace are lost; in an if the token out of place is taken for the end of the file. Proved for statements where an operand is missing or where brackets or an end other than that of an if are not closed where they should be, for empty command blocks and those with something after their last question mark. The statements may stand in the bodies of functions, loops and conditions, nested to any depth. Mistakes inside the arguments of a call or the items of an array are not covered.

### C102 Equal values are hashed alike — partial

* Modelled: all `Hash` implementations of `runtime/value`.
* Proof: `no_minus_zero`, `hashed_as`, `equals` (SpecHash); what is fed to the hasher is a function of the tree of the value, and no tree gives a beginning of what another one gives; trees that compare as equal and have no -0.0 are the same.
* Theorems (`PropHash.v`): `C102_equal_hash_partial`, `C102_equal_hash_refuted`.
* Note: Refuted as stated: 0.0 == -0.0, but their bits, which are hashed, differ; the same for arrays of them. Proved for plain data of any depth without -0.0, in both directions.

### C103 A dict finds what is stored under an equal key — partial

* Modelled: `dict.rs` on top of a hash table with stored hashes, probing and growing (HashTable).
* Proof: `thorough`, `in_place`, `inserts` (SpecHash); the search finds the one place at which the key is, because equal keys have equal hashes; induction over the insertions; agreement with `dict_get` and `dict_put` of the interpreter model; witnesses.
* Theorems (`PropHash.v`): `C103_any_hasher_partial`, `C103_agrees_partial`, `C103_grown_partial`, `C103_changed_key_refuted`, `C103_zero_refuted`.
* Note: Refuted as stated: an array, dict or error used as a key and changed afterwards is at the place of its old hash, so it is not found either by its old or by its new contents, and can be inserted a second time; and by -0.0 what is stored under 0.0 is not found. Proved for keys of plain data without -0.0 that were not changed since: for every hash function, order of probing and growth of the table; the dicts of the interpreter model, which know no hashes, then give the same.

### C104 A symbol stands for one name — partial

* Modelled: `symbol/mod.rs`, `symbol/fmt.rs` and the table of `intaglio` (Interner); the other models use names instead of symbols, which this property justifies.
* Proof: the map and the list of names agree after every step; names of tokens are words (C05), the dummy name is not; witness.
* Theorems (`PropInterner.v`): `C104_names_partial`, `C104_small_partial`, `C104_later_partial`, `C104_enough_partial`, `C104_shown_partial`, `C104_path_refuted`.
* Note: Refuted as stated: a script called <invalid symbol> gets the dummy symbol and is shown as ill-formed. Proved for all names as far as symbols and names correspond, and for every identifier of a source as far as the dummy symbol and what is shown are concerned.

### C105 A panic names a place of the program — proved

* Modelled: lexer, parser, analyser, interpreter, library and commands; what asynchronous blocks give is a parameter.
* Proof: `panic_place`, `text_places`, `names_place` (SpecPanic); the places in the program are some of those of the tokens (induction over the grammar of C08 and the relation of C12); an invariant of the interpreter: every function within reach, in slots, heap, arguments and modules, has a body with such places, and every panic is raised at a place of the code at hand; an invariant of the lexer for the dollars.
* Theorems (`PropPanic.v`): `C105_place`, `C105_inside`, `C105_variable`, `C105_message`.

### C106 Every process that a block starts is waited for once — partial

* Modelled: `spawned` and `awaited` are read off the log of requests to the operating system; `reaped` compares how often each process occurs in both, `timely` does so for every beginning of the log..
* Proof: A completed run is described by `block_ran` (C33), from which the balance follows. For the other endings every function below is shown to wait for nothing and to start at most so many processes (`quiet`), separately for the case that it completes and the case that it does not; waiting itself always completes..
* Theorems (`PropWait.v`): `C106_waited_partial`, `C106_left_partial`, `C106_alone_partial`, `C106_failed_start_refuted`, `C106_panic_refuted`.
* Note: Refuted as stated: when a command of a pipeline cannot be started, those after it, which have been started, are not waited for. Proved for blocks that are carried out, and for all endings of blocks without pipelines; C106_left_partial says what can be left over.

### C107 The world changes only through the requests of the library and the commands — proved

* Modelled: the interpreter, library and commands; the world is any type and its answers any functions.
* Proof: `asked` lists the requests with the world before and after, `reached` chains them (SpecThread). One induction over the fuel shows that the evaluator, every library function and every command keep any reflexive and transitive relation that all requests keep (WorldProofs); `reached` is the smallest such. For blocks `carried` follows the entries of the log through the world (BlockWorldProofs), so that a block cannot end in an earlier world..
* Theorems (`PropThread.v`): `C107_requests`, `C107_later`, `C107_kept`, `C107_block`.

### C108 Joining an asynchronous block gives what the block gives alone — proved

* Modelled: `Threads` puts the threads into the world: a list of blocks still to be run or of what they came to, one entry per start. A schedule `early` says which threads run when they are started; the others run when they are joined..
* Proof: `alone`, `stands_for_end`, `same_end` (SpecThread). By C107 entries are only added to the list until the join, so the entry of the handle is that of the block; blocks without built-in commands end with errors or a panic; a block does the same beside the threads as without them..
* Theorems (`PropThread.v`): `C108_joined_later`, `C108_joined_at_once`.
* Note: The threads are modelled as running without a break, when they are started or when they are joined; steps of a thread between steps of the interpreter are not modelled.

### C109 What a program does not reach does not matter to it — proved

* Modelled: the interpreter, library and commands; the heap as it is. The collector itself (the `gc` library) is not modelled: it may change the contents of what is not reached..
* Proof: `reachable` from the `roots`, `but_garbage`, `regardless`, `collecting` (SpecGarbage). Two runs are related by a set of objects that is closed under pointing, has equal contents in both heaps and contains all that the two states hold; it starts as what is reached and grows by new objects only. Every library function (GarbageLibProofs) and every step of the evaluator (GarbageRunProofs) keeps it. `detached` says of the libraries around the interpreter that they iterate a map in some order and do not look into the heap..
* Theorems (`PropGarbage.v`): `C109_statement`, `C109_expression`, `C109_call`, `C109_program`, `C109_collector`.
* Note: The collector is modelled as emptying objects, between statements; what Rust variables hold during a statement are roots in the program and are covered by the theorems on expressions and calls only as far as the values named there.

### C110 A call has to do with what it is given only — proved

* Modelled: the interpreter, library and commands; the stack with its limit; the heap as it is..
* Proof: `given`, `held`, `untouched`, `alike` and `answers`, for statements `own` and `leads` (SpecFrame), on top of `reachable` (SpecGarbage). The call is moved to a stack of as many slots that hold nothing: by `run_local` (TailProofs) an evaluation does not look below its own slots. There C109 applies, and what the caller alone reached is garbage. FrameProofs puts the two together..
* Theorems (`PropFrame.v`): `C110_changes`, `C110_depends`, `C110_statement_changes`, `C110_statement_depends`.
* Note: Evaluations in which a module was left by a panic are set aside: there the stack is not restored (finding of C21). The stacks have the same height in the theorems on what a call depends on, unless there is no limit.

### C111 Code without calls and open loops ends — proved

* Modelled: the interpreter, the comparison and hashing of values, and commands..
* Proof: `straight_expr`, `straight_statement`, `settled` (SpecEnds) are about the program text only. `EndsProofs` shows by induction on the steps that no part of the evaluation asks for more than the depth; the results of operators and literals are not collections, so that comparing with them and hashing them takes one step. Such code keeps the lengths of arrays and the iterators, so that the turns that a loop has left become fewer..
* Theorems (`PropEnds.v`): `C111_statement`, `C111_expression`, `C111_call`, `C111_program`, `C111_for`.
* Note: Processes that commands start and wait for are taken to end: they are oracles.


## 3. Trusted base

* The kernel of Coq 8.16.1 with its virtual machine (`vm_compute` is used for witnesses, examples
  and byte tables). No other checker is trusted; `coqchk` accepts the compiled files.
* `Print Assumptions` reports *Closed under the global context* for every theorem of the
  manifest: no axiom, neither of our own nor of the standard library, is used. (The gate lists
  seven constants of `Coq.ssr.ssrunder.Under_rel`. They are the sealed module of ssreflect that
  comes with the standard library; they are loaded but no theorem depends on them.)
* The reading of the Rust code, definition by definition. Each definition cites file and lines and
  says where it simplifies.
* The behaviour of the Rust standard library and of crates where the models restate it: `Vec`,
  `HashMap` (any iteration order: a parameter that is a permutation), stable sort, integer parsing
  and printing, the searches and `trim` of `bstr`, the `hex` and `base64` codecs, `from_utf8_lossy`.

### Outside the model, as parameters

Everything around the interpreter is a parameter of the model, so the theorems hold for every
behaviour of it: the record `ext` (text of floats, escaping of strings, environment, working
directory, terminal input and output, random numbers, the texts of JSON trees and their parser,
regular expressions, files, waiting for threads) and the record `os` (glob, opening files, pipes,
starting and waiting for processes, captured output, threads). Where a theorem needs to assume
something it says so by a hypothesis: `some_order` (a hash map is iterated in some order),
`honest` (order, and data given by `std.glob` and by joined blocks contains no functions) and
`blind` (joining a block does not look at closed variables). These hypotheses are satisfiable:
the `Demo` world meets them, and the examples use it.

### Modelled

| code | model | left out |
|---|---|---|
| `syntax/lexer/**` | `Lexer`, `Report` | the text of a float (parameter) |
| `syntax/parser/**`, `syntax/ast/mod.rs`, `ast/command.rs` | `Parser`, `Ast`, `Report` | |
| `syntax/ast/fmt.rs`, `fmt.rs` | `AstFmt` | how floats are shown (parameter) |
| `semantic/mod.rs`, `scope.rs`, `program/**` | `Sema`, `Program`, `Report`, `ProgFmt` | how floats are shown (parameter) |
| `runtime/mod.rs`, `flow.rs`, `mem.rs`, `source.rs` | `Runtime` | garbage collection, `Rc` identity |
| `runtime/value/**` | `Value`, `StdLib`, `Text`, `HashTable` | the hash function and the probing of `HashMap` (parameters) |
| `runtime/panic.rs`, `value/fmt.rs` | `StdLib` (`panic_text`, `show`) | |
| `runtime/lib.rs` | `Library` | the order of registration is universally quantified |
| `runtime/lib/*.rs` | `StdLib`, `Runtime` (`catch`, `import`), `Json` | regular expressions, random numbers (parameters) |
| `runtime/command/**` | `Exec`, `Threads` | threads of asynchronous blocks are a parameter of `Exec`; in `Threads` each runs without a break when it is started or when it is joined |
| `symbol/**` | `Interner`; names instead of symbols everywhere else | |
| `main.rs`, `args.rs` | `Main` | `clap` (parameter) |

Not modelled: the operating system, processes and files beyond the oracles above; when and
how garbage is collected (C109 shows that it is not seen); concurrency of asynchronous blocks with the interpreter; interactive terminal handling;
debug builds, in which the unchecked additions of C42/C43 and the negation of C18 stop the program
instead of wrapping.

## 4. Findings

What reading the code for the models and proving or failing to prove the properties showed. Those
marked with a property are proved, the others were found while modelling.

Front end
* `[` or `{` unquoted in a command argument reaches `todo!()` and stops the process (C04).
* Statements before a top-level `return` that is not the last statement are dropped without a
  message, and so is everything after a stray block terminator (C09). After
  `if c then return 1 foo() end` the rest of the source is not looked at (C101).
* After a mistake in a command the parser skips the closing brace and then misses it: `{ > f }` makes the
  statements up to the next closing brace disappear, with a second error (C101).
* `''` and `""` as command arguments are dropped, so the program is started with fewer arguments
  than written (C32). `a|b` without spaces is one word.
* Duplicate keys: one set of names is used for all nested dict literals and each literal clears
  it, so `@[a: @[b: 1], b: 2]` is rejected and `@[a: 1, b: @[], a: 2]` accepted (C13).
* A report of more than twenty static errors ends with "20 more supressed …" whatever their number (C78).
* "unexpected end of file" is reported by the parser without a place (C79), and often several times.
* `1.x` is reported as an unexpected `x` at the place of the `1` (C91): `number.rs` uses the place where the number
  began for every error.
* An invalid escape in a command argument is never over (C91): `Word::visit` keeps `escaping` after the error, so in
  `{ \ef }` first `\e` and then `\ef` is reported, and the blank after them is taken as escaped.
* Invalid escape sequences, numbers and identifiers are shown raw: an end of line or a control character of
  the source gets to the terminal (C79).
* `$x` in a command argument is called `${{x}}` in messages (C80): the braces were doubled for escaping in a
  place where they are not escapes.
* Errors of the lexer after the point where the parser stopped asking for tokens are not reported (C78).
* A script with the name `<invalid symbol>` gets the symbol of ill-formed identifiers and is shown as `***ill-formed***` (C104).
* `hush --lex` lexes the text a second time to its end and so reaches the `todo!()` of C04 even when the
  analysis stopped before it (C49).
* What `--ast` prints is not always a program (C88): on one line, statements are separated by `;`, which the
  lexer does not know, and an empty branch gives `thenend`; `x` followed by `1 + 2` is printed so that it
  reads as a call; `(1).foo` becomes `1.foo`, `1.0` becomes `1`; all command arguments are shown in double
  quotes, where `*` is no expansion and `$` is one. The level of indentation is a `u8`.

Interpreter
* After a failed `std.import` that is caught, the variables of the module stay on the stack and the
  caller's variables are looked up at wrong places (C22).
* Iterations of a loop share captured variables (C52).
* Only a call that is the last statement of a function body is a tail call; at the end of a branch
  of `if` it is not (C23).
* `-x` wraps for the smallest integer (C18); `MIN % -1` panics although it is 0, and `MIN / -1` is
  reported as a division by zero (C17, C87).
* A key that is changed after its insertion is lost (C103): `let k = [1] d[k] = 2 std.push(k, 3)` leaves an entry that
  neither `d[[1]]` nor `d[k]` finds, until the table happens to grow. The interpreter model finds it by its present
  contents; C103 says exactly when the two agree.
* `0.0 == -0.0`, but they are hashed by their bits, so they are different keys (C102, C103), against the contract of `Hash`.
* A NaN is lower than itself (C19); `@[]` with keys `0.0` and `-0.0` are equal in the order but not by `==`.
* Comparing, hashing or printing a value that contains itself does not end and finally overflows the
  Rust stack (C27); so `std.catch` of a panic with such a value does not return (C26). A recursive closure is such a value.
* All functions made by `std.bind`, and all iterators, are equal by name (C28). Closures are
  compared by captured values but ordered by position.
* `d[d] = 1` and sorting an array that contains itself stop the process by a double borrow; there are four
  other ways of stopping the process (C92).
* A panicking Hush function leaves its arguments in the argument vector until `std.catch` or a native
  call truncates it (C21).
* Assignment to a negative index reports another position than one to an index that is too large.

Library
* `std.range` with step 0 never ends, and near the limits the addition wraps (C43).
* `std.randint(m, n)` with m > n stops the process; `std.randint(1, "x")` blames the `1`.
* `std.export("", x)` stops the process (`set_var` panics on an empty name).
* `std.substr` with two arguments of wrong type reports "supplied 3, expected 3".
* The error of `std.float` says "valid integer". `std.has_error` takes one argument.
* JSON: bytes come back as strings, infinite and undefined floats as null, invalid UTF-8 is replaced,
  and integers above 2^63-1 are a decoding error (C62).

Commands
* An empty array inside an argument is skipped instead of giving no argument (C31).
* An operating system error in a block discards the errors collected before (C33); `?` does not
  protect against a command that cannot be started (C34).
* If a command of a pipeline cannot be started, those started before it are not waited for (C106).
* `<<` with a literal larger than the pipe buffer blocks forever.
* In a capture block the error stream of all but the last command of a pipeline is the shell's (C36).
* "expansion resulted in N items" reports one item less than there are (C72).
* The status of a command killed by signal n is 255 + n; the comment says it is that of Bash and
  Dash, which is 128 + n (C76).
* `alias` is accepted by the parser and reaches `todo!()` (C75).
* `**` in patterns has the special meaning of the glob crate.

Program
* Exit codes: 0, 1 invalid arguments, 2 static error, 127 panic, and 127 for an unreadable script (C49).
* A first argument that does not name a file is passed to the script, which is then read from the
  terminal (C53).
* `--program` prints the `?` of built-in commands the wrong way round (C94), and prints `*` like `"*"`, `1.0` like `1` (C93).
* Closures of one expression that hold different values are not equal, but neither comes first in the order of `std.sort` (C96).
* `{ A=$nope cd / }` is accepted although `nope` is not declared: variables set for a builtin are not analysed. `nope?` outside
  a function reports only `nope` (C97).

## 5. Tests of the theorems

`seeded/LOG.jsonl` lists deliberate errors made in a copy of the models — wrong boundaries, missed
cases, swapped arguments, dropped updates — with the theorems that no longer prove. Where an error
was caught by no theorem about the claim it falsifies, the theorem was tightened or a new one was
added (field `tightened`).
