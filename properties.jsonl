{"id": "C01", "title": "String literals denote exactly the bytes written", "statement": "Writing any byte string between double quotes in a Hush source, spelling each byte either directly or with its escape sequence, is read as one string literal whose value is that byte string.", "quantifier": "for every byte string of any length, every admissible mix of direct and escaped spellings, and every text following the literal", "why_tests_cant": "The set of byte strings and spellings is infinite; the tests lex a dozen fixed literals.", "anchors": ["src/syntax/lexer/automata/string.rs: StringLiteral::visit, validate_escape", "src/syntax/lexer/automata/root.rs: Root::visit"]}
{"id": "C02", "title": "Quoting protects command arguments", "statement": "Inside a command block, a single-quoted word and a fully escaped double-quoted word are passed on as one argument whose text is exactly the quoted bytes: no byte is expanded, split, dropped or treated as an operator.", "quantifier": "for every non-empty byte string", "why_tests_cant": "Only a proof over all byte strings shows that no byte value slips through the quoting rules.", "anchors": ["src/syntax/lexer/automata/argument.rs: SingleQuoted, DoubleQuoted, Word, validate_escape", "src/syntax/parser/command.rs: build_arg"]}
{"id": "C03", "title": "The lexer reads every source to its end", "statement": "For every byte sequence, asking the lexer for tokens until it answers 'no more' takes finitely many steps, at most a fixed multiple of the source length, unless it hits an unimplemented feature.", "quantifier": "for every byte sequence of any length", "why_tests_cant": "Non-termination on some input cannot be excluded by running finitely many inputs.", "anchors": ["src/syntax/lexer/automata/mod.rs: Automata::next, Transition, Step::apply", "src/syntax/lexer/cursor.rs: Cursor"]}
{"id": "C04", "title": "No source text crashes the front end", "statement": "Lexing any byte sequence yields tokens and errors; it never aborts the interpreter.", "quantifier": "for every byte sequence", "why_tests_cant": "Tests exercise chosen inputs; the crash needs an unquoted [ or { inside a command.", "anchors": ["src/syntax/lexer/automata/expansion.rs: Expansion::visit (todo! on '[' and '{')"]}
{"id": "C05", "title": "Token positions point at the token", "statement": "The line and column attached to a token are those of its first byte: one plus the number of line breaks before it, and the number of bytes since the last line break.", "quantifier": "for every source text and every token in it", "why_tests_cant": "Position bugs show only for particular mixes of tokens, escapes, rollbacks and line breaks.", "anchors": ["src/syntax/lexer/cursor.rs: Cursor::step, Cursor::pos", "src/syntax/lexer/automata/mod.rs: Automata::next"]}
{"id": "C06", "title": "Integer literals are read exactly or rejected", "statement": "A run of decimal digits that denotes a number up to 9223372036854775807 is read as an integer literal with exactly that value; a larger one is reported as an invalid number, never silently wrapped.", "quantifier": "for every digit string of any length, including leading zeros", "why_tests_cant": "Tests cannot enumerate 2^63 literals nor unbounded digit strings.", "anchors": ["src/syntax/lexer/automata/number.rs: NumberLiteral::visit, NumberLiteral::parse"]}
{"id": "C07", "title": "Tokens are recovered from their spelling whatever the layout", "statement": "Writing a sequence of tokens one after another, separated by any non-empty run of white space or comments, and lexing the text gives back the same token sequence and no error.", "quantifier": "for every sequence of language-level tokens and every choice of separators", "why_tests_cant": "Interactions between adjacent tokens and comments are unbounded in number.", "anchors": ["src/syntax/lexer/automata/root.rs", "src/syntax/lexer/automata/word.rs: to_token", "src/syntax/lexer/automata/symbol.rs", "src/syntax/lexer/automata/comment.rs"]}
{"id": "C08", "title": "Operator precedence and associativity are honoured", "statement": "Printing an expression with the fewest parentheses allowed by the documented precedence table (all binary operators left associative) and parsing it back gives the same expression, without errors.", "quantifier": "for every expression tree of any depth", "why_tests_cant": "A test covers a handful of operator pairs; the claim is about every nesting.", "anchors": ["src/syntax/parser/mod.rs: parse_expression, parse_binop, parse_prefix, parse_postfix, parse_primary"]}
{"id": "C09", "title": "No statement of an accepted source is dropped", "statement": "If parsing reports no error, every statement written in the source appears in the parsed program, in order.", "quantifier": "for every source text accepted without syntax error", "why_tests_cant": "Tests parse whole well-formed files and look for errors, not for silently discarded code.", "anchors": ["src/syntax/parser/mod.rs: Parser::parse, Parser::parse_block"]}
{"id": "C10", "title": "A malformed piece of source is always reported", "statement": "If the parser produces a tree with a placeholder for something it could not parse, it has reported at least one error, so such a program is never run.", "quantifier": "for every token sequence, including arbitrary garbage", "why_tests_cant": "The space of malformed inputs is unbounded and error recovery paths interact.", "anchors": ["src/syntax/parser/mod.rs: Synchronizable, parse_*", "src/syntax/parser/sync.rs", "src/syntax/mod.rs: Analysis::analyze"]}
{"id": "C11", "title": "The parser stops on every input", "statement": "Parsing any finite token stream, including streams containing lexical errors, terminates; the number of tokens examined is bounded by the stream length and recovery never loops.", "quantifier": "for every finite token stream", "why_tests_cant": "Recovery loops appear only on specific malformed inputs; no finite test set excludes them.", "anchors": ["src/syntax/parser/mod.rs: parse_block, synchronize, sep_by", "src/syntax/parser/sync.rs: force_sync_skip, Strategy::synchronized"]}
{"id": "C12", "title": "Variables resolve by lexical scope", "statement": "Each use of a variable in an accepted program refers to the innermost enclosing declaration of that name that is in scope at the use, looking through blocks and then enclosing functions; a use with no such declaration is rejected.", "quantifier": "for every program of any nesting depth", "why_tests_cant": "The number of nesting and shadowing patterns is unbounded.", "anchors": ["src/semantic/scope.rs: Stack::resolve, Frame::resolve, Frame::capture, Stack::declare", "src/semantic/mod.rs: analyze_expr"]}
{"id": "C13", "title": "Duplicate dict keys are rejected, distinct ones accepted", "statement": "A dict literal is rejected for duplicate keys exactly when two entries of that same literal use the same key.", "quantifier": "for every dict literal, with any nested dict literals among its values", "why_tests_cant": "The single unit test has no nested dict literal.", "anchors": ["src/semantic/mod.rs: analyze_literal, Analyzer::dict_keys"]}
{"id": "C14", "title": "Control flow statements only where they make sense", "statement": "An accepted program has break only inside a loop of the same function, and return, self and ? only inside a function; running it never aborts the interpreter with an invalid control flow.", "quantifier": "for every accepted program and every run", "why_tests_cant": "Needs all nestings of loops, functions and blocks, and all executions.", "anchors": ["src/semantic/mod.rs: analyze_statement, enter_loop, enter_frame", "src/runtime/mod.rs: eval, call, eval_statement"]}
{"id": "C15", "title": "Accepted programs never touch a variable slot that does not exist", "statement": "In an accepted program every variable reference, parameter and capture denotes an existing slot of its activation, so variable access at run time never goes out of range.", "quantifier": "for every accepted program, function and nested function", "why_tests_cant": "The index arithmetic depends on unbounded nesting of blocks and closures.", "anchors": ["src/semantic/scope.rs: Frame, FrameInfo", "src/runtime/mem.rs: Stack::fetch, store, capture, place", "src/runtime/mod.rs: call"]}
{"id": "C16", "title": "Builtin commands are only accepted in synchronous, undecorated position", "statement": "A command block containing alias, cd, exec, exec0 or spawn0 is accepted only if the block is synchronous and that command is not part of a pipeline and has no redirection.", "quantifier": "for every command block", "why_tests_cant": "All shapes of blocks and pipelines cannot be enumerated.", "anchors": ["src/semantic/mod.rs: analyze_command", "src/semantic/program/command.rs: Builtin"]}
{"id": "C17", "title": "Integer arithmetic is exact or panics", "statement": "For 64-bit integers, a + b, a - b, a * b, a / b and a % b give the mathematically exact result (quotient truncated toward zero) whenever it is representable; otherwise, and for a zero divisor, they panic. Nothing wraps around.", "quantifier": "for every pair of 64-bit integers and every arithmetic operator", "why_tests_cant": "2^128 operand pairs.", "anchors": ["src/runtime/mod.rs: eval_expr (BinaryOp)"]}
{"id": "C18", "title": "Negation never overflows silently", "statement": "Unary minus on an integer gives the exact opposite or a Hush panic.", "quantifier": "for every 64-bit integer", "why_tests_cant": "Only one value out of 2^64 misbehaves.", "anchors": ["src/runtime/mod.rs: eval_expr (UnaryOp::Minus)"]}
{"id": "C19", "title": "Comparison is a total order consistent with equality", "statement": "On values, exactly one of a < b, a == b, a > b holds and < is transitive.", "quantifier": "for all triples of comparable values", "why_tests_cant": "Transitivity and totality quantify over all triples.", "anchors": ["src/runtime/value/mod.rs: Value (derive Ord)", "src/runtime/value/float.rs: Ord for Float", "src/runtime/value/function.rs: Ord for HushFun"]}
{"id": "C20", "title": "std.sort sorts", "statement": "After std.sort(a) the array holds a permutation of its previous elements in non-decreasing order, equal elements keeping their relative order.", "quantifier": "for every array of ordered values of any length", "why_tests_cant": "All arrays of all lengths.", "anchors": ["src/runtime/lib/sort.rs", "src/runtime/value/array.rs: Array::sort"]}
{"id": "C21", "title": "Calls leave the caller's variables and argument list in place", "statement": "A function call, whether it returns, panics, or is wrapped in std.catch, leaves the variable stack and the argument vector with exactly the height they had before the call.", "quantifier": "for every function, every argument list and every way the call may end", "why_tests_cant": "Needs every program and every failure point.", "anchors": ["src/runtime/mod.rs: call, eval_call", "src/runtime/mem.rs: Stack::extend, shrink", "src/runtime/lib/catch.rs"]}
{"id": "C22", "title": "A failed import leaves the caller's variables in place", "statement": "If std.import of a module panics and the panic is caught, the caller's variables keep the values they had.", "quantifier": "for every module and every panic in it", "why_tests_cant": "Needs a panic inside an imported file wrapped in std.catch; no such test exists.", "anchors": ["src/runtime/mod.rs: eval", "src/runtime/lib/import.rs"]}
{"id": "C23", "title": "Tail calls do not grow the stack", "statement": "A function whose last action is to call a function in tail position releases its own slots before that call: a tail-recursive loop of any length needs no more stack than one activation, and gives the same result as ordinary calls.", "quantifier": "for every tail-recursive function and any number of iterations", "why_tests_cant": "Unbounded recursion depth.", "anchors": ["src/runtime/mod.rs: call (tail call handling)"]}
{"id": "C24", "title": "and / or evaluate only what they must", "statement": "a and b evaluates b only if a is true, a or b only if a is false; both require booleans and give the boolean conjunction or disjunction of the evaluated operands.", "quantifier": "for every pair of operand expressions, including ones with effects or panics", "why_tests_cant": "All expressions and all effects.", "anchors": ["src/runtime/mod.rs: eval_expr (And, Or)"]}
{"id": "C25", "title": "for visits every element once, in order", "statement": "for x in std.iter(array) do \u2026 end runs the body once per element, in index order, when the body does not change the array's length.", "quantifier": "for every array and body", "why_tests_cant": "Unbounded arrays and bodies.", "anchors": ["src/runtime/mod.rs: eval_statement (For)", "src/runtime/lib/iter.rs: IterImpl"]}
{"id": "C26", "title": "std.catch turns every panic into an error value", "statement": "std.catch(f) never panics for a callable f of no parameters: it returns f's result, or an error value carrying the panic.", "quantifier": "for every function and every panic it may raise", "why_tests_cant": "All functions and failure points.", "anchors": ["src/runtime/lib/catch.rs"]}
{"id": "C27", "title": "Comparing two values always terminates", "statement": "a == b always produces a boolean.", "quantifier": "for every pair of values, including functions and self-referential collections", "why_tests_cant": "Tests compare plain data only.", "anchors": ["src/runtime/value/function.rs: PartialEq for HushFun", "src/runtime/value/array.rs"]}
{"id": "C28", "title": "Equal functions behave alike", "statement": "If two function values compare equal, calling them with the same arguments gives the same outcome.", "quantifier": "for every pair of function values", "why_tests_cant": "Quantifies over all functions, including those returned by std.bind and std.iter.", "anchors": ["src/runtime/value/function.rs: PartialEq for RustFun"]}
{"id": "C29", "title": "A dict behaves like a finite map", "statement": "After d[k] = v, reading d[k] gives v and every other key reads as before; reading an absent key panics; std.len counts distinct keys.", "quantifier": "for every sequence of insertions with plain-data keys", "why_tests_cant": "All insertion histories.", "anchors": ["src/runtime/value/dict.rs: insert, get, len", "src/runtime/mod.rs: eval_statement (Assign)"]}
{"id": "C30", "title": "Variable contents are never re-interpreted", "statement": "A $variable holding a string is passed to a command as part of exactly one argument with exactly its bytes: no word splitting, and no wildcard in its contents is expanded even when the argument also contains a wildcard.", "quantifier": "for every string contents and every argument built from literals, variables and wildcards", "why_tests_cant": "Injection bugs hide in unusual byte strings; all of them must be covered.", "anchors": ["src/runtime/command/arg.rs: Args, push_literal, push_pattern, pattern_escape", "src/runtime/command/mod.rs: build_argument"]}
{"id": "C31", "title": "Arrays in arguments expand to one argument per element", "statement": "An argument mentioning array variables produces one command argument for every combination of their elements, each being the concatenation of the pieces in order.", "quantifier": "for every argument made of any number of pieces and arrays of any length", "why_tests_cant": "All shapes and sizes.", "anchors": ["src/runtime/command/arg.rs: Args::push_literals", "src/runtime/command/mod.rs: build_argument"]}
{"id": "C32", "title": "Every argument written is passed", "statement": "Each argument written literally in a command, including an empty quoted string, is passed to the program as one argument.", "quantifier": "for every literal argument", "why_tests_cant": "Tests never pass an empty quoted string.", "anchors": ["src/syntax/parser/command.rs: build_arg", "src/runtime/command/arg.rs"]}
{"id": "C33", "title": "A command block stops at the first aborting failure and reports the failures in order", "statement": "Commands of a block run in order; the block stops after the first pipeline in which a command not marked with ? fails; the reported errors are exactly those of the failed commands that ran, in order; with no failure the block yields nil.", "quantifier": "for every block, every pipeline length, every assignment of exit statuses", "why_tests_cant": "All combinations of statuses and ? marks.", "anchors": ["src/runtime/command/exec/mod.rs: Block::exec, Command::exec", "src/runtime/command/exec/error.rs"]}
{"id": "C34", "title": "? makes a command failure non-fatal", "statement": "A command followed by ? never stops the rest of its block, however it fails.", "quantifier": "for every block and every way a command can fail, including failing to start", "why_tests_cant": "Tests use commands that exist.", "anchors": ["src/runtime/command/exec/mod.rs: BasicCommand::exec, Command::exec"]}
{"id": "C35", "title": "Redirections apply left to right", "statement": "Redirections take effect in the order written, each seeing the effect of the previous ones, so '2>1 > f' sends errors to the old output and output to f.", "quantifier": "for every sequence of redirections", "why_tests_cant": "All sequences.", "anchors": ["src/runtime/command/exec/mod.rs: BasicCommand::exec, Stdio"]}
{"id": "C36", "title": "Pipelines connect neighbours only", "statement": "In a pipeline of n commands the output of each command is the input of the next, the first reads the block's input, the last writes the block's output, and no end of a pipe is given to any other command.", "quantifier": "for every pipeline length and redirection-free commands", "why_tests_cant": "All lengths.", "anchors": ["src/runtime/command/exec/mod.rs: Command::exec"]}
{"id": "C37", "title": "An asynchronous block can be joined once", "statement": "The first call of join gives the block's result, every later call panics and does not wait.", "quantifier": "for every number of calls", "why_tests_cant": "All call histories.", "anchors": ["src/runtime/command/exec/join.rs: Join::call"]}
{"id": "C38", "title": "std.hex round-trips", "statement": "std.hex.decode(std.hex.encode(s)) gives back s, and encode produces two lower-case hex digits per byte. decode accepts exactly pairs of hex digits of either case and returns an error with the text otherwise.", "quantifier": "for every byte string", "why_tests_cant": "All byte strings.", "anchors": ["src/runtime/lib/hex.rs"]}
{"id": "C39", "title": "std.base64 round-trips", "statement": "std.base64.decode(std.base64.encode(s)) gives back s, and different strings have different encodings. The encoding is the string cut in groups of six bits, written in the standard alphabet; decode accepts exactly such texts, with or without padding, and returns an error with the text otherwise.", "quantifier": "for every byte string", "why_tests_cant": "All byte strings.", "anchors": ["src/runtime/lib/base64.rs"]}
{"id": "C40", "title": "std.split cuts a string without losing anything", "statement": "Joining the pieces of std.split(s, p) with p gives s back and no piece contains p, for non-empty p. For empty p the pieces are the single bytes of s with an empty piece at each end.", "quantifier": "for all byte strings s and p", "why_tests_cant": "All pairs of strings.", "anchors": ["src/runtime/lib/split.rs"]}
{"id": "C41", "title": "std.replace replaces every occurrence found left to right", "statement": "std.replace(s, p, r) is s with each non-overlapping occurrence of p, found left to right, replaced by r; if p does not occur the result is s; replacing p by itself gives s.", "quantifier": "for all byte strings", "why_tests_cant": "All triples of strings.", "anchors": ["src/runtime/lib/replace.rs"]}
{"id": "C42", "title": "std.substr returns the requested bytes or nil", "statement": "std.substr(s, start, len) is the len bytes of s from position start when both are non-negative and the range lies inside s, and nil in every other case.", "quantifier": "for every string and every pair of 64-bit integers, including negative and huge ones", "why_tests_cant": "2^128 index pairs.", "anchors": ["src/runtime/lib/substr.rs"]}
{"id": "C43", "title": "std.range enumerates an arithmetic progression and stops", "statement": "Iterating std.range(from, to, step) yields from, from+step, \u2026 strictly before to (below for positive step, above for negative), then finishes.", "quantifier": "for all 64-bit integers from, to, step", "why_tests_cant": "All triples; the failure needs bounds near the 64-bit limits or a zero step.", "anchors": ["src/runtime/lib/range.rs: RangeImpl"]}
{"id": "C44", "title": "Iterating a string or a dict visits everything once", "statement": "std.iter over a string yields its bytes in order, over a dict yields every key/value pair exactly once, then finishes and stays finished.", "quantifier": "for every string and every dict", "why_tests_cant": "All sizes.", "anchors": ["src/runtime/lib/iter.rs"]}
{"id": "C45", "title": "Integers survive conversion to text and back", "statement": "std.int(std.to_string(n)) is n.", "quantifier": "for every 64-bit integer", "why_tests_cant": "2^64 values.", "anchors": ["src/runtime/lib/int.rs", "src/runtime/lib/to_string.rs", "src/runtime/value/fmt.rs"]}
{"id": "C46", "title": "std.has_error finds an error at any depth", "statement": "std.has_error(v, true) is true exactly when v is an error or an array or dict containing one at any depth.", "quantifier": "for every acyclic value", "why_tests_cant": "All nestings.", "anchors": ["src/runtime/lib/has_error.rs"]}
{"id": "C47", "title": "std.type and std.typecheck agree", "statement": "std.typecheck(v, t) returns v when t is std.type(v), panics with a type error for any other type name, and panics with a value error when t names no type.", "quantifier": "for every value and every string t", "why_tests_cant": "All values and all strings.", "anchors": ["src/runtime/lib/type_.rs", "src/runtime/lib/typecheck.rs", "src/runtime/value/mod.rs: Type"]}
{"id": "C48", "title": "push and pop are inverse", "statement": "std.pop after std.push(a, v) returns v and leaves a as it was; pop on an empty array panics.", "quantifier": "for every array and value", "why_tests_cant": "All arrays.", "anchors": ["src/runtime/lib/push.rs", "src/runtime/lib/pop.rs", "src/runtime/value/array.rs"]}
{"id": "C49", "title": "A program with a static error is never run", "statement": "If a source has a syntax or semantic error nothing of it is executed and the exit status is 2; --check never executes anything; a panic gives 127 and success 0.", "quantifier": "for every source and option combination", "why_tests_cant": "All sources.", "anchors": ["src/main.rs: main", "src/args.rs: parse"]}
{"id": "C50", "title": "Evaluation is deterministic and monotone in resources", "statement": "Evaluating a program in the model with more steps allowed gives the same outcome once an outcome is reached.", "quantifier": "for every program, state and step bound", "why_tests_cant": "All programs and bounds.", "anchors": ["src/runtime/mod.rs: eval_expr, eval_statement, eval_block, call"]}
{"id": "C51", "title": "Captured variables are shared, not copied", "statement": "A closure and the function that created it, and any two closures capturing the same variable of one activation, see each other's assignments; different activations have different variables.", "quantifier": "for every program", "why_tests_cant": "All interleavings of calls, captures and assignments.", "anchors": ["src/runtime/mem.rs: Slot::capture, Stack::place", "src/runtime/mod.rs: eval_literal (Function), call"]}
{"id": "C52", "title": "Each loop iteration has its own variables", "statement": "Closures created in different iterations of a loop capture different variables.", "quantifier": "for every loop", "why_tests_cant": "No test creates closures in a loop.", "anchors": ["src/semantic/scope.rs: Frame::declare", "src/runtime/mem.rs: Slot::store"]}
{"id": "C53", "title": "Script arguments reach the script unchanged", "statement": "When the first command line argument names a file it is the script and the arguments after it, unchanged and in order, are what std.args() gives; a leading dash is dropped; any other first argument is itself passed on and the script is read from the standard input.", "quantifier": "for every argument list and every file system", "why_tests_cant": "All argument lists, including ones that look like options.", "anchors": ["src/args.rs: parse", "src/main.rs: run", "src/runtime/lib/args.rs"]}
{"id": "C54", "title": "Conditionals, loops, break and return follow the program text", "statement": "An if evaluates its condition once and then exactly the chosen branch; a while body runs exactly while the condition gives true and a for body once per value the iterator gives; break ends the innermost loop around it and nothing else; return leaves every loop with the value; a block stops at the first statement that does not complete normally; a condition that is not a boolean panics before any branch runs.", "quantifier": "for every condition, body, state and outside world, and every number of iterations", "why_tests_cant": "All nestings of loops and jumps, and all numbers of iterations.", "anchors": ["src/runtime/mod.rs: eval_block, eval_statement, eval_expr (If)", "src/runtime/flow.rs"]}
{"id": "C55", "title": "Operands are evaluated once, left to right, before the operation", "statement": "Array items, dict items, both sides of an operator (other than and/or), and object and index of an access are evaluated in the order written, each exactly once; when one panics, breaks or returns the rest is not evaluated and the operation does not happen. Then the operation gives exactly its value: a new array or dict of the items, the concatenation, the element at the index, or the panic for an index outside or a wrong type. `?` returns errors from the function and passes other values on.", "quantifier": "for every expression, state and outside world", "why_tests_cant": "Side effects of operands in all positions.", "anchors": ["src/runtime/mod.rs: eval_literal, eval_expr, binop", "src/runtime/value/ops.rs"]}
{"id": "C56", "title": "An assignment changes exactly its target", "statement": "Reading a variable gives what was last stored in it. Assigning to a variable changes that variable only; assigning to an element changes that element of that array or dict only, after evaluating value, object and index in this order; an index outside the array panics and changes nothing.", "quantifier": "for every variable, object, index, value and state", "why_tests_cant": "All states and aliasing patterns.", "anchors": ["src/runtime/mod.rs: eval_statement (Assign), eval_assignment", "src/runtime/mem.rs: fetch, store"]}
{"id": "C57", "title": "Calls pass arguments and self to the function called", "statement": "A call evaluates the function, then the arguments in order, and then runs the body with each parameter holding its argument, self holding the object the function was taken from (nil otherwise), captured variables shared with where the function was made, and all other variables nil; the value is that of return or of the last statement. With a wrong number of arguments, or when the value called is not a function, nothing of the body runs and the call panics.", "quantifier": "for every function, argument list, state and outside world", "why_tests_cant": "All functions and frames.", "anchors": ["src/runtime/mod.rs: eval_expr (Call), call, eval_literal (Function)", "src/runtime/mem.rs: extend, store, place, capture"]}
{"id": "C58", "title": "A module runs once and every import gives its value", "statement": "std.import resolves the path against the importing file; when the module was loaded before its recorded value is given without reading or running anything; otherwise the file is read, analysed and run in variables of its own, with std as the only one set, and its value is recorded. A file that cannot be read, or has static errors, panics without running anything and is not recorded.", "quantifier": "for every module, file contents and state", "why_tests_cant": "All file contents and import orders.", "anchors": ["src/runtime/lib/import.rs", "src/runtime/mod.rs: eval"]}
{"id": "C59", "title": "catch runs the function once; bind only fixes self", "statement": "std.catch calls its function exactly once without arguments and self; a value is passed on, a panic becomes an error value holding its text, and the end of the process is not stopped. A function made by std.bind behaves as the original called with the same arguments on the given object. In both cases the arguments of the call are gone afterwards.", "quantifier": "for every function and state", "why_tests_cant": "All functions.", "anchors": ["src/runtime/lib/catch.rs", "src/runtime/lib/bind.rs", "src/runtime/mod.rs: call"]}
{"id": "C60", "title": "The text of a value is determined by its contents", "statement": "std.to_string gives strings unchanged; for every other value a text made from its contents only: nil, true, false, decimal integers, arrays as [ a, b ], dicts as @[ key: value ], strings inside quoted and escaped, errors with description and context, functions with the place they were written. No value has two texts, and every value that is not part of itself has one. The call changes nothing.", "quantifier": "for every value, heap and order of the hash map", "why_tests_cant": "All values, nestings and heaps.", "anchors": ["src/runtime/value/fmt.rs", "src/runtime/lib/to_string.rs"]}
{"id": "C61", "title": "print and println write the texts of their arguments", "statement": "std.print and std.println write the texts of all arguments in order, separated by tabs, strings and bytes as they are and other values as std.to_string gives them, println with a newline at the end; an output error panics. Nothing else is written or changed.", "quantifier": "for every list of arguments and outside world", "why_tests_cant": "All argument lists and failing outputs.", "anchors": ["src/runtime/lib/print.rs", "src/runtime/lib/println.rs"]}
{"id": "C62", "title": "JSON holds what the value holds, and the other way round", "statement": "std.json.encode gives the text of a tree with the contents of the value: integers and finite floats as numbers, other floats as null, bytes and strings as strings (bytes that are not UTF-8 replaced), dicts as objects; exactly the values that contain functions, errors or keys that are not strings are refused. std.json.decode gives new arrays and dicts with the contents of the text, the last of several entries of one key counting, leaves existing data unchanged, and gives an error value with the text for invalid JSON and for integers above the 64-bit range.", "quantifier": "for every value, heap and text", "why_tests_cant": "All values and texts.", "anchors": ["src/runtime/lib/json.rs"]}
{"id": "C63", "title": "Encoding and decoding JSON gives an equal copy", "statement": "A value of nil, booleans, 64-bit integers, finite floats, strings that are text, and arrays and dicts of these with distinct keys that are strings, when encoded and decoded again, gives a copy with the same contents which is == to the original, provided the JSON library reads the tree it has written.", "quantifier": "for every such value and heap", "why_tests_cant": "All values and nestings.", "anchors": ["src/runtime/lib/json.rs", "src/runtime/value/mod.rs"]}
{"id": "C64", "title": "Replacing invalid UTF-8 gives text and keeps text", "statement": "Where strings must be text (JSON), every maximal beginning of a character and every byte that cannot begin one is replaced by U+FFFD and everything else kept: the result is always valid UTF-8 and equals the input exactly when that is valid UTF-8.", "quantifier": "for every sequence of bytes", "why_tests_cant": "All byte sequences.", "anchors": ["src/runtime/lib/json.rs", "src/runtime/value/string.rs"]}
{"id": "C65", "title": "Wrong arguments are refused before anything happens", "statement": "Every function of std except catch and import, called with the wrong number of arguments, panics with the number supplied and the number expected; called with an argument of a wrong kind it panics; in both cases neither the data nor the outside world is touched. Called with the right number and kinds of arguments it does not complain about them (std.typecheck complains on purpose).", "quantifier": "for every function, argument list and state", "why_tests_cant": "All functions and argument lists.", "anchors": ["src/runtime/lib.rs", "src/runtime/lib/contains.rs", "src/runtime/lib/env.rs", "src/runtime/panic.rs"]}
{"id": "C66", "title": "The panic for a wrong argument names the first wrong argument", "statement": "If the number of arguments is right and some have a wrong kind, the panic is a type error that names the first such argument and the kind it should have.", "quantifier": "for every function and argument list", "why_tests_cant": "All functions and argument lists.", "anchors": ["src/runtime/lib/substr.rs", "src/runtime/lib/rand.rs", "src/runtime/lib/replace.rs"]}
{"id": "C67", "title": "Library functions change nothing but what they are for", "statement": "A call of a library function other than catch and import leaves all existing arrays, dicts, captured variables and iterators unchanged, except that push, pop and sort change the array they are given; only cd, export, print, println, the random number functions, read and sleep touch the outside world; a call that panics changes no data; only exit ends the process normally.", "quantifier": "for every function, argument list and state", "why_tests_cant": "All functions and heaps.", "anchors": ["src/runtime/lib.rs", "src/runtime/lib/push.rs", "src/runtime/lib/pop.rs", "src/runtime/lib/sort.rs"]}
{"id": "C68", "title": "len, is_empty and contains agree with the contents", "statement": "std.len gives the number of bytes, items or entries, std.is_empty is true exactly when that is zero. std.contains says true for an array exactly when the value == one of its items (items compared in order until one is equal), for a dict exactly when indexing it with that key does not panic, for a string exactly when the byte occurs in it.", "quantifier": "for every container and value", "why_tests_cant": "All containers and values.", "anchors": ["src/runtime/lib/length.rs", "src/runtime/lib/is_empty.rs", "src/runtime/lib/contains.rs"]}
{"id": "C69", "title": "Exported variables are what env reads", "statement": "std.export(name, value) sets the variable, so that std.env(name) gives the value and all other names are unaffected; names with = or NUL and values with NUL give an error value and set nothing; it never stops the process.", "quantifier": "for every name, value and environment", "why_tests_cant": "All names and values.", "anchors": ["src/runtime/lib/env.rs"]}
{"id": "C70", "title": "Conversions between integers and floats are exact where they can be", "statement": "std.int of a float is the float without its fraction, limited to the 64-bit range, and 0 for NaN; std.float of an integer of at most 53 bits is exactly that number, and converting back gives the integer.", "quantifier": "for every float and every integer of at most 53 bits", "why_tests_cant": "All 2^64 floats.", "anchors": ["src/runtime/lib/int.rs", "src/runtime/lib/float.rs"]}
{"id": "C71", "title": "A command block is made as it is written, or panics before anything is run", "statement": "Program, variables, arguments and redirections of every command of a block are those written, with each variable replaced by its text and each array by one argument per item. If a variable has no text, or an array stands where one argument is needed and does not have one item, the block panics saying so, nothing is started and no data is changed.", "quantifier": "for every command block, every value of its variables and every heap", "why_tests_cant": "All blocks and values.", "anchors": ["src/runtime/command/mod.rs", "src/runtime/command/arg.rs"]}
{"id": "C72", "title": "The panic for a wrong number of items says how many there are", "statement": "Where one argument is needed (program, environment variable, redirection) and the expansion gives another number of items, the panic reports that number.", "quantifier": "for every argument and every value of its variables", "why_tests_cant": "All arrays.", "anchors": ["src/runtime/command/mod.rs"]}
{"id": "C73", "title": "What is started is what was written, and nothing is started when preparing fails", "statement": "A command is started with its program, its environment variables and its arguments in order, each pattern replaced by the paths it matches (relative ones with a leading ./), and with its redirections. If the program pattern does not match exactly one path, or a pattern is invalid, or a redirection fails, there is a panic or error and no process is started.", "quantifier": "for every command, every operating system and state", "why_tests_cant": "All operating systems.", "anchors": ["src/runtime/command/exec/mod.rs"]}
{"id": "C74", "title": "The value of a capture block is what the commands wrote", "statement": "The value of a capture block in which nothing fails is a dict with stdout and stderr, the bytes read from the two capture pipes. If a command fails the value is the error, whose context is a dict with the same two entries and the original context as error.", "quantifier": "for every capture block, operating system and state", "why_tests_cant": "All operating systems.", "anchors": ["src/runtime/command/mod.rs"]}
{"id": "C75", "title": "Built-in commands do what they are for", "statement": "cd changes the directory to its one argument and panics with any other number; exec replaces the process by the program with its arguments, so that nothing after it runs; exec0 and spawn0 take the name shown to the program as second argument; spawn0 waits for the program and reports its failure; alias defines an alias. An operating system error is the error of the block.", "quantifier": "for every list of arguments, operating system and state", "why_tests_cant": "All argument lists.", "anchors": ["src/runtime/command/exec/mod.rs"]}
{"id": "C76", "title": "The status of a failed command is that of other shells", "statement": "The status in the error of a command is its exit code, 127 if it could not be waited for, and 128 + n if it was killed by signal n (the comment in the code says: according to Bash and Dash).", "quantifier": "for every way a command can end", "why_tests_cant": "All signals and codes.", "anchors": ["src/runtime/command/exec/mod.rs"]}
{"id": "C77", "title": "std.exit ends the process with its argument", "statement": "std.exit(n) ends the process at once with status n if 0 <= n < 256, having changed nothing, and panics with n otherwise.", "quantifier": "for every 64-bit integer and state", "why_tests_cant": "All integers.", "anchors": ["src/runtime/lib/exit.rs"]}
{"id": "C78", "title": "The report of static errors shows the errors in order, twenty at most, and how many more there are", "statement": "All errors found by the parser, and those of the lexer that it met, are reported in the order of the source text; each of the first twenty is one line beginning with Error, and if there are more a last line says how many were left out. The same holds for the errors of the semantic analysis.", "quantifier": "for every source text, every path and every list of errors", "why_tests_cant": "The number of errors and the interleaving of the lexer's and the parser's errors are unbounded.", "anchors": ["src/syntax/mod.rs", "src/syntax/error/fmt.rs", "src/semantic/error/fmt.rs", "src/main.rs"]}
{"id": "C79", "title": "Every static error is told with its place and on one line", "statement": "The message of a static error begins with the path, line and column of a place in the source text and contains no end of line.", "quantifier": "for every source text and every error reported for it", "why_tests_cant": "All texts and all errors, including those with control characters and those at the end.", "anchors": ["src/syntax/lexer/error/fmt.rs", "src/syntax/parser/error/fmt.rs", "src/semantic/error/fmt.rs"]}
{"id": "C80", "title": "Tokens are named in messages as they are written", "statement": "The text by which a token is named in an error message is the text of that token in the source, at the place given by the token.", "quantifier": "for every source text and every token of it", "why_tests_cant": "All texts of tokens.", "anchors": ["src/syntax/lexer/token/fmt.rs"]}
{"id": "C81", "title": "--lex lists every token and error in order", "statement": "With the option --lex all tokens and errors of the lexer are listed in the order of the source, each on its own entry with line and column, between two rules.", "quantifier": "for every source text", "why_tests_cant": "All texts.", "anchors": ["src/main.rs", "src/syntax/lexer/token/fmt.rs", "src/syntax/lexer/error/fmt.rs"]}
{"id": "C82", "title": "Regular expressions", "statement": "std.regex gives a dict with the methods match, split and replace for its pattern, or an error value that tells what is wrong with the pattern. The methods answer for their own pattern, change nothing, and refuse wrong arguments, naming the first.", "quantifier": "for all patterns, texts, arguments, heaps and behaviours of the regex engine", "why_tests_cant": "All patterns and texts.", "anchors": ["src/runtime/lib/regex.rs"]}
{"id": "C83", "title": "Error values and small functions", "statement": "An error value has the description and the context it was made with and no other fields. assert, bytes, cd, cwd, glob, panic, rand, read and sleep give what the operating system gives; failures are error values or panics as documented.", "quantifier": "for all arguments, heaps and behaviours of the operating system", "why_tests_cant": "All outcomes of the operating system.", "anchors": ["src/runtime/lib/error.rs", "src/runtime/lib/assert.rs", "src/runtime/lib/bytes.rs", "src/runtime/lib/cd.rs", "src/runtime/lib/cwd.rs", "src/runtime/lib/glob.rs", "src/runtime/lib/panic.rs", "src/runtime/lib/rand.rs", "src/runtime/lib/read.rs", "src/runtime/lib/sleep.rs"]}
{"id": "C84", "title": "Trimming", "statement": "std.trim removes all white space (in the sense of Unicode) at both ends of a text and nothing else, also if the text is not valid UTF-8.", "quantifier": "for every byte string", "why_tests_cant": "All byte strings, including invalid UTF-8.", "anchors": ["src/runtime/lib/trim.rs"]}
{"id": "C85", "title": "Operators refuse wrong operands", "statement": "An operator whose operand has the wrong type panics with that operand, the type it should have had and its place; the left operand is checked first. Operands of the right types are never refused.", "quantifier": "for all operators, operand expressions, values and states", "why_tests_cant": "All pairs of values and operators.", "anchors": ["src/runtime/mod.rs"]}
{"id": "C86", "title": "What the operators compute", "statement": "Comparisons follow the order of integers, bytes, floats (IEEE 754) and strings (lexicographic); ++ joins strings; + - * / on floats are those of IEEE 754; the remainder of floats is exact with the sign of the dividend; - and not give the opposite.", "quantifier": "for all operand expressions, values and states", "why_tests_cant": "All pairs of values.", "anchors": ["src/runtime/mod.rs", "src/runtime/value/float.rs"]}
{"id": "C87", "title": "The reason of an arithmetic panic", "statement": "If the result of + - * / or % on integers does not fit into 64 bits the panic says overflow; if the divisor is zero it says division by zero; both with the place of the operator.", "quantifier": "for all operators and integers", "why_tests_cant": "All pairs of integers.", "anchors": ["src/runtime/mod.rs"]}
{"id": "C88", "title": "The printed syntax tree can be read again", "statement": "The text that hush --ast prints for a program is, after its first line, itself a program: it is read without errors and gives the same tree apart from places.", "quantifier": "for every syntax tree", "why_tests_cant": "All trees, of any size and depth.", "anchors": ["src/syntax/ast/fmt.rs", "src/fmt.rs"]}
{"id": "C89", "title": "Every library function is found under its name", "statement": "Whatever the order in which the functions of the standard library are registered, building the library never panics and gives a dict in which each function is found along the parts of its name (std.hex.decode under hex, then decode), each name once, and nothing besides. A program starts with this library; looking up a function's name in it gives the function, and any other name is an index panic.", "quantifier": "for every order of registration, every function and every name", "why_tests_cant": "The order of registration is decided by the linker; tests see one of 47! orders.", "anchors": ["src/runtime/lib.rs"]}
{"id": "C90", "title": "std.int takes exactly the texts that spell a 64-bit integer", "statement": "std.int of a string is the integer z exactly when the string is an optional sign followed by at least one decimal digit, spells z, and z fits 64 bits. Every other string is a value error that shows it.", "quantifier": "for every string", "why_tests_cant": "Infinitely many strings, almost all of which must be refused.", "anchors": ["src/runtime/lib/int.rs"]}
{"id": "C91", "title": "An error of the lexer describes the text at the place it names", "statement": "Whatever the source, the place of a lexical error is where the thing it is about stands: the end of the text for an unexpected end, the very byte for an unexpected byte, the two quotes for an empty byte literal, the backslash for an invalid escape sequence, the first digit for an invalid number, the dollar sign for an invalid name. The error shows exactly these bytes, and they are at fault: no escape of any table, a number above 64 bits, no identifier.", "quantifier": "for every source text and every error reported for it", "why_tests_cant": "Malformed texts are without number and tests try a handful of them, one error at a time.", "anchors": ["src/syntax/lexer/automata/mod.rs", "src/syntax/lexer/automata/number.rs", "src/syntax/lexer/automata/string.rs", "src/syntax/lexer/automata/argument.rs", "src/syntax/lexer/cursor.rs"]}
{"id": "C92", "title": "A program never makes the interpreter itself fail", "statement": "A program that passes the analysis ends with a value, with a reported panic or with std.exit, or does not end; the interpreter itself never fails by a broken borrow, an index out of bounds, a todo!() or unreachable!(), or a panicking library call.", "quantifier": "for every accepted program, its arguments, the files it imports, the answers of the operating system and every number of steps", "why_tests_cant": "Each kind of failure needs a particular value at a particular place, e.g. a dict used as a key of itself; tests show failures that someone thought of and cannot show that there is no other kind.", "anchors": ["src/runtime/mod.rs", "src/runtime/value/dict.rs", "src/runtime/value/array.rs", "src/runtime/lib/rand.rs", "src/runtime/lib/env.rs", "src/runtime/lib/sort.rs", "src/runtime/lib/import.rs", "src/runtime/command/exec/mod.rs"]}
{"id": "C93", "title": "Programs printed alike are alike", "statement": "The text that --program prints tells programs apart: if two analysed programs are printed the same, they are the same but for the places in the source, down to every slot, captured variable, operator, argument and redirection.", "quantifier": "for every two programs, whatever their size, nesting and indentation", "why_tests_cant": "Two programs that are printed alike look right each on its own; a test would have to compare the right pair.", "anchors": ["src/semantic/program/fmt.rs", "src/semantic/program/mem/fmt.rs", "src/fmt.rs"]}
{"id": "C94", "title": "A printed command has a question mark exactly if the written one has", "statement": "In the text that --program prints, a command ends with a question mark exactly if it is written with one, that is, if its failure does not end the block.", "quantifier": "for every command, with whatever arguments and redirections", "why_tests_cant": "A printed program is rarely compared with its source, and both forms are valid commands.", "anchors": ["src/semantic/program/fmt.rs", "src/semantic/mod.rs"]}
{"id": "C95", "title": "Functions written at different places are different", "statement": "No two functions of an accepted program stand at the same place. Closures are equal exactly if they come from the same place of the same loaded file and hold equal values; so equal closures come from the same function expression.", "quantifier": "for every accepted source, every two function expressions in it, however nested, and every two closures made of them", "why_tests_cant": "That places are unique is taken for granted in comments of the code and depends on every step from the lexer to the analyser; tests have no list of all functions to compare.", "anchors": ["src/runtime/value/function.rs", "src/syntax/lexer/mod.rs", "src/syntax/parser/mod.rs", "src/semantic/mod.rs"]}
{"id": "C96", "title": "Functions of which neither comes first are equal", "statement": "The order that std.sort uses for functions follows the text of the program: a closure comes before another exactly if its expression comes first in the text, closures come before the functions of the library, and if neither of two functions comes first they are equal.", "quantifier": "for every accepted source, every two function expressions in it and every two closures made of them", "why_tests_cant": "The order is only seen by sorting functions; closures that hold different values are rarely compared.", "anchors": ["src/runtime/value/function.rs"]}
{"id": "C97", "title": "The analyser reports exactly what is wrong with a program", "statement": "For a program without syntax errors, the semantic errors are exactly its faults, each once, of the right kind, with the right name and place, in the order of the text: undeclared and repeated variables, self, return and ? outside functions, break outside loops, assignments to what is not a variable or an element, builtins in pipelines, with redirections or in asynchronous blocks.", "quantifier": "for every source without syntax errors, however deep its functions, blocks and dicts", "why_tests_cant": "Tests check single errors in short programs; the order and completeness of many errors, and faults hidden by other faults, are not seen.", "anchors": ["src/semantic/mod.rs", "src/semantic/scope.rs", "src/semantic/error/mod.rs"]}
{"id": "C98", "title": "Names of variables and layout do not matter", "statement": "Renaming the variables of a program, different ones to different ones, and moving its tokens changes nothing about the program the analyser makes but the places in it, and nothing about the errors but their places and the names of variables in them. Field names and keys are not variables.", "quantifier": "for every source without syntax errors, every injective renaming of variables that keeps std, and every way to move tokens", "why_tests_cant": "The analyser keeps captured variables in the same tables under made-up names; a clash shows only for special names, and tests do not vary names.", "anchors": ["src/semantic/mod.rs", "src/semantic/scope.rs"]}
{"id": "C99", "title": "A program that is given nothing can do nothing", "statement": "A program that mentions neither std nor a command block never exits, leaves the world as it was, and comes to the same value or panic in every other world, with other command line arguments and other libraries, as long as floats are read alike and the stack has the same limit.", "quantifier": "for every accepted source that does not mention std and has no command block, every two worlds, libraries, argument lists, and every number of steps", "why_tests_cant": "It speaks about the absence of effects and about pairs of runs, in all worlds; the library is an ordinary dict in slot 0, and one slip in the slots of captures or frames would hand it out.", "anchors": ["src/runtime/mod.rs", "src/runtime/mem.rs", "src/semantic/mod.rs", "src/semantic/scope.rs", "src/runtime/lib.rs"]}
{"id": "C100", "title": "The first syntax error is where hope ends", "statement": "The first syntax error of a source names a token such that the tokens before it begin some well-formed program, while no well-formed program begins with them, that token and the next one; and with any other text behind these two tokens the first error is the same. If the first error is that the file ends, the file begins some well-formed program.", "quantifier": "for every source and every continuation", "why_tests_cant": "It needs the comparison with all endings of a text; a parser that complains late, or looks further ahead than it needs to, still rejects every bad test.", "anchors": ["src/syntax/parser/mod.rs", "src/syntax/parser/command.rs", "src/syntax/parser/sync.rs", "src/syntax/mod.rs"]}
{"id": "C101", "title": "A mistake in one statement costs that statement only", "statement": "A source in which some statements have one mistake each gives one syntax error for each of them, about the first token out of place, and a tree with all the other statements.", "quantifier": "for every source, every number of faulty statements and every junk in them", "why_tests_cant": "The errors and the tree have to be compared for all ways of being wrong; tests check that bad programs are rejected, not what is left of them.", "anchors": ["src/syntax/parser/mod.rs", "src/syntax/parser/command.rs", "src/syntax/parser/sync.rs"]}
{"id": "C102", "title": "Equal values are hashed alike", "statement": "Two values give the same sequence to the hasher of a dict exactly if == says that they are equal.", "quantifier": "for every pair of values and every heap", "why_tests_cant": "The contract between == and hashing is about all pairs of values of all shapes; a violation shows only when such a value is used as a key.", "anchors": ["src/runtime/value/mod.rs: derive(Hash)", "src/runtime/value/float.rs: Hash, PartialEq", "src/runtime/value/dict.rs: Hash", "src/runtime/value/array.rs: Hash", "src/runtime/value/error.rs: Hash", "src/runtime/value/string.rs"]}
{"id": "C103", "title": "A dict finds what is stored under an equal key", "statement": "Whatever the hash function is, however the table is probed and whenever it grows, looking up a key gives the value last stored under a key equal to it, or nothing if there is no such key, and equal keys share one entry.", "quantifier": "for every hash function, every order of probing, every history of insertions and growths, and every heap", "why_tests_cant": "The hash function is seeded at random and collisions are rare; a table that fails on them passes all tests.", "anchors": ["src/runtime/value/dict.rs: insert, get, contains, len", "src/runtime/value/mod.rs: derive(Hash)"]}
{"id": "C104", "title": "A symbol stands for one name", "statement": "Each symbol resolves to the name it was made for, then and later; two symbols are the same exactly if the names are; no name is taken for the dummy symbol, and each is shown as it is. There is a symbol for every name of a run with fewer than 2^32 different names.", "quantifier": "for every sequence of interned names, of any length and with any repetitions", "why_tests_cant": "A mixed-up symbol shows only for particular orders of first occurrence over all files of a run, and the limit is out of reach of tests.", "anchors": ["src/symbol/mod.rs: Interner", "src/symbol/fmt.rs", "src/syntax/lexer/automata/word.rs: to_token", "src/main.rs", "src/runtime/lib/import.rs"]}
{"id": "C105", "title": "A panic names a place of the program", "statement": "When a program ends with a panic, the place the panic names, and which its message begins with, is a place of the script or of an imported file without errors: the line and column of the first byte of a token, or of the dollar of a variable inside of an argument. The only other panic is that of a file without room for its own variables, which names the file.", "quantifier": "for every error-free source, every world and library, every number of steps; panics that come out of asynchronous blocks are assumed to name such places", "why_tests_cant": "Places travel from the lexer through tree, program, closures, modules and commands to the message; tests look at the kind of a panic, not at its place, and cannot try every way to get there.", "anchors": ["src/runtime/panic.rs", "src/runtime/mod.rs", "src/runtime/lib/import.rs: import", "src/runtime/command/arg.rs", "src/runtime/command/exec/mod.rs", "src/runtime/source.rs", "src/semantic/mod.rs", "src/syntax/lexer/automata/argument.rs: Dollar"]}
{"id": "C106", "title": "Every process that a block starts is waited for once", "statement": "When a command block ends, by its end, an error or a panic, every process that it started has been waited for exactly once, and none before it was started.", "quantifier": "for every block, every operating system and every way of ending", "why_tests_cant": "The ways in which starting can fail part of the way through a pipeline, times all lengths of pipelines and blocks, cannot be enumerated; a process left over is not seen in the output.", "anchors": ["src/runtime/command/exec/mod.rs: Command::exec", "src/runtime/command/exec/mod.rs: Block::exec", "src/runtime/command/exec/mod.rs: ErrorStatus::wait_child"]}
{"id": "C107", "title": "The world changes only through the requests of the library and the commands", "statement": "Whatever a program is and however it ends, the state of the outside world at its end is reached from the state at its beginning by a chain of requests, each made in the state the one before it left: changing directory, setting variables, writing, reading, sleeping, random numbers, joining, opening files, pipes, starting and waiting for processes, captured output and threads. Nothing is lost, undone or done twice by the interpreter itself, so what no request undoes, no program undoes.", "quantifier": "all programs, arguments, worlds and all answers of the world, all ways a run ends, any number of steps", "why_tests_cant": "a test sees the effects it looks for in one run; a stale copy of the world taken back after a panic, a catch or a call would show only in the right order of events", "anchors": ["src/runtime/mod.rs: Runtime::eval_expr", "src/runtime/mod.rs: Runtime::call", "src/runtime/lib/catch.rs", "src/runtime/command/mod.rs"]}
{"id": "C108", "title": "Joining an asynchronous block gives what the block gives alone", "statement": "An asynchronous command block gives a dict with the function join. When join is called for the first time, whatever the program did in between, it gives the errors or the panic the same commands give when they run alone, in the state of the world in which the thread ran. Started and joined at once, the block is the same as the block that is waited for.", "quantifier": "all blocks without built-in commands, all programs between start and join, all worlds, any number of threads, each running when it is started or when it is joined", "why_tests_cant": "tests of threads see one schedule; that results of two threads are not confused, and that nothing done in between changes what join gives, needs all programs in between", "anchors": ["src/runtime/command/mod.rs: CommandBlockKind::Asynchronous", "src/runtime/command/exec/join.rs: Join", "src/runtime/command/exec/mod.rs: Block::exec"]}
{"id": "C109", "title": "What a program does not reach does not matter to it", "statement": "Objects that cannot be come to from the library, the arguments, the variables, the arguments of calls and the modules are garbage: whatever they hold, statements, expressions, calls and programs end in the same way, with the same value or panic and the same effects in the world, and with the same objects in what is reached. What is garbage is not changed and is not found again. A collector that takes garbage away between statements is not seen.", "quantifier": "all statements, expressions, calls and programs, all states and contents of the garbage, cyclic or not, all ways an evaluation ends, any number of steps", "why_tests_cant": "when a collector runs depends on the allocations; a test meets one moment, and use of a collected object shows only when the memory is used again", "anchors": ["src/runtime/mem.rs", "src/runtime/mod.rs: Runtime", "src/runtime/value/function.rs", "src/runtime/value/array.rs", "src/runtime/value/dict.rs"]}
{"id": "C110", "title": "A call has to do with what it is given only", "statement": "A call leaves the variables on the stack as they were and changes no object except those that are reached from the function, its self, its arguments, the library, the arguments of the script and the modules; its result leads to no other object of before. What it does depends on nothing else either: with any other variables on the stack and any other values in all other objects it ends in the same way, with the same result and the same effects.", "quantifier": "all functions, Hush or library, all arguments and states of analysed programs, all contents of the variables and objects of the caller, all ways a call ends without a module having been left by a panic, any number of steps", "why_tests_cant": "a slot of the caller overwritten, or read, by one function that it calls is a bug that shows only for one layout of the stack", "anchors": ["src/runtime/mod.rs: Runtime", "src/runtime/mem.rs", "src/runtime/value/function.rs", "src/runtime/value/mod.rs"]}
{"id": "C111", "title": "Code without calls and open loops ends", "statement": "Statements, expressions, function bodies and programs without loops and calls come to an end after a number of steps that is bounded by their depth alone, in every state, also when values contain themselves. Functions may be made and commands run. Of two compared values one, and every key and index, has to be a literal, a field name or the result of an operator. A for loop over an array, a string, a dict or a range of integers that does not overflow whose body is such code ends as well, whatever the body assigns.", "quantifier": "all such code of any size and depth, all states, worlds and behaviours of the libraries and the system, all amounts of steps from the depth on", "why_tests_cant": "an evaluation that goes on forever on some state, such as one with a cyclic value, is not distinguished from a slow one by a test, and only the states of the tests are tried", "anchors": ["src/runtime/mod.rs: Runtime", "src/runtime/value/mod.rs", "src/runtime/value/dict.rs", "src/runtime/command/mod.rs"]}
