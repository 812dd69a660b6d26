(** Model of the texts of static errors and of lexemes: src/syntax/error/fmt.rs,
    src/syntax/lexer/error/fmt.rs, src/syntax/parser/error/fmt.rs, src/semantic/error/fmt.rs and
    src/syntax/lexer/token/fmt.rs. *)
From Coq Require Import Strings.String.
From Verif Require Import Base Lexer Ast Parser Program Sema Value Text StdLib Json.

Section Report.
Context {W : Type}.
Variable X : ext W.
(** [Display for f64], of the number written as the given literal *)
Variable float_display : bytes -> bytes.

(** term/color.rs 86-123 and [termion]: blue, and bold *)
Definition blue : bytes -> bytes := paint X (bs "4").
(** term/color.rs 103-123 *)
Definition bold (text : bytes) : bytes :=
  if x_tty X then x1b :: bs "[1m" ++ text ++ x1b :: bs "[m" else text.

(** ** Tokens: lexer/token/fmt.rs *)

(** fmt.rs 21-45 *)
Definition keyword_text (k : keyword) : bytes :=
  blue (bs match k with
           | KLet => "let" | KIf => "if" | KThen => "then" | KElse => "else" | KElseIf => "elseif"
           | KEnd => "end" | KFor => "for" | KIn => "in" | KDo => "do" | KWhile => "while"
           | KFunction => "function" | KReturn => "return" | KBreak => "break" | KSelf => "self"
           end).

(** fmt.rs 48-64 *)
Definition literal_text (l : literal) : bytes :=
  match l with
  | LNil => blue (bs "nil")
  | LTrue => blue (bs "true")
  | LFalse => blue (bs "false")
  | LInt z => int_text z
  | LFloat t => float_display t
  | LByte c => bs "'" ++ bold (x_escape X (char_text c)) ++ bs "'"
  | LString s => [x22] ++ bold (x_escape X s) ++ [x22]
  end.

(** fmt.rs 67-90 *)
Definition operator_text (o : operator) : bytes :=
  match o with
  | OPlus => yellow X (bs "+") | OMinus => yellow X (bs "-") | OTimes => yellow X (bs "*")
  | ODiv => yellow X (bs "/") | OMod => yellow X (bs "%") | OEquals => yellow X (bs "==")
  | ONotEquals => yellow X (bs "!=") | OGreater => yellow X (bs ">")
  | OGreaterEquals => yellow X (bs ">=") | OLower => yellow X (bs "<")
  | OLowerEquals => yellow X (bs "<=") | ONot => blue (bs "not") | OAnd => blue (bs "and")
  | OOr => blue (bs "or") | OConcat => yellow X (bs "++") | ODot => yellow X (bs ".")
  | OAssign => bs "=" | OTry => yellow X (bs "?")
  end.

(** fmt.rs 93-106.  The doubled braces are in the code; they are not part of a format string. *)
Definition arg_unit_text (u : arg_unit) : bytes :=
  match u with
  | AULiteral s => x_escape X s
  | AUDollar s _ => bs "${{" ++ symbol_text X s ++ bs "}}"
  end.

(** fmt.rs 109-151, without the expansions that the lexer does not make *)
Definition arg_expansion_text (e : arg_expansion) : bytes :=
  match e with
  | EHome => yellow X (bs "~/")
  | EStar => yellow X (bs "*")
  | EPercent => yellow X (bs "%")
  end.

(** fmt.rs 154-174 *)
Definition arg_part_text (p : arg_part) : bytes :=
  match p with
  | PUnquoted u => arg_unit_text u
  | PSingleQuoted s => bs "'" ++ x_escape X s ++ bs "'"
  | PDoubleQuoted us => [x22] ++ concat (map arg_unit_text us) ++ [x22]
  | PExpansion e => arg_expansion_text e
  | PEnvAssign => yellow X (bs "=")
  end.

(** fmt.rs 177-192 *)
Definition command_operator_text (o : command_operator) : bytes :=
  yellow X (bs match o with
               | COutput true => ">>" | COutput false => ">"
               | CInput true => "<<" | CInput false => "<"
               | CTry => "?"
               end).

(** fmt.rs 195-226 *)
Definition token_kind_text (k : token_kind) : bytes :=
  match k with
  | TIdentifier s => symbol_text X s
  | TKeyword k => keyword_text k
  | TOperator o => operator_text o
  | TLiteral l => literal_text l
  | TColon => bs ":" | TComma => bs "," | TOpenParens => bs "(" | TCloseParens => bs ")"
  | TOpenBracket => bs "[" | TOpenDict => bs "@[" | TCloseBracket => bs "]"
  | TCommand => bs "{" | TCaptureCommand => bs "${" | TAsyncCommand => bs "&{"
  | TCloseCommand => bs "}"
  | TArgument parts => concat (map arg_part_text parts)
  | TCmdOperator o => command_operator_text o
  | TSemicolon => bs ";"
  | TPipe => yellow X (bs "|")
  end.

(** The positions of the model have no path; all those of one source have the same. *)
Variable path : bytes.
(** syntax/source.rs 59-71 in the texts of errors *)
Definition place (p : pos) : bytes := spos_text X (mkspos path p).

(** ** Errors *)

(** lexer/error/fmt.rs 8-36 *)
Definition lex_error_kind_text (k : lex_error_kind) : bytes :=
  match k with
  | UnexpectedEof => bs "unexpected end of file"
  | Unexpected c => bs "unexpected '" ++ x_escape X (char_text c) ++ bs "'"
  | EmptyByteLiteral => bs "empty char literal"
  | InvalidEscapeSequence s => bs "invalid escape sequence '" ++ lossy s ++ bs "'"
  | InvalidNumber s => bs "invalid number '" ++ lossy s ++ bs "'"
  | InvalidIdentifier s => bs "invalid identifier '" ++ lossy s ++ bs "'"
  end.

(** lexer/error/fmt.rs 39-45 *)
Definition lex_error_text (e : lex_error) : bytes :=
  place (le_pos e) ++ bs " - " ++ lex_error_kind_text (le_kind e) ++ bs ".".

(** lexer/error/fmt.rs 48-52: without a context *)
Definition lex_error_plain (e : lex_error) : bytes :=
  bs "line " ++ digits_of (line (le_pos e)) ++ bs ", column " ++ digits_of (column (le_pos e))
    ++ bs " - " ++ lex_error_kind_text (le_kind e) ++ bs ".".

(** parser/error/fmt.rs 10-24 *)
Definition expected_text (e : expected) : bytes :=
  match e with
  | ExpTok k => bs "'" ++ token_kind_text k ++ bs "'"
  | ExpMsg m => m
  end.

(** parser/error/fmt.rs 27-48 *)
Definition perror_text (e : perror) : bytes :=
  match e with
  | PInvalidEnvAssign => bs "internal error: invalid env-assign"
  | PUnexpectedEof => bs "unexpected end of file"
  | PUnexpected t e =>
      place (tk_pos t) ++ bs " - unexpected '" ++ token_kind_text (tk_kind t) ++ bs "', expected "
        ++ expected_text e
  | PEmptyCommandBlock p => place p ++ bs " - empty command block"
  end.

(** syntax/error/fmt.rs 9-18 *)
Definition syntax_error_text (e : syntax_error) : bytes :=
  match e with SynLexer e => lex_error_text e | SynParser e => perror_text e end.

(** semantic/error/fmt.rs 21-57 *)
Definition serror_kind_text (k : serror_kind) : bytes :=
  match k with
  | UndeclaredVariable s => bs "undeclared variable '" ++ symbol_text X s ++ bs "'"
  | DuplicateVariable s => bs "duplicate variable '" ++ symbol_text X s ++ bs "'"
  | DuplicateKey s => bs "duplicate key '" ++ symbol_text X s ++ bs "'"
  | ReturnOutsideFunction => bs "return statement outside function"
  | SelfOutsideFunction => bs "self keyword outside function"
  | TryOutsideFunction => bs "try operator outside function"
  | BreakOutsideLoop => bs "break statement outside loop"
  | InvalidAssignment => bs "invalid assignment"
  | AsyncBuiltin => bs "use of built-in command in async context"
  end.

(** semantic/error/fmt.rs 60-67 *)
Definition serror_text (e : serror) : bytes :=
  red X (bs "Error") ++ bs ": " ++ place (se_pos e) ++ bs " - " ++ serror_kind_text (se_kind e).

(** The loops of syntax/error/fmt.rs 29-57 and semantic/error/fmt.rs 78-101, from the error with
    number [ix]: each error makes a line until [max] are reached. *)
Fixpoint errors_text {E} (line : E -> bytes) (more : bytes) (max ix : nat) (es : list E) : bytes :=
  match es with
  | [] => []
  | e :: es =>
      if max <=? ix
      then red X (digits_of (N.of_nat max)) ++ bs " " ++ red X more ++ [x0a]
      else line e ++ [x0a] ++ errors_text line more max (S ix) es
  end.

(** The reports made in main.rs 88-96 and 132-140 *)
Definition syntax_report (es : list syntax_error) : bytes :=
  errors_text (fun e => red X (bs "Error") ++ bs ": " ++ syntax_error_text e)
    (bs "more supressed syntax errors") 20 0 es.
(** main.rs 132-140 *)
Definition semantic_report (es : list serror) : bytes :=
  errors_text serror_text (bs "more supressed semantic errors") 20 0 es.

(** ** The lexemes shown on request: main.rs 109-123 and token/fmt.rs 229-236 *)
Definition rule : bytes := yellow X (bs "--------------------------------------------------") ++ [x0a].
(** token/fmt.rs 229-236 *)
Definition lexeme_text (o : output) : bytes :=
  match o with
  | OkTok t => place (tk_pos t) ++ bs ":" ++ [x09] ++ token_kind_text (tk_kind t) ++ [x0a]
  | ErrTok e => red X (bs "Error") ++ bs ": " ++ lex_error_plain e ++ [x0a]
  end.
(** main.rs 109-123 *)
Definition lexemes_text (os : list output) : bytes :=
  rule ++ concat (map lexeme_text os) ++ rule.
End Report.
