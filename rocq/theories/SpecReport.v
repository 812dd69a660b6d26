(** Specifications for the texts of static errors and of lexemes. *)
From Coq Require Import Strings.String.
From Verif Require Import Base Lexer Ast Parser Program Sema Value Text StdLib SpecLexer SpecText SpecJson SpecShow.

(** ** Errors in the order of their reports *)
Definition lexer_errors (es : list syntax_error) : list lex_error :=
  flat_map (fun e => match e with SynLexer e => [e] | SynParser _ => [] end) es.
Definition parser_errors (es : list syntax_error) : list perror :=
  flat_map (fun e => match e with SynParser e => [e] | SynLexer _ => [] end) es.

(** The error is about one of these tokens, if it is not about the end of the file. *)
Definition about (ts : list token) (e : perror) : Prop :=
  match e with
  | PUnexpected t _ => In t ts
  | PEmptyCommandBlock p => In (mktoken TCloseCommand p) ts
  | PUnexpectedEof => True
  | PInvalidEnvAssign => False
  end.

(** The token an error is about *)
Definition subject (e : perror) : option token :=
  match e with
  | PUnexpected t _ => Some t
  | PEmptyCommandBlock p => Some (mktoken TCloseCommand p)
  | PUnexpectedEof | PInvalidEnvAssign => None
  end.

(** The errors among what the lexer gives *)
Definition failures (os : list output) : list lex_error :=
  flat_map (fun o => match o with ErrTok e => [e] | OkTok _ => [] end) os.

(** The errors are in the order of the source: an error about a token comes after the errors of the
    lexer before that token, and before those beyond the next token. *)
Definition in_source_order (os : list output) (es : list syntax_error) : Prop :=
  forall es1 e es2 t, es = es1 ++ SynParser e :: es2 -> subject e = Some t ->
  exists os1 gap os2, os = os1 ++ OkTok t :: gap ++ os2 /\ lexer_errors es1 = failures (os1 ++ gap) /\
    length (tokens_of gap) <= 1.

Section Report.
Context {W : Type}.
Variable X : ext W.
Variable float_display : bytes -> bytes.

(** The fixed texts of tokens are in one colour; an equals sign and punctuation are not coloured. *)
Definition color_of (k : token_kind) : option bytes :=
  match k with
  | TKeyword _ | TOperator (ONot | OAnd | OOr) | TLiteral (LNil | LTrue | LFalse) => Some (bs "4")
  | TOperator OAssign => None
  | TOperator _ | TCmdOperator _ | TPipe => Some (bs "3")
  | _ => None
  end.
Inductive emphasized (t : bytes) : bytes -> Prop :=
| em_plain : x_tty X = false -> emphasized t t
| em_bold : x_tty X = true -> emphasized t ([x1b] ++ bs "[1m" ++ t ++ [x1b] ++ bs "[m").

Inductive unit_named : arg_unit -> bytes -> Prop :=
| un_literal s : unit_named (AULiteral s) (x_escape X s)
| un_dollar s p t : tinted X (bs "2") (x_escape X s) t -> unit_named (AUDollar s p) (bs "${{" ++ t ++ bs "}}").
Inductive part_named : arg_part -> bytes -> Prop :=
| pn_unquoted u t : unit_named u t -> part_named (PUnquoted u) t
| pn_single s : part_named (PSingleQuoted s) (bs "'" ++ x_escape X s ++ bs "'")
| pn_double us ts : Forall2 unit_named us ts -> part_named (PDoubleQuoted us) ([QUOTE] ++ concat ts ++ [QUOTE])
| pn_home t : tinted X (bs "3") (bs "~/") t -> part_named (PExpansion EHome) t
| pn_star t : tinted X (bs "3") (bs "*") t -> part_named (PExpansion EStar) t
| pn_percent t : tinted X (bs "3") (bs "%") t -> part_named (PExpansion EPercent) t
| pn_assign t : tinted X (bs "3") (bs "=") t -> part_named PEnvAssign t.

(** How a token is named in messages *)
Inductive named : token_kind -> bytes -> Prop :=
| na_fixed k w : In (w, k) fixed_texts -> color_of k = None -> named k w
| na_color k w c t : In (w, k) fixed_texts -> color_of k = Some c -> tinted X c w t -> named k t
| na_identifier s t : tinted X (bs "2") (x_escape X s) t -> named (TIdentifier s) t
| na_int z t : integer z t -> named (TLiteral (LInt z)) t
| na_float w : named (TLiteral (LFloat w)) (float_display w)
| na_byte c t : emphasized (x_escape X (utf8 (Byte.to_N c))) t -> named (TLiteral (LByte c)) (bs "'" ++ t ++ bs "'")
| na_string s t : emphasized (x_escape X s) t -> named (TLiteral (LString s)) ([QUOTE] ++ t ++ [QUOTE])
| na_argument ps ts : Forall2 part_named ps ts -> named (TArgument ps) (concat ts).

Variable path : bytes.

(** What is said about an error of the lexer; of the source only a single character is escaped. *)
Definition lexer_complaint (k : lex_error_kind) (t : bytes) : Prop :=
  match k with
  | UnexpectedEof => t = bs "unexpected end of file"
  | Unexpected c => t = bs "unexpected '" ++ x_escape X (utf8 (Byte.to_N c)) ++ bs "'"
  | EmptyByteLiteral => t = bs "empty char literal"
  | InvalidEscapeSequence s => exists s', repaired s s' /\ t = bs "invalid escape sequence '" ++ s' ++ bs "'"
  | InvalidNumber s => exists s', repaired s s' /\ t = bs "invalid number '" ++ s' ++ bs "'"
  | InvalidIdentifier s => exists s', repaired s s' /\ t = bs "invalid identifier '" ++ s' ++ bs "'"
  end.

Definition wanted (e : expected) (t : bytes) : Prop :=
  match e with
  | ExpTok k => exists u, named k u /\ t = bs "'" ++ u ++ bs "'"
  | ExpMsg m => t = m
  end.

(** A line of the report of syntax errors, after [Error: ] *)
Inductive syntax_complaint : syntax_error -> bytes -> Prop :=
| sy_lexer k p q t : placed X (mkspos path p) q -> lexer_complaint k t ->
    syntax_complaint (SynLexer (mkerror k p)) (q ++ bs " - " ++ t ++ bs ".")
| sy_unexpected k p e q t u : placed X (mkspos path p) q -> named k t -> wanted e u ->
    syntax_complaint (SynParser (PUnexpected (mktoken k p) e)) (q ++ bs " - unexpected '" ++ t ++ bs "', expected " ++ u)
| sy_block p q : placed X (mkspos path p) q ->
    syntax_complaint (SynParser (PEmptyCommandBlock p)) (q ++ bs " - empty command block")
| sy_eof : syntax_complaint (SynParser PUnexpectedEof) (bs "unexpected end of file").

Inductive semantic_message : serror_kind -> bytes -> Prop :=
| sm_undeclared s t : tinted X (bs "2") (x_escape X s) t ->
    semantic_message (UndeclaredVariable s) (bs "undeclared variable '" ++ t ++ bs "'")
| sm_duplicate s t : tinted X (bs "2") (x_escape X s) t ->
    semantic_message (DuplicateVariable s) (bs "duplicate variable '" ++ t ++ bs "'")
| sm_key s t : tinted X (bs "2") (x_escape X s) t ->
    semantic_message (DuplicateKey s) (bs "duplicate key '" ++ t ++ bs "'")
| sm_return : semantic_message ReturnOutsideFunction (bs "return statement outside function")
| sm_self : semantic_message SelfOutsideFunction (bs "self keyword outside function")
| sm_try : semantic_message TryOutsideFunction (bs "try operator outside function")
| sm_break : semantic_message BreakOutsideLoop (bs "break statement outside loop")
| sm_assign : semantic_message InvalidAssignment (bs "invalid assignment")
| sm_async : semantic_message AsyncBuiltin (bs "use of built-in command in async context").
Definition semantic_complaint (e : serror) (t : bytes) : Prop :=
  exists q u, placed X (mkspos path (se_pos e)) q /\ semantic_message (se_kind e) u /\ t = q ++ bs " - " ++ u.

(** ** The report *)
Definition line_of {E} (complaint : E -> bytes -> Prop) (e : E) (l : bytes) : Prop :=
  exists head t, tinted X (bs "1") (bs "Error") head /\ complaint e t /\ l = head ++ bs ": " ++ t ++ [NL].

(** The last line, which says that [k] more errors are not shown *)
Definition rest_line (what : bytes) (k : nat) (l : bytes) : Prop :=
  exists m a b, numeral (N.of_nat k) m /\ tinted X (bs "1") m a /\ tinted X (bs "1") what b /\ l = a ++ bs " " ++ b ++ [NL].

(** The report of the errors: a line for each of the first twenty, and if there are more, a line
    with their number. *)
Definition report_of {E} (complaint : E -> bytes -> Prop) (what : bytes) (es : list E) (text : bytes) : Prop :=
  exists lines last, Forall2 (line_of complaint) (firstn 20 es) lines /\ text = concat lines ++ last /\
    if length es <=? 20 then last = [] else rest_line what (length es - 20) last.

(** ** Lexemes *)
Definition lexeme_line (o : output) (l : bytes) : Prop :=
  match o with
  | OkTok t => exists q u, placed X (mkspos path (tk_pos t)) q /\ named (tk_kind t) u /\ l = q ++ bs ":" ++ [x09] ++ u ++ [NL]
  | ErrTok e => exists head a b t, tinted X (bs "1") (bs "Error") head /\ numeral (line (le_pos e)) a /\
      numeral (column (le_pos e)) b /\ lexer_complaint (le_kind e) t /\
      l = head ++ bs ": line " ++ a ++ bs ", column " ++ b ++ bs " - " ++ t ++ bs "." ++ [NL]
  end.
End Report.

(** Whether the text ends one line and holds no other end of a line *)
Definition one_line (t : bytes) : Prop := exists u, t = u ++ [NL] /\ ~ In NL u.

(** Tokens which are written in one way only, apart from leading zeros of numbers *)
Definition as_written (k : token_kind) : Prop :=
  match k with
  | TLiteral (LFloat _ | LString _ | LByte _) | TArgument _ => False
  | TLiteral (LInt z) => (0 <= z <= 9223372036854775807)%Z
  | _ => True
  end.
