(** Specification vocabulary for the lexical level, independent of the automaton:
    what a string literal means, what words, numbers, operators, quoted arguments look
    like in a source text, what may separate them, and where a byte of the text is. *)
From Coq Require Import Strings.String.
From Verif Require Import Base Lexer.
Local Open Scope byte_scope.

Definition NL : byte := x0a.
Definition QUOTE : byte := x22.
Definition BSLASH : byte := x5c.

(** ** Positions: line = 1 + number of newlines before; column = bytes since the last one. *)
Fixpoint count_nl (pre : bytes) : N :=
  match pre with
  | [] => 0
  | c :: r => ((if Byte.eqb c NL then 1 else 0) + count_nl r)%N
  end.

Fixpoint bytes_until_nl (rpre : bytes) : N :=
  match rpre with
  | [] => 0
  | c :: r => if Byte.eqb c NL then 0%N else (1 + bytes_until_nl r)%N
  end.

Definition position_of (pre : bytes) : pos :=
  mkpos (1 + count_nl pre) (bytes_until_nl (rev pre)).

(** ** Escapes: the bytes written after a backslash and what they stand for. *)
Definition common_escapes : list (byte * byte) :=
  [("n", x0a); ("t", x09); ("0", x00); (BSLASH, BSLASH)].

Definition string_escapes : list (byte * byte) :=
  [(QUOTE, QUOTE); ("'", "'")] ++ common_escapes.
Definition single_quoted_escapes : list (byte * byte) := ("'", "'") :: common_escapes.
Definition double_quoted_escapes : list (byte * byte) :=
  [(QUOTE, QUOTE); ("$", "$")] ++ common_escapes.
Definition unquoted_escapes : list (byte * byte) :=
  map (fun c => (c, c)) ["#"; "'"; QUOTE; ">"; "<"; "?"; ";"; "$"; "="; " "; x09; x0a; x0c; x0d]
  ++ common_escapes.

(** [spelling plain escapes text s]: [text] is a way to write the byte string [s] where the
    bytes satisfying [plain] stand for themselves and the others must be escaped. *)
Inductive spelling (plain : byte -> bool) (escapes : list (byte * byte)) : bytes -> bytes -> Prop :=
| sp_nil : spelling plain escapes [] []
| sp_plain c text s :
    plain c = true -> c <> BSLASH -> spelling plain escapes text s ->
    spelling plain escapes (c :: text) (c :: s)
| sp_escape e c text s :
    In (e, c) escapes -> spelling plain escapes text s ->
    spelling plain escapes (BSLASH :: e :: text) (c :: s).

(** Every byte but the closing quote may appear as is between the quotes. *)
Definition string_plain (c : byte) : bool := negb (Byte.eqb c QUOTE).
Definition single_plain (c : byte) : bool := negb (Byte.eqb c "'").
Definition double_plain (c : byte) : bool := negb (Byte.eqb c QUOTE) && negb (Byte.eqb c "$").
(** Unquoted: everything but blanks, the symbols of the command language and the bytes that
    start an expansion. *)
Definition unquoted_plain (c : byte) : bool :=
  negb (is_ascii_whitespace c) &&
  negb (existsb (Byte.eqb c) ["#"; "'"; QUOTE; ">"; "<"; "?"; ";"; "$"; "="; "}";
                              "{"; "["; "~"; "*"; "%"]).

(** ** Words *)
Definition letter (c : byte) : bool :=
  existsb (Byte.eqb c) (bs "abcdefghijklmnopqrstuvwxyzABCDEFGHIJKLMNOPQRSTUVWXYZ_"%string).
Definition digit (c : byte) : bool := existsb (Byte.eqb c) (bs "0123456789"%string).
Definition word_byte (c : byte) : bool := letter c || digit c.

Definition reserved : list (bytes * token_kind) :=
  map (fun '(s, k) => (bs s, k))
  [("let", TKeyword KLet); ("if", TKeyword KIf); ("then", TKeyword KThen);
   ("else", TKeyword KElse); ("elseif", TKeyword KElseIf); ("end", TKeyword KEnd);
   ("for", TKeyword KFor); ("in", TKeyword KIn); ("do", TKeyword KDo);
   ("while", TKeyword KWhile); ("function", TKeyword KFunction);
   ("return", TKeyword KReturn); ("break", TKeyword KBreak); ("self", TKeyword KSelf);
   ("nil", TLiteral LNil); ("true", TLiteral LTrue); ("false", TLiteral LFalse);
   ("not", TOperator ONot); ("and", TOperator OAnd); ("or", TOperator OOr)]%string.

Definition is_identifier (w : bytes) : Prop :=
  (exists c w', w = c :: w' /\ letter c = true) /\
  Forall (fun c => word_byte c = true) w /\
  ~ In w (map fst reserved).

(** ** Numbers *)
Definition all_digits (w : bytes) : Prop := w <> [] /\ Forall (fun c => digit c = true) w.

(** Value of a digit string, most significant digit first, defined from the right. *)
Fixpoint value_rev (rds : bytes) : Z :=
  match rds with
  | [] => 0
  | d :: r => Z.of_N (Byte.to_N d) - 48 + 10 * value_rev r
  end.
Definition decimal_value (ds : bytes) : Z := value_rev (rev ds).

(** digits . digits, digits e digits, digits . digits e digits; the digits between dot and
    exponent may be missing. *)
Inductive is_float_text : bytes -> Prop :=
| ft_dot a b : all_digits a -> all_digits b -> is_float_text (a ++ "." :: b)
| ft_exp a e b : all_digits a -> all_digits b -> (e = "e" \/ e = "E") ->
    is_float_text (a ++ e :: b)
| ft_both a b e c : all_digits a -> Forall (fun c => digit c = true) b -> all_digits c ->
    (e = "e" \/ e = "E") -> is_float_text (a ++ "." :: b ++ e :: c).

(** ** Operators and punctuation outside command blocks *)
Definition symbols : list (bytes * token_kind) :=
  map (fun '(s, k) => (bs s, k))
  [("+", TOperator OPlus); ("-", TOperator OMinus); ("*", TOperator OTimes);
   ("/", TOperator ODiv); ("%", TOperator OMod); ("==", TOperator OEquals);
   ("!=", TOperator ONotEquals); (">", TOperator OGreater); (">=", TOperator OGreaterEquals);
   ("<", TOperator OLower); ("<=", TOperator OLowerEquals); ("++", TOperator OConcat);
   (".", TOperator ODot); ("=", TOperator OAssign); ("?", TOperator OTry);
   (":", TColon); (",", TComma); ("(", TOpenParens); (")", TCloseParens);
   ("[", TOpenBracket); ("]", TCloseBracket); ("@[", TOpenDict);
   ("{", TCommand); ("${", TCaptureCommand); ("&{", TAsyncCommand)]%string.

(** ** Spelling of one token outside command blocks *)
Inductive token_text : bytes -> token_kind -> Prop :=
| tt_reserved w k : In (w, k) reserved -> token_text w k
| tt_ident w : is_identifier w -> token_text w (TIdentifier w)
| tt_int w : all_digits w -> (decimal_value w <= 9223372036854775807)%Z ->
    token_text w (TLiteral (LInt (decimal_value w)))
| tt_float w : is_float_text w -> token_text w (TLiteral (LFloat w))
| tt_string w s : spelling string_plain string_escapes w s ->
    token_text (QUOTE :: w ++ [QUOTE]) (TLiteral (LString s))
| tt_byte w c : spelling single_plain string_escapes w [c] ->
    token_text ("'" :: w ++ ["'"]) (TLiteral (LByte c))
| tt_symbol w k : In (w, k) symbols -> token_text w k.

(** What may come right after a token without being taken as a part of it. *)
Definition may_follow (k : token_kind) (rest : bytes) : Prop :=
  match rest with
  | [] => True
  | c :: _ =>
    match k with
    | TIdentifier _ | TKeyword _ | TOperator (ONot | OAnd | OOr) | TLiteral (LNil | LTrue | LFalse) =>
      word_byte c = false
    | TLiteral (LInt _) | TLiteral (LFloat _) =>
      digit c = false /\ c <> "." /\ c <> "e" /\ c <> "E"
    | TOperator (OGreater | OLower | OAssign) => c <> "="
    | TOperator OPlus => c <> "+"
    | _ => True
    end
  end.

(** ** Spelling of the tokens of a command block *)
Definition command_symbols : list (bytes * token_kind) :=
  map (fun '(s, k) => (bs s, k))
  [("?", TCmdOperator CTry); ("|", TPipe); (";", TSemicolon);
   (">", TCmdOperator (COutput false)); (">>", TCmdOperator (COutput true));
   ("<", TCmdOperator (CInput false)); ("<<", TCmdOperator (CInput true))]%string.

Definition command_may_follow (k : token_kind) (rest : bytes) : Prop :=
  match rest with
  | [] => True
  | c :: _ =>
    match k with
    | TCmdOperator (COutput false) => c <> ">"
    | TCmdOperator (CInput false) => c <> "<"
    | _ => True
    end
  end.

(** Units between double quotes: literal runs (never two in a row) and [$name] or [${name}].
    [pre] is the source text before the units. *)
Definition starts_with (p : byte -> bool) (t : bytes) : Prop :=
  match t with [] => False | c :: _ => p c = true end.

Definition double_run_byte (c : byte) : bool := double_plain c.

Inductive double_units : bytes -> bytes -> list arg_unit -> Prop :=
| du_nil pre : double_units pre [] []
| du_literal pre t s t' us :
    t <> [] -> spelling double_plain double_quoted_escapes t s ->
    ~ starts_with double_run_byte t' ->
    double_units (pre ++ t) t' us ->
    double_units pre (t ++ t') (AULiteral s :: us)
| du_dollar pre w t' us :
    is_identifier w -> ~ starts_with word_byte t' ->
    double_units (pre ++ "$" :: w) t' us ->
    double_units pre ("$" :: w ++ t') (AUDollar w (position_of pre) :: us)
| du_braces pre w t' us :
    is_identifier w ->
    double_units (pre ++ "$" :: "{" :: w ++ ["}"]) t' us ->
    double_units pre ("$" :: "{" :: w ++ "}" :: t') (AUDollar w (position_of pre) :: us).

(** Bytes of an unquoted run once the argument has begun: the tilde is an ordinary byte. *)
Definition run_byte (c : byte) : bool := unquoted_plain c || Byte.eqb c "~".

(** What may follow an argument: a blank or a symbol of the command language. *)
Definition ends_argument (c : byte) : bool :=
  is_ascii_whitespace c || existsb (Byte.eqb c) ["#"; ">"; "<"; "?"; ";"; "}"].

(** [argument_text first pre text rest parts]: [text], found after [pre] and followed by
    [rest], spells an argument made of [parts].  [first] tells whether nothing of the
    argument has been read yet (only there does [~/] mean the home directory). *)
Inductive argument_text : bool -> bytes -> bytes -> bytes -> list arg_part -> Prop :=
| at_end first pre rest :
    starts_with ends_argument rest -> argument_text first pre [] rest []
| at_literal first pre t s t' rest ps :
    t <> [] -> spelling run_byte unquoted_escapes t s ->
    (first = true -> ~ starts_with (fun c => Byte.eqb c "~") t) ->
    ~ starts_with run_byte (t' ++ rest) ->
    argument_text false (pre ++ t) t' rest ps ->
    argument_text first pre (t ++ t') rest (PUnquoted (AULiteral s) :: ps)
| at_single first pre t s t' rest ps :
    spelling single_plain single_quoted_escapes t s ->
    argument_text false (pre ++ "'" :: t ++ ["'"]) t' rest ps ->
    argument_text first pre ("'" :: t ++ "'" :: t') rest (PSingleQuoted s :: ps)
| at_double first pre t us t' rest ps :
    double_units (pre ++ [QUOTE]) t us ->
    argument_text false (pre ++ QUOTE :: t ++ [QUOTE]) t' rest ps ->
    argument_text first pre (QUOTE :: t ++ QUOTE :: t') rest (PDoubleQuoted us :: ps)
| at_dollar first pre w t' rest ps :
    is_identifier w -> ~ starts_with word_byte (t' ++ rest) ->
    argument_text false (pre ++ "$" :: w) t' rest ps ->
    argument_text first pre ("$" :: w ++ t') rest (PUnquoted (AUDollar w (position_of pre)) :: ps)
| at_braces first pre w t' rest ps :
    is_identifier w ->
    argument_text false (pre ++ "$" :: "{" :: w ++ ["}"]) t' rest ps ->
    argument_text first pre ("$" :: "{" :: w ++ "}" :: t') rest
                  (PUnquoted (AUDollar w (position_of pre)) :: ps)
| at_star first pre t' rest ps :
    argument_text false (pre ++ ["*"]) t' rest ps ->
    argument_text first pre ("*" :: t') rest (PExpansion EStar :: ps)
| at_percent first pre t' rest ps :
    argument_text false (pre ++ ["%"]) t' rest ps ->
    argument_text first pre ("%" :: t') rest (PExpansion EPercent :: ps)
| at_home pre t' rest ps :
    argument_text false (pre ++ ["~"; "/"]) t' rest ps ->
    argument_text true pre ("~" :: "/" :: t') rest (PExpansion EHome :: ps)
| at_assign first pre t' rest ps :
    argument_text false (pre ++ ["="]) t' rest ps ->
    argument_text first pre ("=" :: t') rest (PEnvAssign :: ps).

(** ** Layout of a whole source: tokens with their positions, separated by blanks and
    comments.  [InRoot] is ordinary code, [InCommand] the inside of a command block. *)
Inductive mode := InRoot | InCommand.

Definition next_mode (k : token_kind) : mode :=
  match k with
  | TCommand | TCaptureCommand | TAsyncCommand => InCommand
  | _ => InRoot
  end.

Inductive layout : mode -> bytes -> bytes -> list token -> Prop :=
| ly_end pre : layout InRoot pre [] []
| ly_blank m pre c t ts :
    is_ascii_whitespace c = true -> layout m (pre ++ [c]) t ts -> layout m pre (c :: t) ts
| ly_comment m pre cs t ts :
    ~ In NL cs -> layout m (pre ++ "#" :: cs ++ [NL]) t ts -> layout m pre ("#" :: cs ++ NL :: t) ts
| ly_last_comment pre cs :
    ~ In NL cs -> layout InRoot pre ("#" :: cs) []
| ly_token pre w k t ts :
    token_text w k -> may_follow k t -> layout (next_mode k) (pre ++ w) t ts ->
    layout InRoot pre (w ++ t) (mktoken k (position_of pre) :: ts)
| ly_close pre t ts :
    layout InRoot (pre ++ ["}"]) t ts ->
    layout InCommand pre ("}" :: t) (mktoken TCloseCommand (position_of pre) :: ts)
| ly_command_symbol pre w k t ts :
    In (w, k) command_symbols -> command_may_follow k t -> layout InCommand (pre ++ w) t ts ->
    layout InCommand pre (w ++ t) (mktoken k (position_of pre) :: ts)
| ly_argument pre w ps t ts :
    w <> [] -> ~ starts_with (fun c => Byte.eqb c "|") w ->
    argument_text true pre w t ps -> layout InCommand (pre ++ w) t ts ->
    layout InCommand pre (w ++ t) (mktoken (TArgument ps) (position_of pre) :: ts).

(** ** Placement of tokens in a source, errors included: every token is written on its own
    non-empty stretch of text, in order, and carries the position where that stretch begins;
    every error carries the position of some place of the text. *)
Definition fixed_texts : list (bytes * token_kind) :=
  reserved ++ symbols ++ command_symbols ++ [(["}"], TCloseCommand)].

Definition written_as (k : token_kind) (text : bytes) : Prop :=
  match k with
  | TIdentifier w => text = w
  | TLiteral (LInt n) =>
    all_digits text /\ decimal_value text = n /\ (n <= 9223372036854775807)%Z
  | TLiteral (LFloat t) => text = t
  | TLiteral (LString _) => exists m, text = QUOTE :: m ++ [QUOTE]
  | TLiteral (LByte _) => exists m, text = "'" :: m ++ ["'"]
  | TArgument _ => True
  | _ => In (text, k) fixed_texts
  end.

Inductive placed : bytes -> bytes -> list output -> Prop :=
| pl_nil pre rest : placed pre rest []
| pl_token pre gap text rest t os :
    text <> [] -> written_as (tk_kind t) text -> tk_pos t = position_of (pre ++ gap) ->
    placed (pre ++ gap ++ text) rest os ->
    placed pre (gap ++ text ++ rest) (OkTok t :: os)
| pl_error pre rest a b e os :
    pre ++ rest = a ++ b -> le_pos e = position_of a -> placed pre rest os ->
    placed pre rest (ErrTok e :: os).

(** Tokens and errors reported before the lexer ended or crashed. *)
Definition outputs (l : lexed) : list output :=
  match l with LexDone os => os | LexCrash os => os | LexFuel => [] end.

(** ** Names made of letters, digits and underscores only *)

Definition plain_name (s : symbol) : Prop := Forall (fun c => word_byte c = true) s.

Definition plain_unit (u : arg_unit) : Prop := match u with AULiteral _ => True | AUDollar s _ => plain_name s end.
Definition plain_part (p : arg_part) : Prop :=
  match p with
  | PUnquoted u => plain_unit u
  | PDoubleQuoted us => Forall plain_unit us
  | _ => True
  end.
Definition plain_token (t : token) : Prop :=
  match tk_kind t with
  | TIdentifier s => plain_name s
  | TArgument ps => Forall plain_part ps
  | _ => True
  end.
Definition plain_output (o : output) : Prop := match o with OkTok t => plain_token t | ErrTok _ => True end.
