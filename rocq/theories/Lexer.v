(** Model of the lexer: src/syntax/lexer (cursor, tokens, automata).

    The automaton is modelled state by state and transition by transition.
    Simplifications, all of them stated where they occur:
    - an interned [Symbol] is the identifier's own bytes (interning is injective);
    - a float literal keeps its source text (its [f64] value is computed by the Rust
      standard library; the texts accepted by the automaton always parse);
    - [Cursor] is a zipper (bytes before, bytes after) instead of a slice and an offset. *)
From Coq Require Import Strings.String.
From Verif Require Import Base.
Local Open Scope byte_scope.

(** src/syntax/lexer/token/mod.rs 9-24 *)
Inductive keyword :=
| KLet | KIf | KThen | KElse | KElseIf | KEnd | KFor | KIn | KDo | KWhile
| KFunction | KReturn | KBreak | KSelf.

(** token/mod.rs 29-38.  [Float] keeps the source text. *)
Inductive literal :=
| LNil | LTrue | LFalse
| LInt (n : Z)
| LFloat (text : bytes)
| LByte (b : byte)
| LString (s : bytes).

(** token/mod.rs 43-67 *)
Inductive operator :=
| OPlus | OMinus | OTimes | ODiv | OMod
| OEquals | ONotEquals | OGreater | OGreaterEquals | OLower | OLowerEquals
| ONot | OAnd | OOr
| OConcat | ODot | OAssign | OTry.

(** [crate::symbol::Symbol]: the interned bytes themselves. src/symbol/mod.rs 8 and 32-83: the
    interner gives equal bytes equal symbols. *)
Definition symbol := bytes.

(** token/mod.rs 107-113 *)
Inductive arg_unit :=
| AULiteral (s : bytes)
| AUDollar (sym : symbol) (p : pos).

(** token/mod.rs 128-136.  [Range], [Collection] and [CharClass] are never produced by the
    lexer (expansion.rs 86-92 is [todo!]) and are left out. *)
Inductive arg_expansion := EHome | EStar | EPercent.

(** token/mod.rs 140-146 *)
Inductive arg_part :=
| PUnquoted (u : arg_unit)
| PSingleQuoted (s : bytes)
| PDoubleQuoted (us : list arg_unit)
| PExpansion (e : arg_expansion)
| PEnvAssign.

(** token/mod.rs 162-166 *)
Inductive command_operator :=
| COutput (append : bool)
| CInput (literal : bool)
| CTry.

(** token/mod.rs 182-211 *)
Inductive token_kind :=
| TIdentifier (s : symbol)
| TKeyword (k : keyword)
| TOperator (o : operator)
| TLiteral (l : literal)
| TColon | TComma | TOpenParens | TCloseParens
| TOpenBracket | TOpenDict | TCloseBracket
| TCommand | TAsyncCommand | TCaptureCommand | TCloseCommand
| TArgument (parts : list arg_part)
| TCmdOperator (o : command_operator)
| TSemicolon | TPipe.

(** token/mod.rs 247-250 *)
Record token := mktoken { tk_kind : token_kind; tk_pos : pos }.

(** src/syntax/lexer/error/mod.rs 8-29 *)
Inductive lex_error_kind :=
| UnexpectedEof
| Unexpected (c : byte)
| EmptyByteLiteral
| InvalidEscapeSequence (s : bytes)
| InvalidNumber (s : bytes)
| InvalidIdentifier (s : bytes).

(** src/syntax/lexer/error/mod.rs 26-29 *)
Record lex_error := mkerror { le_kind : lex_error_kind; le_pos : pos }.

(** automata/mod.rs 42: [type Output = Result<Token, Error>] *)
Inductive output := OkTok (t : token) | ErrTok (e : lex_error).

(** cursor.rs 6-10.  [cur_before] holds the bytes before the offset in reverse order,
    [cur_after] the bytes from the offset on: [input = rev before ++ after] and
    [offset = length before]. *)
Record cursor := mkcursor { cur_before : bytes; cur_after : bytes; cur_pos : pos }.

(** cursor.rs 72-80 *)
Definition cursor_from (src : bytes) : cursor := mkcursor [] src (mkpos 1 0).

(** cursor.rs 19-21 *)
Definition cur_offset (c : cursor) : nat := length (cur_before c).

(** cursor.rs 24-26 *)
Definition is_eof (c : cursor) : bool :=
  match cur_after c with [] => true | _ => false end.

(** cursor.rs 29-31 *)
Definition peek (c : cursor) : option byte := hd_error (cur_after c).

(** [cursor.slice()[start .. cursor.offset()]]. cursor.rs 34-36, used by word.rs 30-45 and
    number.rs 90-110 *)
Definition slice_to (c : cursor) (start : nat) : bytes := skipn start (rev (cur_before c)).

(** [cursor.slice()[start ..= cursor.offset()]]; only used when a byte is available. cursor.rs
    34-36, used by string.rs 22-76 and argument.rs 55-97 *)
Definition slice_to_incl (c : cursor) (start : nat) : bytes :=
  skipn start (rev (cur_before c)) ++ firstn 1 (cur_after c).

(** cursor.rs 39-52 *)
Definition cursor_step (c : cursor) : cursor :=
  match cur_after c with
  | [] => c
  | b :: rest =>
    let p := cur_pos c in
    let p' := if byte_eqb b x0a then mkpos (line p + 1) 0 else mkpos (line p) (column p + 1) in
    mkcursor (b :: cur_before c) rest p'
  end.

(** word.rs 100-108 *)
Definition is_word_start (c : byte) : bool := is_ascii_alphabetic c || byte_eqb c "_".
(** word.rs 105-107 *)
Definition is_word (c : byte) : bool := is_ascii_alphanumeric c || byte_eqb c "_".

(** word.rs 57-82: the fixed words *)
Definition keyword_table : list (bytes * token_kind) :=
  map (fun '(s, k) => (bs s, k))
  [("let", TKeyword KLet); ("if", TKeyword KIf); ("then", TKeyword KThen);
   ("else", TKeyword KElse); ("elseif", TKeyword KElseIf); ("end", TKeyword KEnd);
   ("for", TKeyword KFor); ("in", TKeyword KIn); ("do", TKeyword KDo);
   ("while", TKeyword KWhile); ("function", TKeyword KFunction);
   ("return", TKeyword KReturn); ("break", TKeyword KBreak); ("self", TKeyword KSelf);
   ("nil", TLiteral LNil); ("true", TLiteral LTrue); ("false", TLiteral LFalse);
   ("not", TOperator ONot); ("and", TOperator OAnd); ("or", TOperator OOr)]%string.

(** The choice made by the [match] of word.rs 56-90 *)
Fixpoint assoc_bytes {A} (k : bytes) (l : list (bytes * A)) : option A :=
  match l with
  | [] => None
  | (k', a) :: l' => if bytes_eqb k k' then Some a else assoc_bytes k l'
  end.

(** word.rs 56-90: the [match] on byte strings is a table lookup here. *)
Definition to_token (word : bytes) : token_kind :=
  match assoc_bytes word keyword_table with
  | Some k => k
  | None => TIdentifier word
  end.

(** argument.rs 505-512 *)
Record argument := mkargument { a_parts : list arg_part; a_home : bool; a_pos : pos }.

(** argument.rs 330-335 and 414-419 *)
Record single_quoted := mksq { sq_value : bytes; sq_parent : argument }.
(** argument.rs 414-419 *)
Record double_quoted := mkdq { dq_parts : list arg_unit; dq_parent : argument }.

(** argument.rs 38-47 *)
Record word (C : Type) := mkword {
  w_value : bytes;
  w_escaping : option (nat * pos);
  w_allow : bool;
  w_context : C }.
Arguments mkword {C}. Arguments w_value {C}. Arguments w_escaping {C}.
Arguments w_allow {C}. Arguments w_context {C}.

(** argument.rs 101-110 *)
Definition word_from {C} (c : C) : word C := mkword [] None true c.

(** argument.rs 197-208 *)
Record dollar (C : Type) := mkdollar {
  d_start : option nat;
  d_braces : option bool;
  d_error : bool;
  d_pos : pos;
  d_context : C }.
Arguments mkdollar {C}. Arguments d_start {C}. Arguments d_braces {C}.
Arguments d_error {C}. Arguments d_pos {C}. Arguments d_context {C}.

(** argument.rs 216-224 *)
Definition dollar_at {C} (cur : cursor) (c : C) : dollar C :=
  mkdollar None None false (cur_pos cur) c.

(** expansion.rs 30-38; the checkpoint is the cursor itself. *)
Record expansion (C : Type) := mkexpansion {
  e_start : cursor;
  e_allow_home : bool;
  e_tilde : bool;
  e_context : C }.
Arguments mkexpansion {C}. Arguments e_start {C}. Arguments e_allow_home {C}.
Arguments e_tilde {C}. Arguments e_context {C}.

(** expansion.rs 46-53 *)
Definition expansion_at {C} (cur : cursor) (home : bool) (c : C) : expansion C :=
  mkexpansion cur home false c.

(** automata/mod.rs 140-164 with the state structs of string.rs 6-13 and 89-96, number.rs
    17-22, word.rs 18-21, symbol.rs 18-21 and 79-82 inlined. *)
Inductive state :=
| SRoot
| SComment
| SNumber (start : nat) (dec exp : option bool) (p : pos)
| SByte (value : option byte) (esc : option (nat * pos)) (p : pos)
| SString (value : bytes) (esc : option (nat * pos)) (p : pos)
| SWord (start : nat) (p : pos)
| SSymbol (first : byte) (p : pos)
| SCommand
| SCommandComment
| SArgument (a : argument)
| SExpansion (e : expansion argument)
| SExpansionWord (e : expansion (word argument))
| SSingleQuoted (s : single_quoted)
| SDoubleQuoted (d : double_quoted)
| SUnquotedWord (w : word argument)
| SSingleQuotedWord (w : word single_quoted)
| SDoubleQuotedWord (w : word double_quoted)
| SDollar (d : dollar argument)
| SQuotedDollar (d : dollar double_quoted)
| SCommandSymbol (first : byte) (p : pos).

(** automata/mod.rs 46-53 *)
Inductive step := Resume | Forward | Rollback (c : cursor).

(** automata/mod.rs 69-76 *)
Record transition := mktrans { t_state : state; t_step : step; t_out : option output }.

(** The result of [State::visit]; [Crash] stands for [todo!] and [unreachable!]. automata/mod.rs
    175-199 *)
Inductive visited := Go (t : transition) | Crash.

(** automata/mod.rs 79-135 *)
Definition tr_step (s : state) := Go (mktrans s Forward None).
(** automata/mod.rs 87-93 *)
Definition tr_produce (s : state) (t : token) := Go (mktrans s Forward (Some (OkTok t))).
(** automata/mod.rs 96-102 *)
Definition tr_error (s : state) (e : lex_error) := Go (mktrans s Forward (Some (ErrTok e))).
(** automata/mod.rs 105-107 *)
Definition tr_resume (s : state) := Go (mktrans s Resume None).
(** automata/mod.rs 110-116 *)
Definition tr_resume_produce (s : state) (t : token) := Go (mktrans s Resume (Some (OkTok t))).
(** automata/mod.rs 119-125 *)
Definition tr_resume_error (s : state) (e : lex_error) := Go (mktrans s Resume (Some (ErrTok e))).
(** automata/mod.rs 128-134 *)
Definition tr_rollback (c : cursor) (s : state) := Go (mktrans s (Rollback c) None).

(** symbol.rs 129-175 *)
Inductive symbol_char := SCNone | SCSingle (k : token_kind) | SCDouble.

(** symbol.rs 139-175 *)
Definition symbol_char_from (c : byte) : symbol_char :=
  match c with
  | "-" => SCSingle (TOperator OMinus)
  | "*" => SCSingle (TOperator OTimes)
  | "/" => SCSingle (TOperator ODiv)
  | "%" => SCSingle (TOperator OMod)
  | "." => SCSingle (TOperator ODot)
  | "?" => SCSingle (TOperator OTry)
  | ":" => SCSingle TColon
  | "," => SCSingle TComma
  | "(" => SCSingle TOpenParens
  | ")" => SCSingle TCloseParens
  | "[" => SCSingle TOpenBracket
  | "]" => SCSingle TCloseBracket
  | "{" => SCSingle TCommand
  | ">" | "<" | "+" | "=" | "!" | "@" | "$" | "&" => SCDouble
  | _ => SCNone
  end.

(** symbol.rs 179-209 *)
Definition command_symbol_char_from (c : byte) : symbol_char :=
  match c with
  | "?" => SCSingle (TCmdOperator CTry)
  | "|" => SCSingle TPipe
  | ";" => SCSingle TSemicolon
  | ">" | "<" => SCDouble
  | _ => SCNone
  end.

(** root.rs 26-65 *)
Definition visit_root (cur : cursor) : visited :=
  match peek cur with
  | None => tr_step SRoot
  | Some c =>
    if is_ascii_whitespace c then tr_step SRoot
    else if byte_eqb c "#" then tr_step SComment
    else if byte_eqb c x22 then tr_step (SString [] None (cur_pos cur))
    else if byte_eqb c "'" then tr_step (SByte None None (cur_pos cur))
    else if is_ascii_digit c then tr_step (SNumber (cur_offset cur) None None (cur_pos cur))
    else if is_word_start c then tr_resume (SWord (cur_offset cur) (cur_pos cur))
    else match symbol_char_from c with
         | SCNone => tr_error SRoot (mkerror (Unexpected c) (cur_pos cur))
         | SCSingle TCommand => tr_produce SCommand (mktoken TCommand (cur_pos cur))
         | SCSingle k => tr_produce SRoot (mktoken k (cur_pos cur))
         | SCDouble => tr_step (SSymbol c (cur_pos cur))
         end
  end.

(** comment.rs 15-23; [self] is the comment state and [parent] the state to return to. *)
Definition visit_comment (self parent : state) (cur : cursor) : visited :=
  match peek cur with
  | Some x0a => tr_resume parent
  | _ => tr_step self
  end.

(** number.rs 90-110: [str::parse::<i64>] fails exactly on overflow for a digit run; a
    float text always parses. *)
Definition number_parse (start : nat) (dec exp : option bool) (p : pos) (cur : cursor)
  : token + lex_error :=
  let number := slice_to cur start in
  match dec, exp with
  | None, None =>
    let v := digits_val number in
    if in_i64 v then inl (mktoken (TLiteral (LInt v)) p)
    else inr (mkerror (InvalidNumber number) p)
  | _, _ => inl (mktoken (TLiteral (LFloat number)) p)
  end.

(** number.rs 36-86 *)
Definition visit_number (start : nat) (dec exp : option bool) (p : pos) (cur : cursor)
  : visited :=
  let finish :=
    (* number.rs 70-84 *)
    match dec, exp with
    | Some false, _ | _, Some false =>
      match peek cur with
      | Some v => tr_error SRoot (mkerror (Unexpected v) p)
      | None => tr_error SRoot (mkerror UnexpectedEof p)
      end
    | _, _ =>
      match number_parse start dec exp p cur with
      | inl t => tr_resume_produce SRoot t
      | inr e => tr_error SRoot e
      end
    end in
  let set o := match o with Some false => Some true | _ => o end in
  match peek cur with
  | None => finish
  | Some c =>
    match dec, exp with
    | None, None =>
      if byte_eqb c "." then tr_step (SNumber start (Some false) exp p)
      else if byte_eqb c "e" || byte_eqb c "E" then tr_step (SNumber start dec (Some false) p)
      else if is_ascii_digit c then tr_step (SNumber start (set dec) (set exp) p)
      else finish
    | _, None =>
      if byte_eqb c "e" || byte_eqb c "E" then tr_step (SNumber start dec (Some false) p)
      else if is_ascii_digit c then tr_step (SNumber start (set dec) (set exp) p)
      else finish
    | _, _ =>
      if is_ascii_digit c then tr_step (SNumber start (set dec) (set exp) p)
      else finish
    end
  end.

(** string.rs 160-170 *)
Definition string_validate_escape (c : byte) : option byte :=
  match c with
  | x22 => Some x22
  | "'" => Some "'"
  | "n" => Some x0a
  | "t" => Some x09
  | "0" => Some x00
  | "\" => Some "\"
  | _ => None
  end.

(** string.rs 22-76 *)
Definition visit_byte (value : option byte) (esc : option (nat * pos)) (p : pos)
    (cur : cursor) : visited :=
  match peek cur with
  | None => tr_error SRoot (mkerror UnexpectedEof (cur_pos cur))
  | Some c =>
    match value with
    | Some v =>
      if byte_eqb c "'" then tr_produce SRoot (mktoken (TLiteral (LByte v)) p)
      else tr_error (SByte value esc p) (mkerror (Unexpected c) (cur_pos cur))
    | None =>
      match esc with
      | Some (off, epos) =>
        match string_validate_escape c with
        | Some v => tr_step (SByte (Some v) None p)
        | None => tr_error (SByte (Some x00) None p)
                    (mkerror (InvalidEscapeSequence (slice_to_incl cur off)) epos)
        end
      | None =>
        if byte_eqb c "\" then tr_step (SByte None (Some (cur_offset cur, cur_pos cur)) p)
        else if byte_eqb c "'" then tr_error SRoot (mkerror EmptyByteLiteral p)
        else tr_step (SByte (Some c) None p)
      end
    end
  end.

(** string.rs 109-148 *)
Definition visit_string (value : bytes) (esc : option (nat * pos)) (p : pos)
    (cur : cursor) : visited :=
  match peek cur with
  | None => tr_error SRoot (mkerror UnexpectedEof (cur_pos cur))
  | Some c =>
    match esc with
    | Some (off, epos) =>
      match string_validate_escape c with
      | Some v => tr_step (SString (value ++ [v]) None p)
      | None => tr_error (SString value None p)
                  (mkerror (InvalidEscapeSequence (slice_to_incl cur off)) epos)
      end
    | None =>
      if byte_eqb c "\" then tr_step (SString value (Some (cur_offset cur, cur_pos cur)) p)
      else if byte_eqb c x22 then tr_produce SRoot (mktoken (TLiteral (LString value)) p)
      else tr_step (SString (value ++ [c]) None p)
    end
  end.

(** word.rs 30-45 *)
Definition visit_word (start : nat) (p : pos) (cur : cursor) : visited :=
  let produce := tr_resume_produce SRoot (mktoken (to_token (slice_to cur start)) p) in
  match peek cur with
  | Some c => if is_word c then tr_step (SWord start p) else produce
  | None => produce
  end.

(** symbol.rs 30-66 *)
Definition visit_symbol (first : byte) (p : pos) (cur : cursor) : visited :=
  let unexpected := tr_resume_error SRoot (mkerror (Unexpected first) p) in
  let op o := mktoken (TOperator o) p in
  let next_is c := match peek cur with Some c' => byte_eqb c' c | None => false end in
  match first with
  | ">" => if next_is "=" then tr_produce SRoot (op OGreaterEquals)
           else tr_resume_produce SRoot (op OGreater)
  | "<" => if next_is "=" then tr_produce SRoot (op OLowerEquals)
           else tr_resume_produce SRoot (op OLower)
  | "+" => if next_is "+" then tr_produce SRoot (op OConcat)
           else tr_resume_produce SRoot (op OPlus)
  | "=" => if next_is "=" then tr_produce SRoot (op OEquals)
           else tr_resume_produce SRoot (op OAssign)
  | "!" => if next_is "=" then tr_produce SRoot (op ONotEquals) else unexpected
  | "@" => if next_is "[" then tr_produce SRoot (mktoken TOpenDict p) else unexpected
  | "$" => if next_is "{" then tr_produce SCommand (mktoken TCaptureCommand p) else unexpected
  | "&" => if next_is "{" then tr_produce SCommand (mktoken TAsyncCommand p) else unexpected
  | _ => Crash
  end.

(** symbol.rs 91-117 *)
Definition visit_command_symbol (first : byte) (p : pos) (cur : cursor) : visited :=
  let op o := mktoken (TCmdOperator o) p in
  let next_is c := match peek cur with Some c' => byte_eqb c' c | None => false end in
  match first with
  | ">" => if next_is ">" then tr_produce SCommand (op (COutput true))
           else tr_resume_produce SCommand (op (COutput false))
  | "<" => if next_is "<" then tr_produce SCommand (op (CInput true))
           else tr_resume_produce SCommand (op (CInput false))
  | _ => Crash
  end.

(** argument.rs 516-522 *)
Definition argument_at (cur : cursor) : argument := mkargument [] true (cur_pos cur).

(** command.rs 22-55 *)
Definition visit_command (cur : cursor) : visited :=
  match peek cur with
  | None => tr_error SRoot (mkerror UnexpectedEof (cur_pos cur))
  | Some c =>
    if is_ascii_whitespace c then tr_step SCommand
    else if byte_eqb c "#" then tr_step SCommandComment
    else if byte_eqb c "}" then tr_produce SRoot (mktoken TCloseCommand (cur_pos cur))
    else match command_symbol_char_from c with
         | SCNone => tr_resume (SArgument (argument_at cur))
         | SCSingle k => tr_produce SCommand (mktoken k (cur_pos cur))
         | SCDouble => tr_step (SCommandSymbol c (cur_pos cur))
         end
  end.

(** expansion.rs 116-118 *)
Definition is_expansion_start (c : byte) : bool :=
  match c with "{" | "[" | "~" | "*" | "%" => true | _ => false end.

(** argument.rs 575-586 *)
Definition arg_is_word (c : byte) : bool :=
  match c with
  | "#" | "'" | x22 | ">" | "<" | "?" | ";" | "$" | "=" | "}" => false
  | _ => negb (is_ascii_whitespace c)
  end.

(** argument.rs 567-573 and 625-631: [self.parts.push] *)
Definition arg_push (a : argument) (p : arg_part) : argument :=
  mkargument (a_parts a ++ [p]) (a_home a) (a_pos a).

(** argument.rs 525-562 *)
Definition visit_argument (a : argument) (cur : cursor) : visited :=
  let home := a_home a in
  let a := mkargument (a_parts a) false (a_pos a) in
  let finish := tr_resume_produce SCommand (mktoken (TArgument (a_parts a)) (a_pos a)) in
  match peek cur with
  | None => finish
  | Some c =>
    if byte_eqb c "$" then tr_step (SDollar (dollar_at cur a))
    else if byte_eqb c "'" then tr_step (SSingleQuoted (mksq [] a))
    else if byte_eqb c x22 then tr_step (SDoubleQuoted (mkdq [] a))
    else if byte_eqb c "=" then tr_step (SArgument (arg_push a PEnvAssign))
    else if is_expansion_start c then tr_resume (SExpansion (expansion_at cur home a))
    else if arg_is_word c then tr_resume (SUnquotedWord (word_from a))
    else finish
  end.

(** expansion.rs 56-97; [produce] and [rollback] are the [ExpansionContext] methods and
    [self] injects the expansion state. *)
Definition visit_expansion {C} (self : expansion C -> state)
    (produce : C -> arg_expansion -> visited) (rollback : C -> cursor -> visited)
    (e : expansion C) (cur : cursor) : visited :=
  let home := e_allow_home e in
  let e := mkexpansion (e_start e) false (e_tilde e) (e_context e) in
  match peek cur with
  | None => rollback (e_context e) (e_start e)
  | Some c =>
    if byte_eqb c "~" && home then
      tr_step (self (mkexpansion (e_start e) false true (e_context e)))
    else if byte_eqb c "/" && e_tilde e then produce (e_context e) EHome
    else if e_tilde e then rollback (e_context e) (e_start e)
    else if byte_eqb c "*" then produce (e_context e) EStar
    else if byte_eqb c "%" then produce (e_context e) EPercent
    else if byte_eqb c "[" then Crash
    else if byte_eqb c "{" then Crash
    else rollback (e_context e) (e_start e)
  end.

(** argument.rs 624-641 *)
Definition argument_expansion_produce (a : argument) (e : arg_expansion) : visited :=
  tr_step (SArgument (arg_push a (PExpansion e))).
(** argument.rs 633-636 *)
Definition argument_expansion_rollback (a : argument) (c : cursor) : visited :=
  tr_rollback c (SUnquotedWord (word_from a)).

(** argument.rs 644-668 *)
Definition word_expansion_produce (w : word argument) (e : arg_expansion) : visited :=
  tr_step (SArgument (arg_push (arg_push (w_context w) (PUnquoted (AULiteral (w_value w))))
                               (PExpansion e))).
(** argument.rs 659-663 *)
Definition word_expansion_rollback (w : word argument) (c : cursor) : visited :=
  tr_rollback c (SUnquotedWord (mkword (w_value w) (w_escaping w) false (w_context w))).

(** argument.rs 55-97; the four [WordContext] methods are arguments.  [expansion_start]
    returns [None] for the Rust [Err(state)]. *)
Definition visit_arg_word {C} (self : word C -> state)
    (resume_produce : C -> bytes -> visited)
    (expansion_start : word C -> cursor -> byte -> option visited)
    (is_word : byte -> bool) (validate_escape : byte -> option byte)
    (w : word C) (cur : cursor) : visited :=
  match peek cur with
  | None => resume_produce (w_context w) (w_value w)
  | Some c =>
    match w_escaping w with
    | Some (off, epos) =>
      match validate_escape c with
      | Some v => tr_step (self (mkword (w_value w ++ [v]) None (w_allow w) (w_context w)))
      | None => tr_error (self w) (mkerror (InvalidEscapeSequence (slice_to_incl cur off)) epos)
      end
    | None =>
      if byte_eqb c "\" then
        tr_step (self (mkword (w_value w) (Some (cur_offset cur, cur_pos cur)) (w_allow w) (w_context w)))
      else if is_word c then
        if w_allow w then
          match expansion_start w cur c with
          | Some t => t
          | None => tr_step (self (mkword (w_value w ++ [c]) (w_escaping w) (w_allow w) (w_context w)))
          end
        else tr_step (self (mkword (w_value w ++ [c]) (w_escaping w) true (w_context w)))
      else resume_produce (w_context w) (w_value w)
    end
  end.

(** argument.rs 566-621 *)
Definition arg_resume_produce (a : argument) (v : bytes) : visited :=
  tr_resume (SArgument (arg_push a (PUnquoted (AULiteral v)))).
(** argument.rs 588-599 *)
Definition arg_expansion_start (w : word argument) (cur : cursor) (c : byte) : option visited :=
  if is_expansion_start c then Some (tr_resume (SExpansionWord (expansion_at cur false w)))
  else None.
(** argument.rs 601-620 *)
Definition arg_validate_escape (c : byte) : option byte :=
  match c with
  | "#" | "'" | x22 | ">" | "<" | "?" | ";" | "$" | "=" => Some c
  | x20 | x09 | x0a | x0c | x0d => Some c
  | "n" => Some x0a
  | "t" => Some x09
  | "0" => Some x00
  | "\" => Some "\"
  | _ => None
  end.

(** argument.rs 371-402 *)
Definition sq_resume_produce (s : single_quoted) (v : bytes) : visited :=
  tr_resume (SSingleQuoted (mksq v (sq_parent s))).
(** argument.rs 377-381 *)
Definition sq_is_word (c : byte) : bool := negb (byte_eqb c "'").
(** argument.rs 387-401 *)
Definition sq_validate_escape (c : byte) : option byte :=
  match c with
  | "'" => Some c
  | "n" => Some x0a
  | "t" => Some x09
  | "0" => Some x00
  | "\" => Some "\"
  | _ => None
  end.

(** argument.rs 459-491 *)
Definition dq_resume_produce (d : double_quoted) (v : bytes) : visited :=
  tr_resume (SDoubleQuoted (mkdq (dq_parts d ++ [AULiteral v]) (dq_parent d))).
(** argument.rs 466-469 *)
Definition dq_is_word (c : byte) : bool := negb (byte_eqb c x22) && negb (byte_eqb c "$").
(** argument.rs 475-490 *)
Definition dq_validate_escape (c : byte) : option byte :=
  match c with
  | x22 => Some c
  | "$" => Some c
  | "n" => Some x0a
  | "t" => Some x09
  | "0" => Some x00
  | "\" => Some "\"
  | _ => None
  end.

(** argument.rs 339-357 *)
Definition visit_single_quoted (s : single_quoted) (cur : cursor) : visited :=
  match peek cur with
  | Some c =>
    if byte_eqb c "'" then tr_step (SArgument (arg_push (sq_parent s) (PSingleQuoted (sq_value s))))
    else tr_resume (SSingleQuotedWord (word_from s))
  | None => tr_error (SArgument (sq_parent s)) (mkerror UnexpectedEof (cur_pos cur))
  end.

(** argument.rs 423-445 *)
Definition visit_double_quoted (d : double_quoted) (cur : cursor) : visited :=
  match peek cur with
  | Some c =>
    if byte_eqb c x22 then tr_step (SArgument (arg_push (dq_parent d) (PDoubleQuoted (dq_parts d))))
    else if byte_eqb c "$" then tr_step (SQuotedDollar (dollar_at cur d))
    else tr_resume (SDoubleQuotedWord (word_from d))
  | None => tr_error (SArgument (dq_parent d)) (mkerror UnexpectedEof (cur_pos cur))
  end.

(** argument.rs 227-310.  [ctx s] pushes a dollar unit into the context and [ret] injects
    the context as a state, so the four [DollarContext] methods (149-192) are
    [tr_step (ret (push ..))], [tr_error (ret ..)], [tr_resume (ret (push ..))] and
    [tr_resume_error (ret ..)]. *)
Definition visit_dollar {C} (self : dollar C -> state) (ret : C -> state)
    (push : C -> symbol -> pos -> C) (d : dollar C) (cur : cursor) : visited :=
  let produce (consume : bool) :=
    let off := match d_start d with Some o => o | None => cur_offset cur end in
    let ident := slice_to cur off in
    let err := mkerror (InvalidIdentifier ident) (d_pos d) in
    if match ident with [] => true | _ => false end || d_error d then
      tr_error (ret (d_context d)) err
    else match to_token ident with
         | TIdentifier sym =>
           let s := ret (push (d_context d) sym (d_pos d)) in
           if consume then tr_step s else tr_resume s
         | _ =>
           if consume then tr_error (ret (d_context d)) err
           else tr_resume_error (ret (d_context d)) err
         end in
  match peek cur with
  | Some c =>
    match d_start d, d_braces d with
    | None, None =>
      if byte_eqb c "{" then
        tr_step (self (mkdollar None (Some true) (d_error d) (d_pos d) (d_context d)))
      else (* head character, 272-282 *)
        tr_step (self (mkdollar (Some (cur_offset cur)) (Some false)
                                (d_error d || negb (is_word_start c)) (d_pos d) (d_context d)))
    | st, Some true =>
      if byte_eqb c "}" then produce true
      else match st with
           | None => tr_step (self (mkdollar (Some (cur_offset cur)) (Some true)
                        (d_error d || negb (is_word_start c)) (d_pos d) (d_context d)))
           | Some _ => tr_step (self (mkdollar st (Some true)
                        (d_error d || negb (is_word c)) (d_pos d) (d_context d)))
           end
    | None, Some false =>
      tr_step (self (mkdollar (Some (cur_offset cur)) (Some false)
                              (d_error d || negb (is_word_start c)) (d_pos d) (d_context d)))
    | Some _, Some false =>
      if is_word c then tr_step (self d) else produce false
    | Some _, None => (* 294-300 *)
      tr_step (self (mkdollar (d_start d) None (d_error d || negb (is_word c)) (d_pos d) (d_context d)))
    end
  | None =>
    match d_braces d with
    | Some true => tr_error (ret (d_context d)) (mkerror UnexpectedEof (cur_pos cur))
    | _ => produce true
    end
  end.

(** argument.rs 149-169: the part that is pushed *)
Definition argument_push_dollar (a : argument) (s : symbol) (p : pos) : argument :=
  arg_push a (PUnquoted (AUDollar s p)).
(** argument.rs 172-192: the part that is pushed *)
Definition dq_push_dollar (d : double_quoted) (s : symbol) (p : pos) : double_quoted :=
  mkdq (dq_parts d ++ [AUDollar s p]) (dq_parent d).

(** automata/mod.rs 175-199 *)
Definition visit (s : state) (cur : cursor) : visited :=
  match s with
  | SRoot => visit_root cur
  | SComment => visit_comment SComment SRoot cur
  | SNumber st dec exp p => visit_number st dec exp p cur
  | SByte v esc p => visit_byte v esc p cur
  | SString v esc p => visit_string v esc p cur
  | SWord st p => visit_word st p cur
  | SSymbol f p => visit_symbol f p cur
  | SCommand => visit_command cur
  | SCommandComment => visit_comment SCommandComment SCommand cur
  | SArgument a => visit_argument a cur
  | SExpansion e =>
    visit_expansion SExpansion argument_expansion_produce argument_expansion_rollback e cur
  | SExpansionWord e =>
    visit_expansion SExpansionWord word_expansion_produce word_expansion_rollback e cur
  | SSingleQuoted q => visit_single_quoted q cur
  | SDoubleQuoted q => visit_double_quoted q cur
  | SUnquotedWord w =>
    visit_arg_word SUnquotedWord arg_resume_produce arg_expansion_start arg_is_word
                   arg_validate_escape w cur
  | SSingleQuotedWord w =>
    visit_arg_word SSingleQuotedWord sq_resume_produce (fun _ _ _ => None) sq_is_word
                   sq_validate_escape w cur
  | SDoubleQuotedWord w =>
    visit_arg_word SDoubleQuotedWord dq_resume_produce (fun _ _ _ => None) dq_is_word
                   dq_validate_escape w cur
  | SDollar d => visit_dollar SDollar SArgument argument_push_dollar d cur
  | SQuotedDollar d => visit_dollar SQuotedDollar SDoubleQuoted dq_push_dollar d cur
  | SCommandSymbol f p => visit_command_symbol f p cur
  end.

(** automata/mod.rs 57-63 *)
Definition apply_step (s : step) (cur : cursor) : cursor :=
  match s with
  | Resume => cur
  | Forward => cursor_step cur
  | Rollback c => c
  end.

(** automata/mod.rs 205-209 (the interner is gone, see above) *)
Record automaton := mkauto { au_state : state; au_cursor : cursor }.

(** automata/mod.rs 213-215 *)
Definition automaton_new (src : bytes) : automaton := mkauto SRoot (cursor_from src).

(** One round of the loop in automata/mod.rs 222-244. *)
Inductive round :=
| RContinue (a : automaton)
| ROutput (o : output) (a : automaton)
| REnd (a : automaton)
| RCrash.

(** automata/mod.rs 222-244: the body of the loop *)
Definition lex_round (a : automaton) : round :=
  match visit (au_state a) (au_cursor a) with
  | Crash => RCrash
  | Go t =>
    let eof := is_eof (au_cursor a) in
    let a' := mkauto (t_state t) (apply_step (t_step t) (au_cursor a)) in
    match t_out t with
    | Some o => ROutput o a'
    | None => if eof then REnd a' else RContinue a'
    end
  end.

(** [Automata::next], automata/mod.rs 222-244, with fuel for the loop. *)
Inductive next_result :=
| NOut (o : output) (a : automaton)
| NEnd (a : automaton)
| NCrash
| NFuel.

(** automata/mod.rs 222-244: the loop *)
Fixpoint lex_next (fuel : nat) (a : automaton) : next_result :=
  match fuel with
  | O => NFuel
  | S f =>
    match lex_round a with
    | RContinue a' => lex_next f a'
    | ROutput o a' => NOut o a'
    | REnd a' => NEnd a'
    | RCrash => NCrash
    end
  end.

(** All the outputs of the lexer up to the first [None], as a consumer of the iterator sees
    them.  [fuel] bounds the number of rounds in total. lexer/mod.rs 38-44 *)
Inductive lexed :=
| LexDone (os : list output)
| LexCrash (os : list output)
| LexFuel.

(** Auxiliary to [lex_rounds]: an output in front of the others *)
Definition lex_cons (o : output) (l : lexed) : lexed :=
  match l with
  | LexDone os => LexDone (o :: os)
  | LexCrash os => LexCrash (o :: os)
  | LexFuel => LexFuel
  end.

(** lexer/mod.rs 38-44: the iterator run to its end, with fuel *)
Fixpoint lex_rounds (fuel : nat) (a : automaton) : lexed :=
  match fuel with
  | O => LexFuel
  | S f =>
    match lex_round a with
    | RContinue a' => lex_rounds f a'
    | ROutput o a' => lex_cons o (lex_rounds f a')
    | REnd _ => LexDone []
    | RCrash => LexCrash []
    end
  end.

(** Enough rounds for every source (proved in LexerTermProofs.v). No counterpart in the code;
    the loop of automata/mod.rs 222-244 has no bound. *)
Definition lex_fuel (src : bytes) : nat := 16 + 16 * length src.

(** lexer/mod.rs 31-44 *)
Definition lex (src : bytes) : lexed := lex_rounds (lex_fuel src) (automaton_new src).

(** Kinds of the tokens produced, if lexing ended without crash and without error. For the
    statements only; main.rs lists lexemes and errors itself. *)
Fixpoint all_tokens (os : list output) : option (list token) :=
  match os with
  | [] => Some []
  | OkTok t :: os' => option_map (cons t) (all_tokens os')
  | ErrTok _ :: _ => None
  end.
