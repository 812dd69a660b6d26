(** Model of the parser: src/syntax/parser/mod.rs, command.rs, sync.rs and error/mod.rs, and
    of src/syntax/mod.rs (Analysis::analyze).

    The parser state holds the current token, the tokens not read yet and the errors reported
    so far.  Each Rust method is a function from states to results; [Err((error, strategy))]
    is [Er].  Loops and recursion run on fuel and give [PFuel] when it runs out (proved not to
    happen in ParserTermProofs.v). *)
From Coq Require Import Strings.String.
From Verif Require Import Base Lexer Ast.

(** parser/error/mod.rs 7-29 *)
Inductive expected := ExpTok (k : token_kind) | ExpMsg (m : bytes).
(** parser/error/mod.rs 16-26 *)
Inductive perror :=
| PUnexpectedEof
| PUnexpected (t : token) (e : expected)
| PEmptyCommandBlock (p : pos)
| PInvalidEnvAssign.

(** parser/error/mod.rs 43-45 *)
Definition unexpected_msg (t : token) (m : string) : perror := PUnexpected t (ExpMsg (bs m)).

(** parser/sync.rs 6-33.  The flags [skipped] and [found] start as [false] in every strategy
    the parser builds, so the initial strategy needs no flag; [synchronize] below keeps it. *)
Inductive strategy :=
| YKeep
| YSkipOne
| YToken (k : token_kind)
| YKeyword (k : keyword)
| YBlockTerminator
| YBasicCommandTerminator.

(** [PartialEq] of [Keyword] (token/mod.rs 8) *)
Definition keyword_eqb (a b : keyword) : bool :=
  match a, b with
  | KLet, KLet | KIf, KIf | KThen, KThen | KElse, KElse | KElseIf, KElseIf | KEnd, KEnd
  | KFor, KFor | KIn, KIn | KDo, KDo | KWhile, KWhile | KFunction, KFunction
  | KReturn, KReturn | KBreak, KBreak | KSelf, KSelf => true
  | _, _ => false
  end.

(** [PartialEq] of [TokenKind] (token/mod.rs 181), restricted to the kinds the parser compares
    with: keywords and punctuation. *)
Definition kind_eqb (t k : token_kind) : bool :=
  match t, k with
  | TKeyword a, TKeyword b => keyword_eqb a b
  | TColon, TColon | TComma, TComma | TOpenParens, TOpenParens | TCloseParens, TCloseParens
  | TOpenBracket, TOpenBracket | TOpenDict, TOpenDict | TCloseBracket, TCloseBracket
  | TCommand, TCommand | TAsyncCommand, TAsyncCommand | TCaptureCommand, TCaptureCommand
  | TCloseCommand, TCloseCommand | TSemicolon, TSemicolon | TPipe, TPipe => true
  | _, _ => false
  end.

(** token/mod.rs 217-222 *)
Definition is_block_terminator (k : token_kind) : bool :=
  match k with TKeyword (KEnd | KElse | KElseIf) => true | _ => false end.

(** token/mod.rs 236-241 *)
Definition is_basic_command_terminator (k : token_kind) : bool :=
  match k with TSemicolon | TPipe | TCloseCommand => true | _ => false end.

(** token/mod.rs 70-102 *)
Definition is_equality (o : operator) : bool :=
  match o with OEquals | ONotEquals => true | _ => false end.
(** token/mod.rs 70-102, as the following ones *)
Definition is_comparison (o : operator) : bool :=
  match o with OLower | OLowerEquals | OGreater | OGreaterEquals => true | _ => false end.
(** token/mod.rs 70-102 *)
Definition is_term (o : operator) : bool := match o with OPlus | OMinus => true | _ => false end.
(** token/mod.rs 70-102 *)
Definition is_factor (o : operator) : bool :=
  match o with OTimes | ODiv | OMod => true | _ => false end.
(** token/mod.rs 70-102 *)
Definition is_prefix (o : operator) : bool := match o with ONot | OMinus => true | _ => false end.
(** parser/mod.rs 406-422: the operator passed to [parse_binop] *)
Definition is_concat (o : operator) : bool := match o with OConcat => true | _ => false end.
(** parser/mod.rs 406-422: the operator passed to [parse_binop] *)
Definition is_and (o : operator) : bool := match o with OAnd => true | _ => false end.
(** parser/mod.rs 406-422: the operator passed to [parse_binop] *)
Definition is_or (o : operator) : bool := match o with OOr => true | _ => false end.

(** token/mod.rs 116-124 and 149-157 *)
Definition is_unquoted_number (p : arg_part) : bool :=
  match p with PUnquoted (AULiteral s) => forallb is_ascii_digit s | _ => false end.

(** token/mod.rs 169-177 *)
Definition is_redirection (k : token_kind) : bool :=
  match k with TCmdOperator (COutput _ | CInput _) => true | _ => false end.

(** parser/mod.rs 43-52.  [ps_left] records how far the token iterator has been asked for tokens
    (by [step], [peek] or [new]): it is 0 if it has been asked for a token beyond the last one, and
    otherwise 1 more than the number of tokens it has not been asked for.  This tells whether a
    crash of the lexer is reached, and which errors the lexer has reported so far.  Errors carry
    the value of [ps_left] at the time of their report. *)
Record pstate := mkps {
  ps_token : option token;
  ps_rest : list token;
  ps_left : nat;
  ps_errors : list (nat * perror) }.

(** [sync::Result] (parser/sync.rs 122-134), or out of fuel *)
Inductive res (A : Type) :=
| Ok (a : A) (s : pstate)
| Er (e : perror) (y : strategy) (s : pstate)
| PFuel.
Arguments Ok {A}. Arguments Er {A}. Arguments PFuel {A}.

(** The methods of [Parser] take it by mutable reference (parser/mod.rs 55-65). *)
Definition P (A : Type) := pstate -> res A.

(** [Ok] in the methods of parser/mod.rs *)
Definition ret {A} (a : A) : P A := fun s => Ok a s.
(** The operator [?] in the methods of parser/mod.rs *)
Definition bind {A B} (m : P A) (k : A -> P B) : P B :=
  fun s => match m s with Ok a s' => k a s' | Er e y s' => Er e y s' | PFuel => PFuel end.
Notation "x <- m ;; k" := (bind m (fun x => k)) (at level 61, m at next level, right associativity).
Notation "' p <- m ;; k" := (bind m (fun x => match x with p => k end))
  (at level 61, p pattern, m at next level, right associativity).
(** [Err] in the methods of parser/mod.rs *)
Definition fail {A} (e : perror) (y : strategy) : P A := fun s => Er e y s.
(** No counterpart; never reached (ParserTermProofs.v) *)
Definition out_of_fuel {A} : P A := fun _ => PFuel.

(** [match &self.token]. parser/mod.rs 43-52: the field [token] *)
Definition with_token {A} (k : option token -> P A) : P A := fun s => k (ps_token s) s.

(** parser/mod.rs 61-65 *)
Definition pnew (ts : list token) : pstate :=
  mkps (hd_error ts) (tl ts) (length ts) [].

(** parser/mod.rs 69-71 *)
Definition ppeek : P (option token) := fun s =>
  Ok (hd_error (ps_rest s))
     (mkps (ps_token s) (ps_rest s) (Nat.min (ps_left s) (length (ps_rest s))) (ps_errors s)).

(** parser/mod.rs 75-77 *)
Definition step : P unit := fun s =>
  Ok tt (mkps (hd_error (ps_rest s)) (tl (ps_rest s)) (Nat.min (ps_left s) (length (ps_rest s))) (ps_errors s)).

(** [self.token.take()] without putting the token back. parser/mod.rs 87-102 *)
Definition take_token : P unit := fun s => Ok tt (mkps None (ps_rest s) (ps_left s) (ps_errors s)).

(** parser/mod.rs 81-102.  [f] answers [inl] when the token is accepted.  The error carries no
    strategy in the code; every caller adds one with [with_sync] or drops the error. *)
Definition eat {A} (f : token -> A + perror) : P A :=
  with_token (fun t =>
    match t with
    | Some t => match f t with
                | inl a => _ <- step ;; ret a
                | inr e => fail e YKeep
                end
    | None => fail PUnexpectedEof YKeep
    end).

(** parser/mod.rs 106-111 *)
Definition expect (k : token_kind) : P pos :=
  eat (fun t => if kind_eqb (tk_kind t) k then inl (tk_pos t) else inr (PUnexpected t (ExpTok k))).

(** parser/sync.rs 82-110 with the loop of parser/mod.rs 175-185, for one strategy.
    Tokens are skipped until the strategy says it is synchronized. *)
Fixpoint skip_until (found : token_kind -> bool) (ts : list token) : list token :=
  match ts with
  | [] => []
  | t :: ts' => if found (tk_kind t) then ts' else skip_until found ts'
  end.

(** parser/sync.rs 84-118 with the loop of parser/mod.rs 175-185 *)
Definition skip_tokens (y : strategy) (ts : list token) : list token :=
  match y with
  | YKeep => ts
  | YSkipOne => tl ts
  | YToken k => skip_until (fun t => kind_eqb t k) ts
  | YKeyword k => skip_until (fun t => match t with TKeyword k' => keyword_eqb k' k | _ => false end) ts
  | YBlockTerminator => skip_until is_block_terminator ts
  | YBasicCommandTerminator => skip_until is_basic_command_terminator ts
  end.

(** parser/mod.rs 175-185 *)
Definition sync (e : perror) (y : strategy) (s : pstate) : pstate :=
  let errors := ps_errors s ++ [(ps_left s, e)] in
  match ps_token s with
  | None => mkps None (ps_rest s) (ps_left s) errors
  | Some t =>
    let left := skip_tokens y (t :: ps_rest s) in
    mkps (hd_error left) (tl left) (Nat.min (ps_left s) (length left)) errors
  end.

(** parser/sync.rs 164-170 *)
Definition synchronize {A} (ill : A) (m : P A) : P A :=
  fun s => match m s with Er e y s' => Ok ill (sync e y s') | r => r end.

(** parser/sync.rs 140-144 *)
Definition with_sync {A} (y : strategy) (m : P A) : P A :=
  fun s => match m s with Er e _ s' => Er e y s' | r => r end.

(** parser/sync.rs 174-181 *)
Definition force_sync_skip {A} (m : P A) : P A :=
  fun s => match m s with Er e YKeep s' => Er e YSkipOne s' | r => r end.

(** parser/mod.rs 116-144 *)
Fixpoint sep_by {A} (n : nat) (ill : A) (parse : P A) (sep stop : token_kind -> bool) : P (list A) :=
  match n with
  | O => out_of_fuel
  | S n =>
    with_token (fun t =>
      if match t with Some t => stop (tk_kind t) | None => false end then ret []
      else
        item <- synchronize ill parse ;;
        with_token (fun t =>
          if match t with Some t => sep (tk_kind t) | None => false end
          then _ <- step ;; items <- sep_by n ill parse sep stop ;; ret (item :: items)
          else ret [item]))
  end.

(** parser/mod.rs 148-155 and 159-166 *)
Definition comma_sep {A} (n : nat) (ill : A) (parse : P A) (stop : token_kind) : P (list A) :=
  sep_by n ill parse (fun k => kind_eqb k TComma) (fun k => kind_eqb k stop).
(** parser/mod.rs 159-166 *)
Definition semicolon_sep {A} (n : nat) (ill : A) (parse : P A) (stop : token_kind) : P (list A) :=
  sep_by n ill parse (fun k => kind_eqb k TSemicolon) (fun k => kind_eqb k stop).

(** ast/mod.rs 174-184 and 214-233: operators the parser passes are always mapped. *)
Definition unary_of (o : operator) : unary_op :=
  match o with OMinus => UMinus | ONot => UNot | _ => UTry end.
(** ast/mod.rs 219-239 *)
Definition binary_of (o : operator) : binary_op :=
  match o with
  | OPlus => BPlus | OMinus => BMinus | OTimes => BTimes | ODiv => BDiv | OMod => BMod
  | OEquals => BEquals | ONotEquals => BNotEquals | OGreater => BGreater
  | OGreaterEquals => BGreaterEquals | OLower => BLower | OLowerEquals => BLowerEquals
  | OAnd => BAnd | OOr => BOr
  | _ => BConcat
  end.

(** parser/mod.rs 708-717 *)
Definition parse_identifier : P (symbol * pos) :=
  with_sync YKeep (eat (fun t =>
    match tk_kind t with
    | TIdentifier s => inl (s, tk_pos t)
    | _ => inr (unexpected_msg t "identifier")
    end)).

(** ** Commands: parser/command.rs *)

(** command.rs 352-367 *)
Fixpoint build_units (us : list arg_unit) (lit : bytes) : list ast_part * bytes :=
  match us with
  | [] => ([], lit)
  | AULiteral l :: us' => build_units us' (lit ++ l)
  | AUDollar s p :: us' =>
    let '(parts, lit') := build_units us' [] in
    (match lit with [] => [] | _ => [APUnit (AULiteral lit)] end ++ APUnit (AUDollar s p) :: parts, lit')
  end.

(** command.rs 296-376: the pending literal is an argument; it is flushed, when not empty,
    before any other part and at the end. *)
Definition flush (lit : bytes) : list ast_part :=
  match lit with [] => [] | _ => [APUnit (AULiteral lit)] end.

(** command.rs 296-370 *)
Fixpoint build_parts (ps : list arg_part) (lit : bytes) : list ast_part :=
  match ps with
  | [] => flush lit
  | PSingleQuoted l :: ps' => build_parts ps' (lit ++ l)
  | PDoubleQuoted us :: ps' =>
    let '(parts, lit') := build_units us lit in parts ++ build_parts ps' lit'
  | PUnquoted (AULiteral l) :: ps' => build_parts ps' (lit ++ l)
  | PUnquoted (AUDollar s p) :: ps' => flush lit ++ APUnit (AUDollar s p) :: build_parts ps' []
  | PExpansion e :: ps' => flush lit ++ APExpansion e :: build_parts ps' []
  | PEnvAssign :: ps' => build_parts ps' (lit ++ bs "=")
  end.

(** command.rs 296-370 *)
Definition build_arg (ps : list arg_part) (p : pos) : ast_argument := mkarg (build_parts ps []) p.

(** command.rs 138-150 *)
Definition parse_argument : P ast_argument :=
  eat (fun t => match tk_kind t with
                | TArgument ps => inl (build_arg ps (tk_pos t))
                | _ => inr (unexpected_msg t "argument")
                end).

(** command.rs 153-174: [None] when the token is not an environment assignment *)
Definition parse_env_assign : P (option (arg_unit * ast_argument)) :=
  with_token (fun t =>
    match t with
    | Some t =>
      match tk_kind t with
      | TArgument (PUnquoted key :: PEnvAssign :: ps) =>
        _ <- step ;; ret (Some (key, build_arg ps (tk_pos t)))
      | _ => ret None
      end
    | None => ret None
    end).

(** command.rs 84: [std::iter::from_fn(|| self.parse_env_assign()).collect()] *)
Fixpoint parse_env (n : nat) : P (list (arg_unit * ast_argument)) :=
  match n with
  | O => out_of_fuel
  | S n =>
    e <- parse_env_assign ;;
    match e with
    | Some kv => rest <- parse_env n ;; ret (kv :: rest)
    | None => ret []
    end
  end.

(** [u8::from_str]: an optional plus sign, then at least one digit, value at most 255. *)
Definition parse_u8 (s : bytes) : option Z :=
  let ds := match s with x2b :: ds => ds | _ => s end in
  match ds with
  | [] => None
  | _ => if forallb is_ascii_digit ds && (digits_val ds <=? 255)%Z then Some (digits_val ds) else None
  end.

(** command.rs 275-294 *)
Definition parse_file_descriptor : P (option Z) :=
  with_token (fun t =>
    match t with
    | Some t =>
      match tk_kind t with
      | TArgument [PUnquoted (AULiteral l)] =>
        match parse_u8 l with
        | Some n => _ <- step ;; ret (Some n)
        | None => ret None
        end
      | _ => ret None
      end
    | None => ret None
    end).

(** command.rs 239-271 *)
Definition parse_output_redirection (source : Z) : P redirection :=
  with_token (fun t =>
    match t with
    | Some t =>
      match tk_kind t with
      | TCmdOperator (COutput append) =>
        _ <- step ;;
        if append then
          a <- with_sync YKeep parse_argument ;; ret (ROutputTo source (RAppend a))
        else
          fd <- parse_file_descriptor ;;
          match fd with
          | Some fd => ret (ROutputTo source (RFd fd))
          | None => a <- with_sync YKeep parse_argument ;; ret (ROutputTo source (ROverwrite a))
          end
      | _ => fail (unexpected_msg t "output redirection") YSkipOne
      end
    | None => fail PUnexpectedEof YKeep
    end).

(** command.rs 207-235; [io::stdout_fd()] is 1 *)
Definition parse_redirection : P redirection :=
  with_token (fun t =>
    match t with
    | Some t =>
      match tk_kind t with
      | TCmdOperator (CInput literal) =>
        _ <- step ;;
        a <- with_sync YKeep parse_argument ;; ret (RInputFrom literal a)
      | _ =>
        fd <- parse_file_descriptor ;;
        parse_output_redirection (match fd with Some fd => fd | None => 1%Z end)
      end
    | None => fail PUnexpectedEof YKeep
    end).

(** command.rs 178-203 *)
Fixpoint parse_operators (n : nat) : P (list redirection * bool) :=
  match n with
  | O => out_of_fuel
  | S n =>
    with_token (fun t =>
      match t with
      | Some t =>
        if is_basic_command_terminator (tk_kind t) then ret ([], true)
        else match tk_kind t with
             | TCmdOperator CTry => _ <- step ;; ret ([], false)
             | _ =>
               r <- synchronize RIllFormed parse_redirection ;;
               '(rs, abort) <- parse_operators n ;;
               ret (r :: rs, abort)
             end
      | None => fail PUnexpectedEof YKeep
      end)
  end.

(** command.rs 92-114 *)
Definition is_redirection_next : P bool :=
  with_token (fun t =>
    match t with
    | Some t =>
      match tk_kind t with
      | TArgument [part] =>
        if is_unquoted_number part then
          nxt <- ppeek ;;
          ret match nxt with Some t' => is_redirection (tk_kind t') | None => false end
        else ret false
      | _ => ret false
      end
    | None => ret false
    end).

(** command.rs 92-114: the loop *)
Fixpoint parse_arguments (n : nat) : P (list ast_argument) :=
  match n with
  | O => out_of_fuel
  | S n =>
    r <- is_redirection_next ;;
    if r then ret []
    else with_token (fun t =>
           match t with
           | Some t =>
             match tk_kind t with
             | TArgument _ => a <- parse_argument ;; rest <- parse_arguments n ;; ret (a :: rest)
             | _ => ret []
             end
           | None => ret []
           end)
  end.

(** command.rs 86-134 *)
Definition parse_basic_command (n : nat) : P basic_command :=
  env <- parse_env n ;;
  program <- with_sync YBasicCommandTerminator parse_argument ;;
  args <- parse_arguments n ;;
  '(rs, abort) <- with_sync YBasicCommandTerminator (parse_operators n) ;;
  ret (mkbasic program env args rs abort (arg_pos program)).

(** command.rs 68-75 *)
Fixpoint parse_pipe (n : nat) (basic : P basic_command) : P (list basic_command) :=
  match n with
  | O => out_of_fuel
  | S n =>
    with_token (fun t =>
      match t with
      | Some (mktoken TPipe _) =>
        _ <- step ;; b <- synchronize ill_basic basic ;; bs <- parse_pipe n basic ;; ret (b :: bs)
      | _ => ret []
      end)
  end.

(** command.rs 62-82 *)
Definition parse_command (n : nat) : P command :=
  head <- synchronize ill_basic (parse_basic_command n) ;;
  tail <- parse_pipe n (parse_basic_command n) ;;
  ret (mkcommand head tail).

(** ast/command.rs 218-225 *)
Definition block_kind_of (k : token_kind) : option block_kind :=
  match k with
  | TCommand => Some Synchronous
  | TAsyncCommand => Some Asynchronous
  | TCaptureCommand => Some Capture
  | _ => None
  end.

(** command.rs 22-58 *)
Definition parse_command_block (n : nat) : P command_block :=
  kind <- with_sync YSkipOne (eat (fun t =>
            match block_kind_of (tk_kind t) with
            | Some k => inl k
            | None => inr (unexpected_msg t "command block")
            end)) ;;
  with_token (fun t =>
    match t with
    | Some (mktoken TCloseCommand p) => fail (PEmptyCommandBlock p) YSkipOne
    | _ =>
      head <- parse_command n ;;
      tail <- with_token (fun t =>
                match t with
                | Some (mktoken TSemicolon _) =>
                  _ <- step ;; semicolon_sep n ill_command (parse_command n) TCloseCommand
                | _ => ret []
                end) ;;
      _ <- with_sync (YToken TCloseCommand) (expect TCloseCommand) ;;
      ret (mkblock kind head tail)
    end).

(** ** Expressions and statements.  [pe] is the recursive call of [parse_expression], [pb] that
    of [parse_block], [n] the fuel of the loops. *)
Section Bodies.
  Variable n : nat.
  Variable pe : P expr.
  Variable pb : P block.

  Definition expect_sync (k : token_kind) (y : strategy) : P pos := with_sync y (expect k).

  (** [expect(..).with_sync(keep).synchronize(self)]; the position is not used *)
  Definition expect_keep (k : token_kind) (y : strategy) : P pos :=
    synchronize ill_pos (with_sync y (expect k)).

  (** parser/mod.rs 723-754 *)
  Definition parse_function : P (list (symbol * pos) * block) :=
    open_parens <- (fun s => match expect TOpenParens s with
                             | Ok _ s' => Ok true s'
                             | Er e _ s' => Ok false (sync e YKeep s')
                             | PFuel => PFuel
                             end) ;;
    params <- comma_sep n ill_ident parse_identifier TCloseParens ;;
    _ <- expect_keep TCloseParens (if open_parens : bool then YToken TCloseParens else YKeep) ;;
    body <- pb ;;
    _ <- expect_sync (TKeyword KEnd) (YKeyword KEnd) ;;
    ret (params, body).

  (** parser/mod.rs 759-798 *)
  Fixpoint parse_condblock (m : nat) : P (expr * block * block) :=
    match m with
    | O => out_of_fuel
    | S m =>
      condition <- synchronize EIllFormed pe ;;
      _ <- expect_keep (TKeyword KThen) YKeep ;;
      then_ <- pb ;;
      otherwise <- with_token (fun t =>
        match t with
        | Some (mktoken (TKeyword KEnd) _) => ret (BBlock [])
        | Some (mktoken (TKeyword KElseIf) p) =>
          _ <- step ;;
          '(c, t, e) <- parse_condblock m ;;
          ret (BBlock [SExpr (EIf c t e p)])
        | Some (mktoken (TKeyword KElse) _) => _ <- step ;; pb
        | Some t => _ <- take_token ;; fail (unexpected_msg t "end, else or elseif") YBlockTerminator
        | None => fail PUnexpectedEof YKeep
        end) ;;
      ret (condition, then_, otherwise)
    end.

  (** parser/mod.rs 612-622 *)
  Definition parse_dict_item : P ((symbol * pos) * expr) :=
    key <- synchronize ill_ident (with_sync YSkipOne parse_identifier) ;;
    _ <- expect_keep TColon YKeep ;;
    value <- pe ;;
    ret (key, value).

  (** parser/mod.rs 571-704 *)
  Definition parse_primary : P expr :=
    with_token (fun t =>
      match t with
      | Some (mktoken k p) =>
        match k with
        | TIdentifier s => _ <- step ;; ret (EIdent s p)
        | TKeyword KSelf => _ <- step ;; ret (ESelf p)
        | TLiteral l => _ <- step ;; ret (ELit l p)
        | TOpenBracket =>
          _ <- step ;;
          items <- comma_sep n EIllFormed pe TCloseBracket ;;
          _ <- expect_sync TCloseBracket (YToken TCloseBracket) ;;
          ret (EArray items p)
        | TOpenDict =>
          _ <- step ;;
          items <- comma_sep n (ill_ident, EIllFormed) parse_dict_item TCloseBracket ;;
          _ <- expect_sync TCloseBracket (YToken TCloseBracket) ;;
          ret (EDict items p)
        | TKeyword KFunction =>
          _ <- step ;;
          '(params, body) <- parse_function ;;
          ret (EFunction params body p)
        | TCommand | TAsyncCommand | TCaptureCommand =>
          b <- synchronize ill_command_block (parse_command_block n) ;;
          ret (ECommand b p)
        | TKeyword KIf =>
          _ <- step ;;
          '(c, t, e) <- parse_condblock n ;;
          _ <- expect_sync (TKeyword KEnd) (YKeyword KEnd) ;;
          ret (EIf c t e p)
        | TOpenParens =>
          _ <- step ;;
          e <- synchronize EIllFormed pe ;;
          _ <- expect_sync TCloseParens (YToken TCloseParens) ;;
          ret e
        | _ => fail (unexpected_msg (mktoken k p) "expression") YKeep
        end
      | None => fail PUnexpectedEof YKeep
      end).

  (** parser/mod.rs 487-567 *)
  Fixpoint postfix_loop (m : nat) (e : expr) : P expr :=
    match m with
    | O => out_of_fuel
    | S m =>
      with_token (fun t =>
        match t with
        | Some (mktoken TOpenParens p) =>
          _ <- step ;;
          args <- comma_sep n EIllFormed pe TCloseParens ;;
          _ <- expect_sync TCloseParens (YToken TCloseParens) ;;
          postfix_loop m (ECall e args p)
        | Some (mktoken TOpenBracket p) =>
          _ <- step ;;
          field <- synchronize EIllFormed pe ;;
          _ <- expect_sync TCloseBracket (YToken TCloseBracket) ;;
          postfix_loop m (EAccess e field p)
        | Some (mktoken (TOperator ODot) p) =>
          _ <- step ;;
          '(id, id_pos) <- parse_identifier ;;
          postfix_loop m (EAccess e (EFieldName id id_pos) p)
        | Some (mktoken (TOperator OTry) p) =>
          _ <- step ;;
          postfix_loop m (EUnary UTry e p)
        | _ => ret e
        end)
    end.

  Definition parse_postfix : P expr := e <- parse_primary ;; postfix_loop n e.

  (** parser/mod.rs 464-483 *)
  Fixpoint parse_prefix (m : nat) : P expr :=
    match m with
    | O => out_of_fuel
    | S m =>
      with_token (fun t =>
        match t with
        | Some (mktoken (TOperator o) p) =>
          if is_prefix o then _ <- step ;; e <- parse_prefix m ;; ret (EUnary (unary_of o) e p)
          else parse_postfix
        | _ => parse_postfix
        end)
    end.

  (** parser/mod.rs 437-457 *)
  Fixpoint binop_loop (m : nat) (higher : P expr) (check : operator -> bool) (e : expr) : P expr :=
    match m with
    | O => out_of_fuel
    | S m =>
      with_token (fun t =>
        match t with
        | Some (mktoken (TOperator o) p) =>
          if check o then
            _ <- step ;;
            r <- higher ;;
            binop_loop m higher check (EBinary e (binary_of o) r p)
          else ret e
        | _ => ret e
        end)
    end.

  (** parser/mod.rs 426-460 *)
  Definition parse_binop (higher : P expr) (check : operator -> bool) : P expr :=
    e <- higher ;; binop_loop n higher check e.

  (** parser/mod.rs 406-422 *)
  Definition expression_body : P expr :=
    let parse_factor := parse_binop (parse_prefix n) is_factor in
    let parse_term := parse_binop parse_factor is_term in
    let parse_concat := parse_binop parse_term is_concat in
    let parse_comparison := parse_binop parse_concat is_comparison in
    let parse_equality := parse_binop parse_comparison is_equality in
    let parse_and := parse_binop parse_equality is_and in
    parse_binop parse_and is_or.

  (** parser/mod.rs 257-402 *)
  Definition parse_statement : P statement :=
    with_token (fun t =>
      match t with
      | Some (mktoken k p) =>
        let expression_statement :=
          e <- pe ;;
          with_token (fun t =>
            match t with
            | Some (mktoken (TOperator OAssign) p) =>
              _ <- step ;; r <- pe ;; ret (SAssign e r p)
            | _ => ret (SExpr e)
            end) in
        match k with
        | TKeyword KLet =>
          _ <- step ;;
          '(id, p) <- synchronize ill_ident parse_identifier ;;
          init <- with_token (fun t =>
                    match t with
                    | Some (mktoken (TOperator OAssign) _) => _ <- step ;; pe
                    | _ => ret (ELit LNil p)
                    end) ;;
          ret (SLet id init p)
        | TKeyword KFunction =>
          nxt <- ppeek ;;
          match nxt with
          | Some (mktoken (TIdentifier _) _) =>
            _ <- step ;;
            '(id, id_pos) <- parse_identifier ;;
            '(params, body) <- parse_function ;;
            ret (SLet id (EFunction params body p) id_pos)
          | _ => expression_statement
          end
        | TKeyword KReturn =>
          _ <- step ;;
          e <- with_token (fun t =>
                 if match t with Some t => is_block_terminator (tk_kind t) | None => false end
                 then ret (ELit LNil p) else pe) ;;
          ret (SReturn e p)
        | TKeyword KBreak => _ <- step ;; ret (SBreak p)
        | TKeyword KWhile =>
          _ <- step ;;
          c <- synchronize EIllFormed pe ;;
          _ <- expect_keep (TKeyword KDo) YKeep ;;
          b <- pb ;;
          _ <- expect_sync (TKeyword KEnd) (YKeyword KEnd) ;;
          ret (SWhile c b p)
        | TKeyword KFor =>
          _ <- step ;;
          '(id, p) <- synchronize ill_ident parse_identifier ;;
          _ <- expect_keep (TKeyword KIn) YSkipOne ;;
          e <- synchronize EIllFormed pe ;;
          _ <- expect_keep (TKeyword KDo) YKeep ;;
          b <- pb ;;
          _ <- expect_sync (TKeyword KEnd) (YKeyword KEnd) ;;
          ret (SFor id e b p)
        | _ => expression_statement
        end
      | None => fail PUnexpectedEof YKeep
      end).

  (** parser/mod.rs 219-246 *)
  Fixpoint block_loop (m : nat) : P (list statement) :=
    match m with
    | O => out_of_fuel
    | S m =>
      with_token (fun t =>
        match t with
        | None => ret []
        | Some t =>
          if is_block_terminator (tk_kind t) then ret []
          else
            st <- synchronize SIllFormed (force_sync_skip parse_statement) ;;
            match st with
            | SReturn _ _ => ret [st]
            | _ => rest <- block_loop m ;; ret (st :: rest)
            end
        end)
    end.
End Bodies.

(** parser/mod.rs 405-407 and 223-253, closing the recursion.  The recursive calls are
    eta-expanded so that evaluation by value does not unfold them too early. *)
Fixpoint parse_expression (n : nat) : P expr :=
  match n with
  | O => out_of_fuel
  | S n => expression_body n (fun s => parse_expression n s) (fun s => parse_block n s)
  end
with parse_block (n : nat) : P block :=
  match n with
  | O => out_of_fuel
  | S n => 
    ss <- block_loop n (fun s => parse_expression n s) (fun s => parse_block n s) n ;; ret (BBlock ss)
  end.

(** parser/mod.rs 195-216.  Every turn of the loop but the last one throws its block away. *)
Fixpoint parse_program (n : nat) (pb : P block) : P block :=
  match n with
  | O => out_of_fuel
  | S n =>
    b <- pb ;;
    with_token (fun t =>
      match t with
      | Some t =>
        if is_block_terminator (tk_kind t)
        then _ <- take_token ;;
             _ <- synchronize tt (fail (unexpected_msg t "statement") YSkipOne) ;;
             parse_program n pb
        else parse_program n pb
      | None => ret b
      end)
  end.

(** The fuel is a bound proved sufficient in ParserTermProofs.v. No counterpart; the recursion
    of parser/mod.rs 223-406 has no bound. *)
Definition parser_fuel (ts : list token) : nat := 2 * length ts + 3.

(** parser/mod.rs 195-216: what [parse] gives *)
Inductive parsed :=
| Parsed (b : block) (errors : list perror) (reached_end : bool)
| ParseFuel.

(** parser/mod.rs 61-65 and 195-216 *)
Definition parse_tokens_with (n : nat) (ts : list token) : parsed :=
  match parse_program n (parse_block n) (pnew ts) with
  | Ok b s => Parsed b (map snd (ps_errors s)) (Nat.eqb (ps_left s) 0)
  | _ => ParseFuel
  end.

(** parser/mod.rs 61-65 and 195-216 *)
Definition parse_tokens (ts : list token) : parsed := parse_tokens_with (parser_fuel ts) ts.

(** ** src/syntax/mod.rs 33-63 *)

(** The [filter_map] of src/syntax/mod.rs 42-48: tokens go to the parser, errors are kept. *)
Definition tokens_of (os : list output) : list token :=
  flat_map (fun o => match o with OkTok t => [t] | ErrTok _ => [] end) os.
(** The other branch of the same [filter_map]: src/syntax/mod.rs 42-48 *)
Definition lex_errors_of (os : list output) : list lex_error :=
  flat_map (fun o => match o with ErrTok e => [e] | OkTok _ => [] end) os.

(** src/syntax/mod.rs 23-28 *)
Inductive analysis :=
| Analysis (b : block) (lexer_errors : list lex_error) (parser_errors : list perror)
| AnalysisCrash
| AnalysisFuel.

(** Simplified in two ways.  The two kinds of errors are kept in separate lists; the list of the
    code is [syntax_errors] below.  The lexer runs to its end, while in the code it is not asked
    for tokens after the parser has given up; the parser has reported an error by then, so
    whether the analysis is without errors is not affected (C78).  A crash of the lexer takes
    effect only when the parser asks for the token. *)
Definition analyze (src : bytes) : analysis :=
  match lex src with
  | LexDone os =>
    match parse_tokens (tokens_of os) with
    | Parsed b es _ => Analysis b (lex_errors_of os) es
    | ParseFuel => AnalysisFuel
    end
  | LexCrash os =>
    match parse_tokens (tokens_of os) with
    | Parsed b es reached_end => if reached_end then AnalysisCrash else Analysis b (lex_errors_of os) es
    | ParseFuel => AnalysisFuel
    end
  | LexFuel => AnalysisFuel
  end.

(** src/syntax/error/mod.rs 8-11 *)
Inductive syntax_error := SynLexer (e : lex_error) | SynParser (e : perror).

(** The errors in the order of their reports, from the output of the lexer and the errors of the
    parser with the values of [ps_left] at their reports; [last] is the value at the end.  An error
    of the parser with [m] or more comes before the next output of the lexer when there are
    [m - 1] tokens left. src/syntax/mod.rs 40-63 *)
Fixpoint reported_by (m : nat) (pes : list (nat * perror)) : list syntax_error * list (nat * perror) :=
  match pes with
  | (k, e) :: r =>
    if m <=? k then let '(es, r) := reported_by m r in (SynParser e :: es, r) else ([], pes)
  | [] => ([], [])
  end.
(** src/syntax/mod.rs 40-63 *)
Fixpoint in_turn (last : nat) (os : list output) (pes : list (nat * perror)) : list syntax_error :=
  match os with
  | [] => map (fun e => SynParser (snd e)) pes
  | o :: os' =>
    let m := S (length (tokens_of os)) in
    let '(es, pes) := reported_by m pes in
    es ++
    if m <=? last then []
    else match o with
         | OkTok _ => in_turn last os' pes
         | ErrTok e => SynLexer e :: in_turn last os' pes
         end
  end.

(** The [errors] of src/syntax/mod.rs 40-63; the tree is that of [analyze]. *)
Definition syntax_errors (src : bytes) : list syntax_error :=
  match lex src with
  | LexDone os | LexCrash os =>
    let ts := tokens_of os in
    let n := parser_fuel ts in
    match parse_program n (parse_block n) (pnew ts) with
    | Ok _ s => in_turn (ps_left s) os (ps_errors s)
    | _ => []
    end
  | LexFuel => []
  end.
