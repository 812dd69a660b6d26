(** Model of the program around the interpreter: src/main.rs and src/args.rs. *)
From Coq Require Import Strings.String.
From Verif Require Import Base Lexer Ast Parser Program Sema Value Text StdLib Exec Runtime.

(** main.rs 23-28 *)
Inductive exit_status := Success | InvalidArgs | StaticError | PanicStatus.
(** main.rs 31-40 *)
Definition status_code (s : exit_status) : Z :=
  match s with Success => 0 | InvalidArgs => 1 | StaticError => 2 | PanicStatus => 127 end.

(** What the clap library makes of the command line (args.rs 31-53): the flags that are present
    and the remaining arguments, or a text to be shown, or an error. *)
Record matches := mkmatches {
  m_check : bool; m_lex : bool; m_ast : bool; m_program : bool; m_arguments : list bytes }.
(** What [get_matches_from_safe] gives, args.rs 31-59 *)
Inductive clap := ClapMatches (m : matches) | ClapHelp | ClapVersion | ClapError.

(** args.rs 15-27 *)
Record options := mkoptions {
  o_script : option bytes; o_check : bool; o_lex : bool; o_ast : bool; o_program : bool;
  o_args : list bytes }.
(** args.rs 7-11 *)
Inductive command_line := CmdHelp | CmdVersion | CmdRun (o : options).

(** args.rs 60-77: the first argument is the script only when it names a file, and the script
    is read from the terminal otherwise. *)
Definition script_of (is_file : bytes -> bool) (arguments : list bytes)
  : option bytes * list bytes :=
  match arguments with
  | [] => (None, [])
  | arg :: r =>
      if bytes_eqb arg (bs "-") then (None, r)
      else if is_file arg then (Some arg, r) else (None, arg :: r)
  end.

(** args.rs 54-100 *)
Definition parse_args (is_file : bytes -> bool) (c : clap) : option command_line :=
  match c with
  | ClapMatches m =>
      let '(script, args) := script_of is_file (m_arguments m) in
      Some (CmdRun (mkoptions script (m_check m) (m_lex m) (m_ast m) (m_program m) args))
  | ClapHelp => Some CmdHelp
  | ClapVersion => Some CmdVersion
  | ClapError => None
  end.

(** What is shown on the way, on either terminal stream.  The texts of errors and lexemes are in
    Report.v, those of panics in StdLib.v; the others are not modelled. main.rs 64-186. *)
Inductive shown :=
| ShArgError | ShHelp | ShVersion
| ShUnreadable (e : bytes)
| ShSyntaxErrors (es : list syntax_error)
| ShLexemes (os : list output)
| ShAst (b : block)
| ShSemanticErrors (es : list serror)
| ShProgram (p : program)
| ShPanic (p : panic).

(** How the process ends: with a status; because [std.exit] ended it during the evaluation; by an
    internal error; or not within the fuel. main.rs 43-61. *)
Inductive ending := Status (s : exit_status) | Exited (code : Z) | Aborted | Unfinished.

Section Main.
Context {W : Type}.
Variable X : ext W.
Variable O : os W.
(** Reading the script (syntax/source.rs 23-47): a file, or everything from the terminal. *)
Variable read_source : option bytes -> W -> (bytes + bytes) * W.

(** main.rs 109-117: the lexemes are collected before they are shown *)
Definition lexemes (o : options) (text : bytes) : lexed :=
  if o_lex o then Lexer.lex text else LexDone [].

(** main.rs 64-186; showing lexemes and tree does not depend on errors *)
Definition run_main (n : nat) (o : options) (w : W) : ending * list shown * W :=
  let path := match o_script o with Some p => p | None => bs "<stdin>" end in
  match read_source (o_script o) w with
  | (inl e, w) => (Status PanicStatus, [ShUnreadable e], w)
  | (inr text, w) =>
      match analyze text with
      | AnalysisCrash => (Aborted, [], w)
      | AnalysisFuel => (Unfinished, [], w)
      | Analysis b _ _ =>
          let es := syntax_errors text in
          let failed := match es with [] => false | _ => true end in
          let out := if failed then [ShSyntaxErrors es] else [] in
          match lexemes o text with
          | LexCrash _ => (Aborted, out, w)
          | LexFuel => (Unfinished, out, w)
          | LexDone os =>
          let out := out ++ (if o_lex o then [ShLexemes os] else [])
            ++ (if o_ast o then [ShAst b] else []) in
          match sema b with
          | SemaCrash => (Aborted, out, w)
          | SemaErrors es => (Status StaticError, out ++ [ShSemanticErrors es], w)
          | SemaOk p =>
              let out := out ++ (if o_program o then [ShProgram p] else []) in
              if failed then (Status StaticError, out, w)
              else if o_check o then (Status Success, out, w)
              else
                match run_program X O true false n path p (o_args o) w with
                | Val _ s => (Status Success, out, st_world s)
                | Pan e s => (Status PanicStatus, out ++ [ShPanic e], st_world s)
                | Exit c s => (Exited c, out, st_world s)
                | Crash _ => (Aborted, out, w)
                | Fuel => (Unfinished, out, w)
                end
          end
          end
      end
  end.

(** main.rs 43-61 *)
Definition hush (n : nat) (is_file : bytes -> bool) (c : clap) (w : W)
  : ending * list shown * W :=
  match parse_args is_file c with
  | None => (Status InvalidArgs, [ShArgError], w)
  | Some CmdHelp => (Status Success, [ShHelp], w)
  | Some CmdVersion => (Status Success, [ShVersion], w)
  | Some (CmdRun o) => run_main n o w
  end.
End Main.

(** The status seen by the parent process: the exit function of the operating system keeps the
    lowest eight bits; an internal error of a Rust program gives 101. *)
Definition process_status (e : ending) : option Z :=
  match e with
  | Status s => Some (status_code s)
  | Exited c => Some (c mod 256)%Z
  | Aborted => Some 101%Z
  | Unfinished => None
  end.
