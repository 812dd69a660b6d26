(** Model of the abstract syntax tree: src/syntax/ast/mod.rs and src/syntax/ast/command.rs. *)
From Coq Require Import Strings.String.
From Verif Require Import Base Lexer.

(** ast/command.rs 7-13.  [Literal] and [Dollar] are those of the lexer. *)
Inductive ast_part :=
| APUnit (u : arg_unit)          (* ast/command.rs 64-67 *)
| APExpansion (e : arg_expansion).

(** ast/command.rs 69-72 *)
Record ast_argument := mkarg { arg_parts : list ast_part; arg_pos : pos }.

(** ast/command.rs 91-98.  [FileDescriptor] is a number. *)
Inductive redirection_target :=
| RFd (fd : Z)
| ROverwrite (a : ast_argument)
| RAppend (a : ast_argument).

(** ast/command.rs 103-117 *)
Inductive redirection :=
| RIllFormed
| ROutputTo (source : Z) (target : redirection_target)
| RInputFrom (literal : bool) (source : ast_argument).

(** ast/command.rs 133-141 *)
Record basic_command := mkbasic {
  bc_program : ast_argument;
  bc_env : list (arg_unit * ast_argument);
  bc_arguments : list ast_argument;
  bc_redirections : list redirection;
  bc_abort : bool;
  bc_pos : pos }.

(** ast/command.rs 171-176 *)
Record command := mkcommand { cmd_head : basic_command; cmd_tail : list basic_command }.

(** ast/command.rs 210-214 *)
Inductive block_kind := Synchronous | Asynchronous | Capture.

(** ast/command.rs 186-190 *)
Record command_block := mkblock {
  cb_kind : block_kind; cb_head : command; cb_tail : list command }.

(** ast/mod.rs 166-170 *)
Inductive unary_op := UMinus | UNot | UTry.

(** ast/mod.rs 197-215 *)
Inductive binary_op :=
| BPlus | BMinus | BTimes | BDiv | BMod
| BEquals | BNotEquals | BGreater | BGreaterEquals | BLower | BLowerEquals
| BAnd | BOr | BConcat.

(** ast/mod.rs 121-139, 244-293, 309-344 and 80-83.  Literals that contain no expression are
    those of the lexer ([Literal::from], ast/mod.rs 142-161); [Identifier] is the field name of
    a dot access. *)
Inductive expr :=
| EIllFormed
| ESelf (p : pos)
| EIdent (s : symbol) (p : pos)
| ELit (l : literal) (p : pos)
| EFieldName (s : symbol) (p : pos)
| EArray (items : list expr) (p : pos)
| EDict (items : list ((symbol * pos) * expr)) (p : pos)
| EFunction (params : list (symbol * pos)) (body : block) (p : pos)
| EUnary (op : unary_op) (e : expr) (p : pos)
| EBinary (l : expr) (op : binary_op) (r : expr) (p : pos)
| EIf (c : expr) (t e : block) (p : pos)
| EAccess (o f : expr) (p : pos)
| ECall (f : expr) (args : list expr) (p : pos)
| ECommand (b : command_block) (p : pos)
with statement :=
| SIllFormed
| SLet (id : symbol) (init : expr) (p : pos)
| SAssign (l r : expr) (p : pos)
| SReturn (e : expr) (p : pos)
| SBreak (p : pos)
| SWhile (c : expr) (b : block) (p : pos)
| SFor (id : symbol) (e : expr) (b : block) (p : pos)
| SExpr (e : expr)
with block :=
| BIllFormed
| BBlock (ss : list statement).

(** ** Ill-formed placeholders: ast/mod.rs 24-75, 107-115, 296-304 and 347-355, ast/command.rs 75-205.
    [Symbol::default()] is the interned "<invalid symbol>" (src/symbol/mod.rs 13-17). *)
Definition ill_pos : pos := mkpos 0 0.
(** ast/mod.rs 67-75: the default symbol, src/symbol/mod.rs 13-17 and 35-41 *)
Definition ill_symbol : symbol := bs "<invalid symbol>"%string.
(** ast/mod.rs 38-53 for a pair *)
Definition ill_ident : symbol * pos := (ill_symbol, ill_pos).
(** ast/command.rs 75-86 *)
Definition ill_argument : ast_argument := mkarg [] ill_pos.
(** ast/command.rs 144-159 *)
Definition ill_basic : basic_command := mkbasic ill_argument [] [] [] false ill_pos.
(** ast/command.rs 170-181 *)
Definition ill_command : command := mkcommand ill_basic [].
(** ast/command.rs 193-205 *)
Definition ill_command_block : command_block := mkblock Synchronous ill_command [].
