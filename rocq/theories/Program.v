(** Model of the analysed program: src/semantic/program/mod.rs, command.rs and mem/mod.rs. *)
From Coq Require Import Strings.String.
From Verif Require Import Base Lexer Ast.

(** mem/mod.rs 7-8.  A [u32]; unbounded here. *)
Definition slot := nat.

(** mem/mod.rs 22-27 and 32-39 *)
Record capture := mkcapture { cap_from : slot; cap_to : slot }.
(** mem/mod.rs 32-39 *)
Record frame_info := mkframe_info {
  fi_slots : nat; fi_captures : list capture; fi_self : option slot }.

(** command.rs 9-15.  Program counterparts of the syntax tree get an [x]. *)
Inductive xunit := XULiteral (s : bytes) | XUDollar (s : slot) (p : pos).

(** command.rs 20-32.  [Range], [Collection] and [CharClass] are never produced: the lexer
    stops with [todo!()] where they would begin (see Lexer.v). *)
Inductive xpart := XPUnit (u : xunit) | XPHome | XPStar | XPPercent.

(** command.rs 37-40 *)
Record xargument := mkxarg { xa_parts : list xpart; xa_pos : pos }.

(** command.rs 44-67 *)
Inductive xtarget := XFd (fd : Z) | XOverwrite (a : xargument) | XAppend (a : xargument).
(** command.rs 57-69 *)
Inductive xredirection :=
| XOutput (source : Z) (target : xtarget)
| XInput (literal : bool) (source : xargument).

(** command.rs 74-80 *)
Inductive builtin := BAlias | BCd | BExec | BExec0 | BSpawn0.

(** command.rs 120-128 *)
Record xbasic := mkxbasic {
  xb_program : xargument;
  xb_env : list (xunit * xargument);
  xb_arguments : list xargument;
  xb_redirections : list xredirection;
  xb_abort : bool;
  xb_pos : pos }.

(** command.rs 133-144 *)
Inductive xcommand :=
| XBuiltin (b : builtin) (args : list xargument) (abort : bool) (p : pos)
| XExternal (head : xbasic) (tail : list xbasic).

(** command.rs 148-162 *)
Record xblock := mkxblock { xc_kind : block_kind; xc_head : xcommand; xc_tail : list xcommand }.

(** program/mod.rs 25-57 and 136-225.  As in Ast.v, literals without expressions are kept as
    in the lexer, and [Block] is a list. *)
Inductive xexpr :=
| XIdent (s : slot) (p : pos)
| XLit (l : literal) (p : pos)
| XFieldName (s : symbol) (p : pos)
| XArray (items : list xexpr) (p : pos)
| XDict (items : list (symbol * xexpr)) (p : pos)
| XFunction (params : nat) (fi : frame_info) (body : list xstatement) (p : pos)
| XUnary (op : unary_op) (e : xexpr) (p : pos)
| XBinary (l : xexpr) (op : binary_op) (r : xexpr) (p : pos)
| XIf (c : xexpr) (t e : list xstatement) (p : pos)
| XAccess (o f : xexpr) (p : pos)
| XCall (f : xexpr) (args : list xexpr) (p : pos)
| XCommand (b : xblock) (p : pos)
with lvalue :=
| LIdent (s : slot) (p : pos)
| LAccess (o f : xexpr) (p : pos)
with xstatement :=
| XAssign (l : lvalue) (r : xexpr)
| XReturn (e : xexpr)
| XBreak
| XWhile (c : xexpr) (b : list xstatement)
| XFor (s : slot) (e : xexpr) (b : list xstatement)
| XExpr (e : xexpr).

(** program/mod.rs 230-237, without the source path *)
Record program := mkprogram { pr_statements : list xstatement; pr_root_slots : nat }.
