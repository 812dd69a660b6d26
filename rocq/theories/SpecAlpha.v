(** Programs that differ in the names of their variables and in their layout only. *)
From Coq Require Import Strings.String.
From Verif Require Import Base Lexer Ast Program Sema SpecLexer.

(** A way to give other names to variables and other places to tokens.  Different names stay
    different, [std] keeps its name, lines count from one. *)
Record renaming (r : symbol -> symbol) (q : pos -> pos) : Prop := {
  rn_names : forall s, plain_name s -> plain_name (r s);
  rn_apart : forall s t, plain_name s -> plain_name t -> r s = r t -> s = t;
  rn_std : r (bs "std"%string) = bs "std"%string;
  rn_places : forall p, (1 <= line p)%N -> (1 <= line (q p))%N }.

Section Rename.
Variable r : symbol -> symbol.
Variable q : pos -> pos.

(** ** The tree with other names and places.  Keys and fields are not variables. *)

Definition rename_unit (u : arg_unit) : arg_unit :=
  match u with AULiteral s => AULiteral s | AUDollar s p => AUDollar (r s) (q p) end.
Definition rename_part (p : ast_part) : ast_part :=
  match p with APUnit u => APUnit (rename_unit u) | APExpansion e => APExpansion e end.
Definition rename_argument (a : ast_argument) : ast_argument :=
  mkarg (map rename_part (arg_parts a)) (q (arg_pos a)).
Definition rename_redirection (d : redirection) : redirection :=
  match d with
  | RIllFormed => RIllFormed
  | ROutputTo s (RFd fd) => ROutputTo s (RFd fd)
  | ROutputTo s (ROverwrite a) => ROutputTo s (ROverwrite (rename_argument a))
  | ROutputTo s (RAppend a) => ROutputTo s (RAppend (rename_argument a))
  | RInputFrom l a => RInputFrom l (rename_argument a)
  end.
Definition rename_basic (c : basic_command) : basic_command :=
  mkbasic (rename_argument (bc_program c))
    (map (fun kv => (rename_unit (fst kv), rename_argument (snd kv))) (bc_env c))
    (map rename_argument (bc_arguments c)) (map rename_redirection (bc_redirections c)) (bc_abort c) (q (bc_pos c)).
Definition rename_command (c : command) : command :=
  mkcommand (rename_basic (cmd_head c)) (map rename_basic (cmd_tail c)).
Definition rename_command_block (b : command_block) : command_block :=
  mkblock (cb_kind b) (rename_command (cb_head b)) (map rename_command (cb_tail b)).

Fixpoint rename_expr (e : expr) : expr :=
  match e with
  | EIllFormed => EIllFormed
  | ESelf p => ESelf (q p)
  | EIdent s p => EIdent (r s) (q p)
  | ELit l p => ELit l (q p)
  | EFieldName s p => EFieldName s (q p)
  | EArray es p => EArray (map rename_expr es) (q p)
  | EDict kvs p => EDict (map (fun kv => ((fst (fst kv), q (snd (fst kv))), rename_expr (snd kv))) kvs) (q p)
  | EFunction ps b p => EFunction (map (fun sp => (r (fst sp), q (snd sp))) ps) (rename_block b) (q p)
  | EUnary op e p => EUnary op (rename_expr e) (q p)
  | EBinary a op b p => EBinary (rename_expr a) op (rename_expr b) (q p)
  | EIf c t e p => EIf (rename_expr c) (rename_block t) (rename_block e) (q p)
  | EAccess o f p => EAccess (rename_expr o) (rename_expr f) (q p)
  | ECall f args p => ECall (rename_expr f) (map rename_expr args) (q p)
  | ECommand b p => ECommand (rename_command_block b) (q p)
  end
with rename_statement (s : statement) : statement :=
  match s with
  | SIllFormed => SIllFormed
  | SLet x e p => SLet (r x) (rename_expr e) (q p)
  | SAssign a b p => SAssign (rename_expr a) (rename_expr b) (q p)
  | SReturn e p => SReturn (rename_expr e) (q p)
  | SBreak p => SBreak (q p)
  | SWhile c b p => SWhile (rename_expr c) (rename_block b) (q p)
  | SFor x e b p => SFor (r x) (rename_expr e) (rename_block b) (q p)
  | SExpr e => SExpr (rename_expr e)
  end
with rename_block (b : block) : block :=
  match b with BIllFormed => BIllFormed | BBlock ss => BBlock (map rename_statement ss) end.

Definition rename_error (e : serror) : serror :=
  mkserror (match se_kind e with
            | UndeclaredVariable s => UndeclaredVariable (r s)
            | DuplicateVariable s => DuplicateVariable (r s)
            | k => k
            end) (q (se_pos e)).

(** ** The program with other places *)

Definition move_unit (u : xunit) : xunit :=
  match u with XULiteral s => XULiteral s | XUDollar s p => XUDollar s (q p) end.
Definition move_part (p : xpart) : xpart := match p with XPUnit u => XPUnit (move_unit u) | p => p end.
Definition move_argument (a : xargument) : xargument := mkxarg (map move_part (xa_parts a)) (q (xa_pos a)).
Definition move_redirection (d : xredirection) : xredirection :=
  match d with
  | XOutput s (XFd fd) => XOutput s (XFd fd)
  | XOutput s (XOverwrite a) => XOutput s (XOverwrite (move_argument a))
  | XOutput s (XAppend a) => XOutput s (XAppend (move_argument a))
  | XInput l a => XInput l (move_argument a)
  end.
Definition move_basic (c : xbasic) : xbasic :=
  mkxbasic (move_argument (xb_program c))
    (map (fun kv => (move_unit (fst kv), move_argument (snd kv))) (xb_env c))
    (map move_argument (xb_arguments c)) (map move_redirection (xb_redirections c)) (xb_abort c) (q (xb_pos c)).
Definition move_command (c : xcommand) : xcommand :=
  match c with
  | XBuiltin b args abort p => XBuiltin b (map move_argument args) abort (q p)
  | XExternal c cs => XExternal (move_basic c) (map move_basic cs)
  end.
Definition move_command_block (b : xblock) : xblock :=
  mkxblock (xc_kind b) (move_command (xc_head b)) (map move_command (xc_tail b)).

Fixpoint move_expr (e : xexpr) : xexpr :=
  match e with
  | XIdent s p => XIdent s (q p)
  | XLit l p => XLit l (q p)
  | XFieldName s p => XFieldName s (q p)
  | XArray es p => XArray (map move_expr es) (q p)
  | XDict kvs p => XDict (map (fun kv => (fst kv, move_expr (snd kv))) kvs) (q p)
  | XFunction n fi b p => XFunction n fi (map move_statement b) (q p)
  | XUnary op e p => XUnary op (move_expr e) (q p)
  | XBinary a op b p => XBinary (move_expr a) op (move_expr b) (q p)
  | XIf c t e p => XIf (move_expr c) (map move_statement t) (map move_statement e) (q p)
  | XAccess o f p => XAccess (move_expr o) (move_expr f) (q p)
  | XCall f args p => XCall (move_expr f) (map move_expr args) (q p)
  | XCommand b p => XCommand (move_command_block b) (q p)
  end
with move_target (l : lvalue) : lvalue :=
  match l with
  | LIdent s p => LIdent s (q p)
  | LAccess o f p => LAccess (move_expr o) (move_expr f) (q p)
  end
with move_statement (s : xstatement) : xstatement :=
  match s with
  | XAssign l e => XAssign (move_target l) (move_expr e)
  | XReturn e => XReturn (move_expr e)
  | XBreak => XBreak
  | XWhile c b => XWhile (move_expr c) (map move_statement b)
  | XFor x e b => XFor x (move_expr e) (map move_statement b)
  | XExpr e => XExpr (move_expr e)
  end.

Definition move_program (p : program) : program := mkprogram (map move_statement (pr_statements p)) (pr_root_slots p).

End Rename.
