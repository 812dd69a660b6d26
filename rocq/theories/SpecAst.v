(** Specification of printed syntax trees: trees without places, and the trees whose text can be
    read back. *)
From Coq Require Import Strings.String.
From Verif Require Import Base Lexer Ast SpecLexer SpecParser Value StdLib.

(** ** Trees without places *)
Definition nowhere : pos := mkpos 1 0.
Definition unplaced_unit (u : arg_unit) : arg_unit := match u with AULiteral s => AULiteral s | AUDollar s _ => AUDollar s nowhere end.
Definition unplaced_part (p : ast_part) : ast_part := match p with APUnit u => APUnit (unplaced_unit u) | APExpansion e => APExpansion e end.
Definition unplaced_argument (a : ast_argument) : ast_argument := mkarg (map unplaced_part (arg_parts a)) nowhere.
Definition unplaced_target (t : redirection_target) : redirection_target :=
  match t with RFd fd => RFd fd | ROverwrite a => ROverwrite (unplaced_argument a) | RAppend a => RAppend (unplaced_argument a) end.
Definition unplaced_redirection (r : redirection) : redirection :=
  match r with
  | RIllFormed => RIllFormed
  | ROutputTo s t => ROutputTo s (unplaced_target t)
  | RInputFrom l a => RInputFrom l (unplaced_argument a)
  end.
Definition unplaced_basic (b : basic_command) : basic_command :=
  mkbasic (unplaced_argument (bc_program b)) (map (fun kv => (unplaced_unit (fst kv), unplaced_argument (snd kv))) (bc_env b))
    (map unplaced_argument (bc_arguments b)) (map unplaced_redirection (bc_redirections b)) (bc_abort b) nowhere.
Definition unplaced_command (c : command) : command := mkcommand (unplaced_basic (cmd_head c)) (map unplaced_basic (cmd_tail c)).
Definition unplaced_command_block (b : command_block) : command_block :=
  mkblock (cb_kind b) (unplaced_command (cb_head b)) (map unplaced_command (cb_tail b)).
Definition unplaced_name (sp : symbol * pos) : symbol * pos := (fst sp, nowhere).
Fixpoint unplaced (e : expr) : expr :=
  match e with
  | EIllFormed => EIllFormed
  | ESelf _ => ESelf nowhere
  | EIdent s _ => EIdent s nowhere
  | ELit l _ => ELit l nowhere
  | EFieldName s _ => EFieldName s nowhere
  | EArray es _ => EArray (map unplaced es) nowhere
  | EDict items _ => EDict (map (fun kv => (unplaced_name (fst kv), unplaced (snd kv))) items) nowhere
  | EFunction ps b _ => EFunction (map unplaced_name ps) (unplaced_block b) nowhere
  | EUnary op e _ => EUnary op (unplaced e) nowhere
  | EBinary l op r _ => EBinary (unplaced l) op (unplaced r) nowhere
  | EIf c t e _ => EIf (unplaced c) (unplaced_block t) (unplaced_block e) nowhere
  | EAccess o f _ => EAccess (unplaced o) (unplaced f) nowhere
  | ECall f args _ => ECall (unplaced f) (map unplaced args) nowhere
  | ECommand b _ => ECommand (unplaced_command_block b) nowhere
  end
with unplaced_statement (s : statement) : statement :=
  match s with
  | SIllFormed => SIllFormed
  | SLet x e _ => SLet x (unplaced e) nowhere
  | SAssign l r _ => SAssign (unplaced l) (unplaced r) nowhere
  | SReturn e _ => SReturn (unplaced e) nowhere
  | SBreak _ => SBreak nowhere
  | SWhile c b _ => SWhile (unplaced c) (unplaced_block b) nowhere
  | SFor x e b _ => SFor x (unplaced e) (unplaced_block b) nowhere
  | SExpr e => SExpr (unplaced e)
  end
with unplaced_block (b : block) : block :=
  match b with BIllFormed => BIllFormed | BBlock ss => BBlock (map unplaced_statement ss) end.

(** ** Trees that can be read back *)

(** The printer writes these with a parenthesis or a bracket at the beginning ... *)
Fixpoint opens_with_bracket (e : expr) : bool :=
  match e with
  | EUnary _ _ _ | EBinary _ _ _ _ | EArray _ _ => true
  | EAccess o _ _ => opens_with_bracket o
  | ECall f _ _ => opens_with_bracket f
  | _ => false
  end.
Definition statement_opens (s : statement) : bool :=
  match s with SExpr e | SAssign e _ _ => opens_with_bracket e | _ => false end.
(** ... which, after these, would be taken for a call or an access. *)
Definition may_go_on (s : statement) : bool := match s with SLet _ _ _ | SAssign _ _ _ | SExpr _ => true | _ => false end.
Fixpoint in_a_row (ss : list statement) : Prop :=
  match ss with
  | s :: ((s' :: _) as rest) =>
      match s with SReturn _ _ => False | _ => True end /\ (may_go_on s = true -> statement_opens s' = false) /\ in_a_row rest
  | _ => True
  end.

Definition is_number (e : expr) : Prop := match e with ELit (LInt _ | LFloat _) _ => True | _ => False end.
Definition lone (ss : list statement) : Prop := match ss with _ :: _ :: _ => False | _ => True end.
Definition no_statements (b : block) : Prop := match b with BBlock [] => True | _ => False end.

Section Readable.
(** How strings and floats are shown *)
Variables (escape float_display : bytes -> bytes).

Definition readable_literal (l : literal) : Prop :=
  match l with
  | LNil | LTrue | LFalse => True
  | LInt z => (0 <= z <= 9223372036854775807)%Z
  | LFloat t => is_float_text t /\ float_display t = t
  | LString s => spelling string_plain string_escapes (escape s) s
  | LByte c => spelling single_plain string_escapes (escape (char_text c)) [c]
  end.

(** Arguments are printed between double quotes, whatever they were written like: expansions
    are not read back. *)
Fixpoint readable_parts (ps : list ast_part) : Prop :=
  match ps with
  | [] => True
  | APExpansion _ :: _ => False
  | APUnit (AUDollar s _) :: ps' => is_identifier s /\ readable_parts ps'
  | APUnit (AULiteral s) :: ps' =>
      s <> [] /\ spelling double_plain double_quoted_escapes (escape s) s /\
      match ps' with APUnit (AULiteral _) :: _ => False | _ => True end /\ readable_parts ps'
  end.
Definition readable_argument (a : ast_argument) : Prop := arg_pos a <> ill_pos /\ readable_parts (arg_parts a).
Definition readable_key (u : arg_unit) : Prop :=
  match u with
  | AUDollar s _ => is_identifier s
  | AULiteral s => s <> [] /\ spelling run_byte unquoted_escapes (escape s) s /\ ~ starts_with (fun c => Byte.eqb c "~" || Byte.eqb c "|") (escape s)
  end.
Definition readable_fd (n : Z) : Prop := (0 <= n <= 255)%Z.
Definition readable_redirection (r : redirection) : Prop :=
  match r with
  | RIllFormed => False
  | RInputFrom _ a => readable_argument a
  | ROutputTo n (RFd m) => readable_fd n /\ readable_fd m
  | ROutputTo n (ROverwrite a | RAppend a) => readable_fd n /\ readable_argument a
  end.
Definition readable_basic (b : basic_command) : Prop :=
  Forall (fun kv => readable_key (fst kv) /\ readable_argument (snd kv)) (bc_env b) /\ readable_argument (bc_program b) /\
  Forall readable_argument (bc_arguments b) /\ Forall readable_redirection (bc_redirections b).
Definition readable_command (c : command) : Prop := readable_basic (cmd_head c) /\ Forall readable_basic (cmd_tail c).
Definition readable_command_block (b : command_block) : Prop := readable_command (cb_head b) /\ Forall readable_command (cb_tail b).

(** [inline]: the tree is part of an operation, a condition, a call or an access, which are
    printed on one line. *)
Fixpoint readable (inline : bool) (e : expr) : Prop :=
  match e with
  | EIllFormed | EFieldName _ _ => False
  | ECommand b _ => readable_command_block b
  | ESelf _ => True
  | EIdent s _ => is_identifier s
  | ELit l _ => readable_literal l
  | EArray es _ => all_of (readable inline) es
  | EDict items _ => all_of (fun kv => is_identifier (fst (fst kv)) /\ readable inline (snd kv)) items
  | EFunction ps b _ => all_of (fun sp => is_identifier (fst sp)) ps /\ readable_block inline b
  | EUnary _ e _ => readable true e
  | EBinary l _ r _ => readable true l /\ readable true r
  | EIf c t e _ =>
      readable true c /\ readable_block inline t /\ readable_block inline e /\ (inline = true -> ~ no_statements t)
  | EAccess o (EFieldName s _) _ => readable true o /\ ~ is_number o /\ is_identifier s
  | EAccess o f _ => readable true o /\ readable true f
  | ECall f args _ => readable true f /\ all_of (readable true) args
  end
with readable_statement (inline : bool) (s : statement) : Prop :=
  match s with
  | SIllFormed => False
  | SLet x e _ => is_identifier x /\ readable inline e
  | SAssign l r _ => readable true l /\ readable inline r
  | SReturn e _ => readable inline e
  | SBreak _ => True
  | SWhile c b _ => readable true c /\ readable_block inline b
  | SFor x e b _ => is_identifier x /\ readable true e /\ readable_block inline b
  | SExpr e => readable inline e
  end
with readable_block (inline : bool) (b : block) : Prop :=
  match b with
  | BIllFormed => False
  | BBlock ss => all_of (readable_statement inline) ss /\ in_a_row ss /\ (inline = true -> lone ss)
  end.
End Readable.

(** Escaping leaves words as they are. *)
Definition keeps_words {W} (X : ext W) : Prop :=
  forall w, Forall (fun c => word_byte c = true) w -> x_escape X w = w.
