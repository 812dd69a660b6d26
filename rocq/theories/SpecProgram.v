(** Control flow in source trees, the command blocks of a tree, and validity of the slots and
    of the control flow of analysed programs. *)
From Verif Require Import Base Lexer Ast Program SpecSema.

(** ** Control flow in a source tree: [fn], inside a function; [lp], inside a loop of it. *)
Fixpoint placed_expr (fn lp : bool) (e : expr) : Prop :=
  match e with
  | ESelf _ => fn = true
  | EIllFormed | EIdent _ _ | ELit _ _ | EFieldName _ _ | ECommand _ _ => True
  | EArray es _ => each (placed_expr fn lp) es
  | EDict kvs _ => each (fun kv => placed_expr fn lp (snd kv)) kvs
  | EFunction _ b _ => placed_block true false b
  | EUnary UTry e _ => fn = true /\ placed_expr fn lp e
  | EUnary _ e _ => placed_expr fn lp e
  | EBinary a _ b _ | EAccess a b _ => placed_expr fn lp a /\ placed_expr fn lp b
  | EIf c t e _ => placed_expr fn lp c /\ placed_block fn lp t /\ placed_block fn lp e
  | ECall f args _ => placed_expr fn lp f /\ each (placed_expr fn lp) args
  end
with placed_statement (fn lp : bool) (s : statement) : Prop :=
  match s with
  | SIllFormed => True
  | SLet _ e _ | SExpr e => placed_expr fn lp e
  | SAssign l r _ => placed_expr fn lp l /\ placed_expr fn lp r
  | SReturn e _ => fn = true /\ placed_expr fn lp e
  | SBreak _ => lp = true
  | SWhile c b _ => placed_expr fn lp c /\ placed_block fn true b
  | SFor _ e b _ => placed_expr fn lp e /\ placed_block fn true b
  end
with placed_block (fn lp : bool) (b : block) : Prop :=
  match b with BIllFormed => True | BBlock ss => each (placed_statement fn lp) ss end.

(** ** All the command blocks in a tree *)
Fixpoint blocks_expr (e : expr) : list command_block :=
  match e with
  | EIllFormed | ESelf _ | EIdent _ _ | ELit _ _ | EFieldName _ _ => []
  | ECommand b _ => [b]
  | EArray es _ => flat_map blocks_expr es
  | EDict kvs _ => flat_map (fun kv => blocks_expr (snd kv)) kvs
  | EFunction _ b _ => blocks_block b
  | EUnary _ e _ => blocks_expr e
  | EBinary a _ b _ | EAccess a b _ => blocks_expr a ++ blocks_expr b
  | EIf c t e _ => blocks_expr c ++ blocks_block t ++ blocks_block e
  | ECall f args _ => blocks_expr f ++ flat_map blocks_expr args
  end
with blocks_statement (s : statement) : list command_block :=
  match s with
  | SIllFormed | SBreak _ => []
  | SLet _ e _ | SExpr e | SReturn e _ => blocks_expr e
  | SAssign l r _ => blocks_expr l ++ blocks_expr r
  | SWhile c b _ => blocks_expr c ++ blocks_block b
  | SFor _ e b _ => blocks_expr e ++ blocks_block b
  end
with blocks_block (b : block) : list command_block :=
  match b with BIllFormed => [] | BBlock ss => flat_map blocks_statement ss end.

(** Whether one of the commands, at any place of any pipeline, is a builtin. *)
Definition standalone (b : command_block) : Prop :=
  forall c bc bi, In c (cb_head b :: cb_tail b) -> In bc (cmd_head c :: cmd_tail c) -> calls_builtin bi bc ->
    cb_kind b = Synchronous /\ cmd_tail c = [] /\ bc_redirections bc = [].

(** ** Analysed programs

    [n]: the number of slots of the function at hand. *)
Definition valid_unit (n : nat) (u : xunit) : Prop := match u with XULiteral _ => True | XUDollar i _ => i < n end.
Definition valid_part (n : nat) (p : xpart) : Prop := match p with XPUnit u => valid_unit n u | _ => True end.
Definition valid_argument (n : nat) (a : xargument) : Prop := Forall (valid_part n) (xa_parts a).
Definition valid_redirection (n : nat) (r : xredirection) : Prop :=
  match r with
  | XOutput _ (XFd _) => True
  | XOutput _ (XOverwrite a | XAppend a) | XInput _ a => valid_argument n a
  end.
Definition valid_basic (n : nat) (c : xbasic) : Prop :=
  valid_argument n (xb_program c) /\ Forall (fun kv => valid_unit n (fst kv) /\ valid_argument n (snd kv)) (xb_env c) /\
  Forall (valid_argument n) (xb_arguments c) /\ Forall (valid_redirection n) (xb_redirections c).
Definition valid_command (n : nat) (c : xcommand) : Prop :=
  match c with
  | XBuiltin _ args _ _ => Forall (valid_argument n) args
  | XExternal c cs => valid_basic n c /\ Forall (valid_basic n) cs
  end.
Definition valid_block (n : nat) (b : xblock) : Prop :=
  valid_command n (xc_head b) /\ Forall (valid_command n) (xc_tail b).

(** Parameters, captures and [self] have slots of their own; what is captured has a slot in the
    function around. *)
Definition valid_frame (n params : nat) (fi : frame_info) : Prop :=
  params <= fi_slots fi /\
  Forall (fun c => cap_from c < n /\ params <= cap_to c < fi_slots fi) (fi_captures fi) /\
  NoDup (map cap_to (fi_captures fi) ++ option_list (fi_self fi)) /\
  Forall (fun i => params <= i < fi_slots fi) (option_list (fi_self fi)).

Fixpoint valid_expr (fn lp : bool) (n : nat) (x : xexpr) : Prop :=
  match x with
  | XIdent i _ => i < n
  | XLit _ _ | XFieldName _ _ => True
  | XArray es _ => each (valid_expr fn lp n) es
  | XDict kvs _ => each (fun kv => valid_expr fn lp n (snd kv)) kvs
  | XFunction params fi b _ => valid_frame n params fi /\ each (valid_statement true false (fi_slots fi)) b
  | XUnary op e _ => (op = UTry -> fn = true) /\ valid_expr fn lp n e
  | XBinary a _ b _ | XAccess a b _ => valid_expr fn lp n a /\ valid_expr fn lp n b
  | XIf c t e _ => valid_expr fn lp n c /\ each (valid_statement fn lp n) t /\ each (valid_statement fn lp n) e
  | XCall f args _ => valid_expr fn lp n f /\ each (valid_expr fn lp n) args
  | XCommand b _ => valid_block n b
  end
with valid_lvalue (fn lp : bool) (n : nat) (l : lvalue) : Prop :=
  match l with
  | LIdent i _ => i < n
  | LAccess o f _ => valid_expr fn lp n o /\ valid_expr fn lp n f
  end
with valid_statement (fn lp : bool) (n : nat) (s : xstatement) : Prop :=
  match s with
  | XAssign l r => valid_lvalue fn lp n l /\ valid_expr fn lp n r
  | XReturn e => fn = true /\ valid_expr fn lp n e
  | XBreak => lp = true
  | XWhile c b => valid_expr fn lp n c /\ each (valid_statement fn true n) b
  | XFor i e b => i < n /\ valid_expr fn lp n e /\ each (valid_statement fn true n) b
  | XExpr e => valid_expr fn lp n e
  end.

Definition valid_program (p : program) : Prop :=
  0 < pr_root_slots p /\ each (valid_statement false false (pr_root_slots p)) (pr_statements p).
