(** What is wrong with a program, fault by fault: each with its place, in the order of the text. *)
From Coq Require Import Strings.String.
From Verif Require Import Base Lexer Ast Program Sema SpecSema.

Definition known (x : symbol) (vars : list symbol) : bool :=
  if in_dec (list_eq_dec Byte.byte_eq_dec) x vars then true else false.
Definition fault (k : serror_kind) (p : pos) : list serror := [mkserror k p].
Definition unless (b : bool) (es : list serror) : list serror := if b then [] else es.

(** With [hide], some faults are left out: [rest] is not looked at where [first] is a fault
    already, and [unseen] is not looked at in any case. *)
Definition behind (hide : bool) (first rest : list serror) : list serror :=
  match hide, first with true, _ :: _ => first | _, _ => first ++ rest end.
Definition unseen (hide : bool) (es : list serror) : list serror := unless hide es.

Definition unit_faults (vars : list symbol) (u : arg_unit) : list serror :=
  match u with AULiteral _ => [] | AUDollar x p => unless (known x vars) (fault (UndeclaredVariable x) p) end.
Definition part_faults (vars : list symbol) (p : ast_part) : list serror :=
  match p with APUnit u => unit_faults vars u | APExpansion _ => [] end.
Definition argument_faults (vars : list symbol) (a : ast_argument) : list serror :=
  flat_map (part_faults vars) (arg_parts a).
Definition redirection_faults (vars : list symbol) (r : redirection) : list serror :=
  match r with
  | RIllFormed | ROutputTo _ (RFd _) => []
  | ROutputTo _ (ROverwrite a | RAppend a) | RInputFrom _ a => argument_faults vars a
  end.

(** A variable set for a command: the value is not looked at when the name is wrong. *)
Definition env_faults (hide : bool) (vars : list symbol) (kv : arg_unit * ast_argument) : list serror :=
  behind hide (unit_faults vars (fst kv)) (argument_faults vars (snd kv)).

Definition runs_builtin (c : basic_command) : bool :=
  match arg_parts (bc_program c) with
  | [APUnit (AULiteral w)] => known w (map fst builtin_names)
  | _ => false
  end.

Definition words_faults (hide : bool) (vars : list symbol) (c : basic_command) : list serror :=
  argument_faults vars (bc_program c) ++ flat_map (env_faults hide vars) (bc_env c) ++
  flat_map (argument_faults vars) (bc_arguments c) ++ flat_map (redirection_faults vars) (bc_redirections c).

(** A builtin after a pipe: its words are not looked at. *)
Definition basic_faults (hide : bool) (vars : list symbol) (c : basic_command) : list serror :=
  if runs_builtin c then behind hide (fault AsyncBuiltin (bc_pos c)) (words_faults hide vars c)
  else words_faults hide vars c.

Definition is_nil {A} (l : list A) : bool := match l with [] => true | _ => false end.
Definition synchronous (k : block_kind) : bool := match k with Synchronous => true | _ => false end.

(** A builtin stands alone, in a plain block, without redirections, or nothing more of the
    command is looked at; the variables set for it are not looked at in any case. *)
Definition command_faults (hide : bool) (vars : list symbol) (k : block_kind) (c : command) : list serror :=
  let h := cmd_head c in
  if runs_builtin h then
    if synchronous k && is_nil (cmd_tail c) && is_nil (bc_redirections h)
    then unseen hide (flat_map (env_faults hide vars) (bc_env h)) ++ flat_map (argument_faults vars) (bc_arguments h)
    else behind hide (fault AsyncBuiltin (bc_pos h)) (words_faults hide vars h ++ flat_map (basic_faults hide vars) (cmd_tail c))
  else words_faults hide vars h ++ flat_map (basic_faults hide vars) (cmd_tail c).

Definition command_block_faults (hide : bool) (vars : list symbol) (b : command_block) : list serror :=
  command_faults hide vars (cb_kind b) (cb_head b) ++ flat_map (command_faults hide vars (cb_kind b)) (cb_tail b).

(** Names that are declared a second time. *)
Fixpoint declared_twice (seen : list symbol) (ps : list (symbol * pos)) : list serror :=
  match ps with
  | [] => []
  | (x, p) :: ps => (if known x seen then fault (DuplicateVariable x) p else []) ++ declared_twice (x :: seen) ps
  end.

Section Sequence.
  Context {A : Type} (f : list symbol -> A -> list serror) (d : A -> list symbol).
  Fixpoint sequence (here : list symbol) (l : list A) : list serror :=
    match l with [] => [] | x :: l => f here x ++ sequence (d x ++ here) l end.
End Sequence.

(** [fn], [lp], [here], [outer] as for [legal_expr]. *)
Fixpoint expr_faults (hide fn lp : bool) (here outer : list symbol) (e : expr) : list serror :=
  match e with
  | EIllFormed | ELit _ _ | EFieldName _ _ => []
  | ESelf p => unless fn (fault SelfOutsideFunction p)
  | EIdent x p => unless (known x (here ++ outer)) (fault (UndeclaredVariable x) p)
  | EArray es _ => flat_map (expr_faults hide fn lp here outer) es
  | EDict kvs _ => flat_map (fun kv => expr_faults hide fn lp here outer (snd kv)) kvs
  | EFunction ps b _ => declared_twice [] ps ++ block_faults hide true false (map fst ps) (here ++ outer) b
  | EUnary op e p =>
    (* [?] outside a function: not noticed when its operand has a fault *)
    behind hide (expr_faults hide fn lp here outer e)
      (match op with UTry => unless fn (fault TryOutsideFunction p) | _ => [] end)
  | EBinary l _ r _ => expr_faults hide fn lp here outer l ++ expr_faults hide fn lp here outer r
  | EIf c t e _ =>
    expr_faults hide fn lp here outer c ++
    block_faults hide fn lp [] (here ++ outer) t ++ block_faults hide fn lp [] (here ++ outer) e
  | EAccess o f _ => expr_faults hide fn lp here outer o ++ expr_faults hide fn lp here outer f
  | ECall f args _ => expr_faults hide fn lp here outer f ++ flat_map (expr_faults hide fn lp here outer) args
  | ECommand b _ => command_block_faults hide (here ++ outer) b
  end
with statement_faults (hide fn lp : bool) (outer here : list symbol) (s : statement) : list serror :=
  match s with
  | SIllFormed => []
  | SLet x e p =>
    (if known x here then fault (DuplicateVariable x) p else []) ++ expr_faults hide fn lp (x :: here) outer e
  | SAssign l r p =>
    behind hide (match l with EIdent _ _ | EAccess _ _ _ => [] | _ => fault InvalidAssignment p end)
      (expr_faults hide fn lp here outer l) ++ expr_faults hide fn lp here outer r
  | SReturn e p => unless fn (fault ReturnOutsideFunction p) ++ expr_faults hide fn lp here outer e
  | SBreak p => unless lp (fault BreakOutsideLoop p)
  | SWhile c b _ => expr_faults hide fn lp here outer c ++ block_faults hide fn true [] (here ++ outer) b
  | SFor x e b _ => expr_faults hide fn lp here outer e ++ block_faults hide fn true [x] (here ++ outer) b
  | SExpr e => expr_faults hide fn lp here outer e
  end
with block_faults (hide fn lp : bool) (here outer : list symbol) (b : block) : list serror :=
  match b with
  | BIllFormed => []
  | BBlock ss => sequence (statement_faults hide fn lp outer) declares here ss
  end.

(** All that is wrong with a program, but for declared_twice keys of dictionaries; and the part of it
    that a reader learns of at once. *)
Definition faults (b : block) : list serror := block_faults false false false [bs "std"%string] [] b.
Definition shown_faults (b : block) : list serror := block_faults true false false [bs "std"%string] [] b.

Definition is_key_error (e : serror) : bool := match se_kind e with DuplicateKey _ => true | _ => false end.
Definition is_try_error (e : serror) : bool := match se_kind e with TryOutsideFunction => true | _ => false end.
(** Not about a key, nor a [?]. *)
Definition told (e : serror) : bool := negb (is_key_error e) && negb (is_try_error e).
