(** Programs that are given nothing to work with: no library and no commands. *)
From Coq Require Import Strings.String.
From Verif Require Import Base Lexer Ast Value Text StdLib Exec Runtime SpecSema.

(** The tree does not mention [std] and has no command blocks. *)
Fixpoint unaided (e : expr) : Prop :=
  match e with
  | EIllFormed | ESelf _ | ELit _ _ | EFieldName _ _ => True
  | EIdent s _ => s <> bs "std"%string
  | EArray es _ => each unaided es
  | EDict kvs _ => each (fun kv => unaided (snd kv)) kvs
  | EFunction _ b _ => unaided_block b
  | EUnary _ e _ => unaided e
  | EBinary a _ b _ | EAccess a b _ => unaided a /\ unaided b
  | EIf c t e _ => unaided c /\ unaided_block t /\ unaided_block e
  | ECall f args _ => unaided f /\ each unaided args
  | ECommand _ _ => False
  end
with unaided_statement (s : statement) : Prop :=
  match s with
  | SIllFormed | SBreak _ => True
  | SLet _ e _ | SExpr e | SReturn e _ => unaided e
  | SAssign l r _ => unaided l /\ unaided r
  | SWhile c b _ => unaided c /\ unaided_block b
  | SFor _ e b _ => unaided e /\ unaided_block b
  end
with unaided_block (b : block) : Prop :=
  match b with BIllFormed => True | BBlock ss => each unaided_statement ss end.

(** The same state of the interpreter in another world, [w'], and with other command line arguments,
    which are array 0 of the heap. *)
Definition outside {W W'} (args : list bytes) (s : state W) (w' : W') : state W' :=
  let h := st_heap s in
  mkstate (st_stack s) (st_args s) (mkheap (h_cells h) (map VStr args :: List.tl (h_arrs h)) (h_dicts h) (h_iters h))
    (st_modules s) (st_units s) (st_leaked s) w'.

(** Two runs, begun in the worlds [w] and [w'], the second with the arguments [args'], came to the same, and
    neither touched its world. *)
Inductive undisturbed {W W' A} (w : W) (args' : list bytes) (w' : W') : outcome (state W) A -> outcome (state W') A -> Prop :=
| un_value a s : st_world s = w -> undisturbed w args' w' (Val a s) (Val a (outside args' s w'))
| un_panic p s : st_world s = w -> undisturbed w args' w' (Pan p s) (Pan p (outside args' s w'))
| un_crash c : undisturbed w args' w' (Crash c) (Crash c)
| un_fuel : undisturbed w args' w' Fuel Fuel.
