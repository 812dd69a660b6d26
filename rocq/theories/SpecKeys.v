(** Which keys of dict literals are repeated. *)
From Coq Require Import Strings.String.
From Verif Require Import Base Lexer Ast SpecSema.

(** The keys of the dict literals in a tree, those of a literal before those of its values.  What
    is assigned to is a variable or a field in every legal program. *)
Fixpoint dicts_expr (e : expr) : list (list (symbol * pos)) :=
  match e with
  | EDict kvs _ => map fst kvs :: flat_map (fun kv => dicts_expr (snd kv)) kvs
  | EArray es _ => flat_map dicts_expr es
  | EFunction _ b _ => dicts_block b
  | EUnary _ e _ => dicts_expr e
  | EBinary l _ r _ => dicts_expr l ++ dicts_expr r
  | EIf c t e _ => dicts_expr c ++ dicts_block t ++ dicts_block e
  | EAccess o f _ => dicts_expr o ++ dicts_expr f
  | ECall f args _ => dicts_expr f ++ flat_map dicts_expr args
  | _ => []
  end
with dicts_statement (s : statement) : list (list (symbol * pos)) :=
  match s with
  | SLet _ e _ | SReturn e _ | SExpr e => dicts_expr e
  | SAssign (EAccess _ _ _ as l) r _ => dicts_expr l ++ dicts_expr r
  | SAssign _ r _ => dicts_expr r
  | SWhile c b _ => dicts_expr c ++ dicts_block b
  | SFor _ e b _ => dicts_expr e ++ dicts_block b
  | SIllFormed | SBreak _ => []
  end
with dicts_block (b : block) : list (list (symbol * pos)) :=
  match b with BIllFormed => [] | BBlock ss => flat_map dicts_statement ss end.

(** Only the last value of a dict literal has dict literals in it. *)
Fixpoint flat_expr (e : expr) : Prop :=
  match e with
  | EDict kvs _ =>
    flat_map (fun kv => dicts_expr (snd kv)) (removelast kvs) = [] /\ each (fun kv => flat_expr (snd kv)) kvs
  | EArray es _ => each flat_expr es
  | EFunction _ b _ => flat_block b
  | EUnary _ e _ => flat_expr e
  | EBinary l _ r _ => flat_expr l /\ flat_expr r
  | EIf c t e _ => flat_expr c /\ flat_block t /\ flat_block e
  | EAccess o f _ => flat_expr o /\ flat_expr f
  | ECall f args _ => flat_expr f /\ each flat_expr args
  | _ => True
  end
with flat_statement (s : statement) : Prop :=
  match s with
  | SLet _ e _ | SReturn e _ | SExpr e => flat_expr e
  | SAssign l r _ => flat_expr l /\ flat_expr r
  | SWhile c b _ => flat_expr c /\ flat_block b
  | SFor _ e b _ => flat_expr e /\ flat_block b
  | SIllFormed | SBreak _ => True
  end
with flat_block (b : block) : Prop :=
  match b with BIllFormed => True | BBlock ss => each flat_statement ss end.

(** The keys that stand before in the list *)
Inductive repeats : list symbol -> list (symbol * pos) -> list (symbol * pos) -> Prop :=
| re_nil seen : repeats seen [] []
| re_new seen k p l r : ~ In k seen -> repeats (k :: seen) l r -> repeats seen ((k, p) :: l) r
| re_old seen k p l r : In k seen -> repeats seen l r -> repeats seen ((k, p) :: l) ((k, p) :: r).

(** The repeated keys of all the literals *)
Definition repeated (b : block) (ks : list (symbol * pos)) : Prop :=
  exists kss, Forall2 (repeats []) (dicts_block b) kss /\ ks = concat kss.
