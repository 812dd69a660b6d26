(** Where the functions of a program are written. *)
From Verif Require Import Base Lexer Ast Program.

(** A function expression: how many parameters, its variables, its body, its place. *)
Record written_function := mkwritten {
  wf_params : nat; wf_info : frame_info; wf_body : list xstatement; wf_place : pos }.

(** The function expressions of a tree in the order of the text, the outer ones before those
    inside of them. *)
Fixpoint functions_expr (e : xexpr) : list written_function :=
  match e with
  | XIdent _ _ | XLit _ _ | XFieldName _ _ | XCommand _ _ => []
  | XArray es _ => flat_map functions_expr es
  | XDict items _ => flat_map (fun kv => functions_expr (snd kv)) items
  | XFunction n fi body p => mkwritten n fi body p :: flat_map functions_statement body
  | XUnary _ e _ => functions_expr e
  | XBinary l _ r _ => functions_expr l ++ functions_expr r
  | XIf c t e _ => functions_expr c ++ flat_map functions_statement t ++ flat_map functions_statement e
  | XAccess o f _ => functions_expr o ++ functions_expr f
  | XCall f args _ => functions_expr f ++ flat_map functions_expr args
  end
with functions_statement (s : xstatement) : list written_function :=
  match s with
  | XAssign (LIdent _ _) r => functions_expr r
  | XAssign (LAccess o f _) r => functions_expr o ++ functions_expr f ++ functions_expr r
  | XReturn e | XExpr e => functions_expr e
  | XBreak => []
  | XWhile c b => functions_expr c ++ flat_map functions_statement b
  | XFor _ e b => functions_expr e ++ flat_map functions_statement b
  end.

Definition functions (p : program) : list written_function := flat_map functions_statement (pr_statements p).

Definition expression_of (f : written_function) : xexpr :=
  XFunction (wf_params f) (wf_info f) (wf_body f) (wf_place f).

(** Further up in the text, or to the left. *)
Definition before (p q : pos) : Prop := (line p < line q \/ line p = line q /\ column p < column q)%N.
