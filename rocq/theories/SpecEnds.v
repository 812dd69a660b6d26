(** Specification of code that has no reason to go on forever. *)
From Coq Require Import List.
From Verif Require Import Base Lexer Ast Program Value StdLib Exec Runtime SpecSema SpecProgram.

(** Expressions that never come to an array, a dict, an error or a function *)
Definition settled (e : xexpr) : Prop :=
  match e with
  | XLit _ _ | XFieldName _ _ | XBinary _ _ _ _ => True
  | XUnary op _ _ => op <> UTry
  | _ => False
  end.

(** Code of a depth of less than [k] without loops and calls, in which whatever is compared is
    compared with something that is [settled], and so are keys and indices.  Functions may be made,
    whatever they would do, and commands may be run. *)
Fixpoint straight_expr (k : nat) (e : xexpr) : Prop :=
  match k with
  | O => False
  | S k =>
      match e with
      | XIdent _ _ | XLit _ _ | XFieldName _ _ | XFunction _ _ _ _ | XCommand _ _ => True
      | XArray es _ => each (straight_expr k) es
      | XDict kvs _ => each (fun kv => straight_expr k (snd kv)) kvs
      | XUnary _ e _ => straight_expr k e
      | XBinary l op r _ =>
          straight_expr k l /\ straight_expr k r /\ (op = BEquals \/ op = BNotEquals -> settled l \/ settled r)
      | XIf c t e _ => straight_expr k c /\ each (straight_statement k) t /\ each (straight_statement k) e
      | XAccess o f _ => straight_expr k o /\ straight_expr k f /\ settled f
      | XCall _ _ _ => False
      end
  end
with straight_statement (k : nat) (st : xstatement) : Prop :=
  match k with
  | O => False
  | S k =>
      match st with
      | XAssign (LIdent _ _) r => straight_expr k r
      | XAssign (LAccess o f _) r => straight_expr k o /\ straight_expr k f /\ settled f /\ straight_expr k r
      | XReturn e | XExpr e => straight_expr k e
      | XBreak => True
      | XWhile _ _ | XFor _ _ _ => False
      end
  end.

(** The evaluation came to an end. *)
Definition ended {S A} (o : outcome S A) : Prop := match o with Fuel => False | _ => True end.

(** Iterators over what has an end, and how many turns they have left at most *)
Definition finite (h : heap) (g : native) : Prop :=
  match g with
  | NIterArr a i => a < length (h_arrs h) /\ i < length (h_iters h)
  | NIterStr _ i | NIterDict i => i < length (h_iters h)
  | NRangeInt i to step =>
      (* no number of the range is so large that the next one wraps around *)
      i < length (h_iters h) /\ (step <> 0)%Z /\
      match iter_get h i with
      | ISInt from => (i64_min <= from <= i64_max /\ i64_min <= to + step <= i64_max)%Z
      | _ => True
      end
  | _ => False
  end.
Definition turns (h : heap) (g : native) : nat :=
  match g with
  | NIterArr a i => match iter_get h i with ISInt z => length (arr_get h a) - Z.to_nat z | _ => 0 end
  | NIterStr t i => match iter_get h i with ISInt z => length t - Z.to_nat z | _ => 0 end
  | NIterDict i => match iter_get h i with ISEntries l => length l | _ => 0 end
  | NRangeInt i to step => match iter_get h i with ISInt from => Z.to_nat (if 0 <? step then to - from else from - to)%Z | _ => 0 end
  | _ => 0
  end.
