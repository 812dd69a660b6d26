(** Plain data as trees, with the order and the equality they should have. *)
From Coq Require Import Strings.String Sorting.Permutation Sorting.Sorted.
From Verif Require Import Base Lexer Ast Program Value.

(** The contents of a value that has no function, no NaN and no cycle in it.  The entries of a
    dict are in the order of their keys. *)
Inductive tree :=
| TNil
| TBool (b : bool)
| TByte (b : byte)
| TInt (z : Z)
| TFloat (f : spec_float)
| TStr (s : bytes)
| TArr (l : list tree)
| TDict (l : list (tree * tree))
| TErr (description : bytes) (context : tree).

(** Types are ordered as they are here. *)
Definition rank (t : tree) : nat :=
  match t with
  | TNil => 0 | TBool _ => 1 | TByte _ => 2 | TInt _ => 3 | TFloat _ => 4 | TStr _ => 5
  | TArr _ => 6 | TDict _ => 7 | TErr _ _ => 9
  end.

(** Lexicographic orders *)
Definition lexc {A} (c : A -> A -> comparison) : list A -> list A -> comparison :=
  fix go a b :=
    match a, b with
    | [], [] => Eq
    | [], _ :: _ => Lt
    | _ :: _, [] => Gt
    | x :: a', y :: b' => match c x y with Eq => go a' b' | r => r end
    end.
Definition pairc {A B} (c : A -> A -> comparison) (c' : B -> B -> comparison) (e e' : A * B)
  : comparison := match c (fst e) (fst e') with Eq => c' (snd e) (snd e') | r => r end.

Definition bytec (x y : byte) : comparison := (Byte.to_N x ?= Byte.to_N y)%N.
(** The order of IEEE 754; NaN, which trees of values do not have, is put first. *)
Definition floatc (x y : spec_float) : comparison :=
  match SFcompare x y with
  | Some c => c
  | None => if is_nan x then if is_nan y then Eq else Lt else Gt
  end.
Definition boolc (x y : bool) : comparison :=
  match x, y with false, true => Lt | true, false => Gt | _, _ => Eq end.

Fixpoint tcmp (t u : tree) : comparison :=
  match t, u with
  | TBool x, TBool y => boolc x y
  | TByte x, TByte y => bytec x y
  | TInt x, TInt y => (x ?= y)%Z
  | TFloat x, TFloat y => floatc x y
  | TStr x, TStr y => lexc bytec x y
  | TArr x, TArr y => lexc tcmp x y
  | TDict x, TDict y => lexc (pairc tcmp tcmp) x y
  | TErr d c, TErr d' c' => match lexc bytec d d' with Eq => tcmp c c' | r => r end
  | _, _ => Nat.compare (rank t) (rank u)
  end.

(** The entries of a dict in the order of the keys; no two keys are equal. *)
Definition in_order (l : list (tree * tree)) : Prop :=
  StronglySorted (fun e e' : tree * tree => tcmp (fst e) (fst e') = Lt) l.

(** In the heap [h] the value is the tree, whose depth is at most [n]; the collection [k], if
    any, is not a part of the value. *)
Fixpoint reads (k : lock) (h : heap) (n : nat) (v : value) (t : tree) : Prop :=
  match n with
  | O => False
  | S n' =>
      match v, t with
      | VNil, TNil => True
      | VBool x, TBool y => x = y
      | VByte x, TByte y => x = y
      | VInt x, TInt y => x = y
      | VFloat x, TFloat y => x = y /\ is_nan x = false
      | VStr x, TStr y => x = y
      | VArr l, TArr ts => arr_locked k l = false /\ Forall2 (reads k h n') (arr_get h l) ts
      | VDict l, TDict ts =>
          dict_locked k l = false /\ in_order ts /\
          exists us, Permutation us ts /\
            Forall2 (fun (e : value * value) (u : tree * tree) =>
                       reads k h n' (fst e) (fst u) /\ reads k h n' (snd e) (snd u))
                    (dict_entries h l) us
      | VErr d c, TErr d' t => d = d' /\ reads k h n' c t
      | _, _ => False
      end
  end.
Definition data (h : heap) (v : value) (t : tree) : Prop := exists n, reads LockNone h n v t.

(** [qs] is [ps] sorted, equal ones keeping their order. *)
Definition sorted_stably (ps qs : list (value * tree)) : Prop :=
  Permutation ps qs /\
  StronglySorted (fun p q : value * tree => tcmp (snd p) (snd q) <> Gt) qs /\
  forall t, let same := fun p : value * tree => match tcmp (snd p) t with Eq => true | _ => false end in
            filter same qs = filter same ps.
