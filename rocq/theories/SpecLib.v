(** Specifications for the standard library. *)
From Coq Require Import Strings.String Sorting.Permutation Floats.SpecFloat.
From Verif Require Import Base Lexer Ast Program Value StdLib.

(** A [HashMap] is iterated in some order. *)
Definition some_order {W} (X : ext W) : Prop := forall d, Permutation (x_order X d) d.

(** ** Iterators *)

(** What an iterator returns: a dict saying that there is no more, or with the next item. *)
Definition iteration_dict (next : option value) : list (value * value) :=
  match next with
  | None => [(VStr (bs "finished"), VBool true)]
  | Some v => [(VStr (bs "finished"), VBool false); (VStr (bs "value"), v)]
  end.

(** The next [k] calls of the native function [f], which keeps its position in [st], return the
    [items] one after the other and say that there are no more from then on, whatever the rest
    of the program does to other objects between the calls.  [shown] relates an item to the
    value returned. *)
Fixpoint yields {W A} (X : ext W) (shown : A -> heap -> value -> Prop) (f : native) (st : loc) (k : nat)
  (h : heap) (items : list A) : Prop :=
  match k with
  | O => True
  | S k' =>
      forall h1 w n args p, nth_error (h_iters h1) st = nth_error (h_iters h) st ->
      exists d h2,
        native_call X n args f [] p h1 w = Val (VDict d) (h2, w) /\
        match items with
        | [] => dict_entries h2 d = iteration_dict None
        | x :: _ => exists v, dict_entries h2 d = iteration_dict (Some v) /\ shown x h2 v
        end /\
        yields X shown f st k' h2 (List.tl items)
  end.

(** The item is the value returned. *)
Definition itself (x : value) (h : heap) (v : value) : Prop := v = x.
(** The item is an entry of a dict. *)
Definition as_entry (e : value * value) (h : heap) (v : value) : Prop :=
  exists d, v = VDict d /\ dict_entries h d = [(VStr (bs "key"), fst e); (VStr (bs "value"), snd e)].

(** The numbers [from], [from + step], … that are strictly before [to]; [k] of them at most. *)
Definition before (step to z : Z) : bool := if (0 <? step)%Z then (z <? to)%Z else (to <? z)%Z.
Fixpoint progression (k : nat) (from to step : Z) : list Z :=
  match k with
  | O => []
  | S k' => if before step to from then from :: progression k' (from + step) to step else []
  end.

(** The same of floats.  A sum may be rounded to [from] itself, so there may be any number of them.
    What is not a number is below every other float. *)
Definition float_below (x y : spec_float) : bool := is_nan x || SFltb x y.
Definition float_above (x y : spec_float) : bool := negb (is_nan x) && (is_nan y || SFltb y x).
Definition float_before (step to x : spec_float) : bool :=
  if float_above step (S754_zero false) then float_below x to else float_above x to.
Fixpoint float_progression (k : nat) (from to step : spec_float) : list spec_float :=
  match k with
  | O => []
  | S k' => if float_before step to from then from :: float_progression k' (SFadd 53 1024 from step) to step else []
  end.
(** A number as a float *)
Definition promoted (v : value) (f : spec_float) : Prop :=
  match v with VInt z => f = binary_normalize 53 1024 z 0 false | VFloat x => f = x | _ => False end.
Definition is_integer (v : value) : Prop := exists z, v = VInt z.

(** ** Errors inside values *)
Inductive holds_error (h : heap) : value -> Prop :=
| he_error d c : holds_error h (VErr d c)
| he_item l v : In v (arr_get h l) -> holds_error h v -> holds_error h (VArr l)
| he_key l k v : In (k, v) (dict_entries h l) -> holds_error h k -> holds_error h (VDict l)
| he_value l k v : In (k, v) (dict_entries h l) -> holds_error h v -> holds_error h (VDict l).

(** A value from which only finitely long paths through arrays and dicts start. *)
Inductive acyclic (h : heap) : value -> Prop :=
| ac_array l : (forall v, In v (arr_get h l) -> acyclic h v) -> acyclic h (VArr l)
| ac_dict l :
    (forall k v, In (k, v) (dict_entries h l) -> acyclic h k) ->
    (forall k v, In (k, v) (dict_entries h l) -> acyclic h v) -> acyclic h (VDict l)
| ac_other v : (forall l, v <> VArr l) -> (forall l, v <> VDict l) -> acyclic h v.

(** ** Types *)

(** The names of the types of the language, with the values they are the types of. *)
Definition type_name (v : value) : bytes :=
  match v with
  | VNil => bs "nil"
  | VBool _ => bs "bool"
  | VInt _ => bs "int"
  | VFloat _ => bs "float"
  | VByte _ => bs "char"
  | VStr _ => bs "string"
  | VArr _ => bs "array"
  | VDict _ => bs "dict"
  | VFun _ => bs "function"
  | VErr _ _ => bs "error"
  end.
Definition type_names : list bytes :=
  [bs "nil"; bs "bool"; bs "int"; bs "float"; bs "char"; bs "string"; bs "array"; bs "dict";
   bs "function"; bs "error"].

(** ** Integers as text *)

(** Decimal digits, at least one, leading zeros allowed *)
Inductive spells : Z -> bytes -> Prop :=
| sp_digit i : i < 10 -> spells (Z.of_nat i) [nth i (bs "0123456789") x00]
| sp_more z t i : i < 10 -> spells z t -> spells (10 * z + Z.of_nat i) (t ++ [nth i (bs "0123456789") x00]).
(** With or without a sign *)
Inductive writes : Z -> bytes -> Prop :=
| wr_plain z t : spells z t -> writes z t
| wr_plus z t : spells z t -> writes z (x2b :: t)
| wr_minus z t : spells z t -> writes (- z) (x2d :: t).
