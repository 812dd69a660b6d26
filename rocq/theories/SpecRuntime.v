(** Specifications for the operators and values of the interpreter. *)
From Coq Require Import Strings.String.
From Verif Require Import Base Lexer Ast Program Value StdLib Exec Runtime SpecOrder.

(** The interpreter with fuel [n] *)
Definition interp {W} (X : ext W) (O : os W) (n : nat) : evals := run X O true false n.

(** The expression completes with a value, in a new state. *)
Definition gives {W} (X : ext W) (O : os W) (n : nat) (u : uinfo) (e : xexpr) (s : state W)
  (v : value) (s' : state W) : Prop :=
  exists p obj, ev_expr (interp X O n) u e s = Val (Reg v, p, obj) s'.

(** The expression stops with a panic. *)
Definition panics {W} (X : ext W) (O : os W) (n : nat) (u : uinfo) (e : xexpr) (s : state W)
  (p : panic) (s' : state W) : Prop := ev_expr (interp X O n) u e s = Pan p s'.

(** The exact results of integer arithmetic.  Quotient and remainder are those of a division
    that rounds towards zero. *)
Inductive exact : binary_op -> Z -> Z -> Z -> Prop :=
| ex_plus a b : exact BPlus a b (a + b)
| ex_minus a b : exact BMinus a b (a - b)
| ex_times a b : exact BTimes a b (a * b)
| ex_div a b q r :
    a = (b * q + r)%Z -> (Z.abs r < Z.abs b)%Z -> (0 <= r * a)%Z -> exact BDiv a b q
| ex_mod a b q r :
    a = (b * q + r)%Z -> (Z.abs r < Z.abs b)%Z -> (0 <= r * a)%Z -> exact BMod a b r.
Definition arithmetic (op : binary_op) : bool :=
  match op with BPlus | BMinus | BTimes | BDiv | BMod => true | _ => false end.

(** Values that [<] can compare *)
Definition comparable (a b : value) : Prop :=
  match a, b with
  | VInt _, VInt _ | VByte _, VByte _ | VStr _, VStr _ | VFloat _, VFloat _ => True
  | _, _ => False
  end.
Definition exactly_one (a b c : bool) : Prop :=
  match a, b, c with
  | true, false, false | false, true, false | false, false, true => True
  | _, _, _ => False
  end.
Definition is_boolean (v : value) : Prop := exists b, v = VBool b.

(** A value from which only finitely long paths through arrays, dicts, errors and variables
    captured by functions start. *)
Inductive grounded (h : heap) : value -> Prop :=
| gr_array l : (forall v, In v (arr_get h l) -> grounded h v) -> grounded h (VArr l)
| gr_dict l :
    (forall k v, In (k, v) (dict_entries h l) -> grounded h k) ->
    (forall k v, In (k, v) (dict_entries h l) -> grounded h v) -> grounded h (VDict l)
| gr_error d c : grounded h c -> grounded h (VErr d c)
| gr_closure u params fi b c p :
    (forall x ix, In (x, ix) c -> grounded h (cell_get h x)) -> grounded h (VFun (FHush u params fi b c p))
| gr_native f : grounded h (VFun (FRust f))
| gr_other v :
    match v with VArr _ | VDict _ | VErr _ _ | VFun _ => False | _ => True end -> grounded h v.

(** ** Dicts as finite maps *)

(** The dict holds the entries [m], whose keys are plain data that the dict is not a part of. *)
Definition represents (h : heap) (l : loc) (m : list (tree * value)) : Prop :=
  l < length (h_dicts h) /\ NoDup (map fst m) /\
  Forall2 (fun (e : value * value) (tv : tree * value) =>
             (exists n, reads (LockDict l) h n (fst e) (fst tv)) /\ snd e = snd tv)
          (dict_entries h l) m.

(** What the map [m] gives for the key [t] after the insertions [kvs]: the last of them counts. *)
Inductive looks_up (m : list (tree * value)) : list (tree * value) -> tree -> option value -> Prop :=
| lu_old t v : In (t, v) m -> looks_up m [] t (Some v)
| lu_absent t : ~ In t (map fst m) -> looks_up m [] t None
| lu_last kvs t v : looks_up m (kvs ++ [(t, v)]) t (Some v)
| lu_before kvs t k v r : k <> t -> looks_up m kvs t r -> looks_up m (kvs ++ [(k, v)]) t r.

(** [d[k] = v] for every pair of the list, one after the other *)
Fixpoint insert_all {W} (n : nat) (d : value) (kvs : list (value * value)) (p : spos) : M (W := W) unit :=
  match kvs with
  | [] => ret tt
  | (k, v) :: r => bind (assign_field n d p k p v p) (fun _ => insert_all n d r p)
  end.
