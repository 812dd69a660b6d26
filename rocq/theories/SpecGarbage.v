(** Specification of what a collector may take away: the objects that the interpreter does not
    reach. *)
From Coq Require Import List.
From Verif Require Import Base Lexer Ast Program Value StdLib Exec Runtime.

(** The objects of the heap *)
Inductive object := OCell (l : loc) | OArr (l : loc) | ODict (l : loc) | OIter (l : loc).

(** The objects that a value points to itself *)
Fixpoint pointers (v : value) : list object :=
  match v with
  | VArr l => [OArr l]
  | VDict l => [ODict l]
  | VErr _ c => pointers c
  | VFun f => func_pointers f
  | _ => []
  end
with func_pointers (f : func) : list object :=
  match f with
  | FHush _ _ _ _ context _ => map (fun x => OCell (fst x)) context
  | FRust g => native_pointers g
  end
with native_pointers (g : native) : list object :=
  match g with
  | NBind obj f => pointers obj ++ func_pointers f
  | NIterArr a i => [OArr a; OIter i]
  | NIterStr _ i | NIterDict i | NRangeInt i _ _ | NRangeFloat i _ _ | NJoin i => [OIter i]
  | NStd _ | NRegex _ _ => []
  end.

(** The values in an object *)
Definition inside_object (h : heap) (x : object) : list value :=
  match x with
  | OCell l => [cell_get h l]
  | OArr l => arr_get h l
  | ODict l => map fst (dict_entries h l) ++ map snd (dict_entries h l)
  | OIter l => match iter_get h l with ISEntries d => map fst d ++ map snd d | _ => [] end
  end.

(** What can be come to from some objects *)
Inductive reachable (h : heap) (roots : list object) : object -> Prop :=
| rc_root x : In x roots -> reachable h roots x
| rc_inside x v y : reachable h roots x -> In v (inside_object h x) -> In y (pointers v) -> reachable h roots y.

(** What the interpreter holds: the library, the arguments of the script, its variables, the
    arguments of calls and the values of modules. *)
Definition slot_pointers (x : vslot) : list object :=
  match x with Regular id v => OCell id :: pointers v | Closed c => [OCell c] end.
Definition roots {W} (s : state W) : list object :=
  ODict 0 :: OArr 0 :: flat_map slot_pointers (st_stack s) ++ flat_map pointers (st_args s) ++
  flat_map (fun m => pointers (snd m)) (st_modules s).

(** Objects have numbers below the number of those there are. *)
Definition there (h : heap) (x : object) : Prop :=
  match x with
  | OCell l => l < length (h_cells h)
  | OArr l => l < length (h_arrs h)
  | ODict l => l < length (h_dicts h)
  | OIter l => l < length (h_iters h)
  end.
(** The object has the same contents in both heaps. *)
Definition same_object (h h' : heap) (x : object) : Prop :=
  match x with
  | OCell l => cell_get h' l = cell_get h l
  | OArr l => arr_get h' l = arr_get h l
  | ODict l => dict_entries h' l = dict_entries h l
  | OIter l => iter_get h' l = iter_get h l
  end.
Definition same_size (h h' : heap) : Prop :=
  length (h_cells h') = length (h_cells h) /\ length (h_arrs h') = length (h_arrs h) /\
  length (h_dicts h') = length (h_dicts h) /\ length (h_iters h') = length (h_iters h).

(** Two states that differ only in the contents of what is not reached, be it from [more] *)
Record but_garbage {W} (more : list object) (s t : state W) : Prop := mkbut {
  bg_stack : st_stack t = st_stack s;
  bg_args : st_args t = st_args s;
  bg_modules : st_modules t = st_modules s;
  bg_units : st_units t = st_units s;
  bg_leaked : st_leaked t = st_leaked s;
  bg_world : st_world t = st_world s;
  bg_size : same_size (st_heap s) (st_heap t);
  bg_same : forall x, reachable (st_heap s) (more ++ roots s) x -> same_object (st_heap s) (st_heap t) x }.

(** What was not reached in [s], be it from [before], is as it was in [s'], and is not reached
    there, not even from [more]. *)
Definition left_alone {W} (before : list object) (s : state W) (more : list object) (s' : state W) : Prop :=
  forall x, there (st_heap s) x -> ~ reachable (st_heap s) (before ++ roots s) x ->
  there (st_heap s') x /\ same_object (st_heap s) (st_heap s') x /\ ~ reachable (st_heap s') (more ++ roots s') x.

Definition flow_pointers (f : flow) : list object := match f with Reg v | Ret v => pointers v | Brk => [] end.
Definition panic_pointers (p : panic) : list object :=
  match p with
  | PIndexOutOfBounds v _ | PInvalidCall v _ | PInvalidCondition v _ | PTypeError v _ _ | PValueError v _ _
  | PAssignToReadonlyField v _ | PUser v _ => pointers v
  | _ => []
  end.

(** From two states that differ in garbage only, what comes out differs in garbage only. *)
Definition regardless {W A} (ptrs : A -> list object) (before : list object) (s : state W) (o o' : outcome (state W) A) : Prop :=
  match o, o' with
  | Val a s', Val b t' => a = b /\ but_garbage (ptrs a) s' t' /\ left_alone before s (ptrs a) s'
  | Pan p s', Pan q t' => p = q /\ but_garbage (panic_pointers p) s' t' /\ left_alone before s (panic_pointers p) s'
  | Exit z s', Exit z' t' => z = z' /\ st_world t' = st_world s' /\ st_leaked t' = st_leaked s'
  | Crash c, Crash d => c = d
  | Fuel, Fuel => True
  | _, _ => False
  end.

(** What is assumed of the libraries and threads around the interpreter: a hash map is iterated in
    some order, and they see nothing of the heap; what they make is new. *)
Record detached {W} (X : ext W) : Prop := mkdetached {
  dt_order : forall l e, In e (x_order X l) -> In e l;
  dt_glob : forall s w d c, x_std_glob X s w = inr (d, c) -> pointers c = [];
  dt_panic : forall i h w e w', x_join X i h w = (inr e, w') ->
    panic_pointers e = [] /\ forall h', same_size h h' -> x_join X i h' w = (inr e, w');
  dt_join : forall i h w v h1 w', x_join X i h w = (inl (v, h1), w') ->
    exists arrs dicts,
      (forall h', same_size h h' -> x_join X i h' w =
         (inl (v, mkheap (h_cells h') (h_arrs h' ++ arrs) (h_dicts h' ++ dicts) (h_iters h')), w')) /\
      (forall u x, u = v \/ (exists a, In a arrs /\ In u a) \/ (exists d e, In d dicts /\ In e d /\ (u = fst e \/ u = snd e)) ->
         In x (pointers u) -> ~ there h x /\ match x with OArr _ | ODict _ => True | _ => False end) }.

(** The statements of a block, with a collector at work between any two of them: [gc k], when [k]
    statements are left, may change what is not reached. *)
Fixpoint collecting {W} (gc : nat -> state W -> state W) (E : evals) (u : uinfo) (b : list xstatement) : @M W flow :=
  fun s =>
  match b with
  | [] => Val (Reg VNil) s
  | [st] => ev_statement E u st (gc 1 s)
  | st :: b =>
      match ev_statement E u st (gc (S (length b)) s) with
      | Val (Reg _) s => collecting gc E u b s
      | r => r
      end
  end.
