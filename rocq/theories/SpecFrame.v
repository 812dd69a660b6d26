(** Specification of what a call has to do with the state it is made in: it is given its function,
    the [self] and the arguments, and it has the library, the arguments of the script and the
    modules.  The variables of the caller are not its business. *)
From Coq Require Import List.
From Verif Require Import Base Lexer Ast Program Value StdLib Exec Runtime SpecGarbage.

(** What is held in a state besides the variables *)
Definition held {W} (s : state W) : list object :=
  ODict 0 :: OArr 0 :: flat_map pointers (st_args s) ++ flat_map (fun m => pointers (snd m)) (st_modules s).
Definition given {W} (obj : value) (f : func) (s : state W) : list object := pointers obj ++ func_pointers f ++ held s.

(** What comes out of a call *)
Definition comes {W} (o : outcome (state W) value) : list object :=
  match o with Val v _ => pointers v | Pan p _ => panic_pointers p | _ => [] end.

(** The objects that are not reached from [before] are as they were, and are not reached from
    [after]. *)
Definition untouched (h : heap) (before : list object) (h' : heap) (after : list object) : Prop :=
  forall x, there h x -> ~ reachable h before x -> there h' x /\ same_object h h' x /\ ~ reachable h' after x.

(** The variables of the function at work are the [k] slots at the top. *)
Definition own {W} (k : nat) (s : state W) : list object := flat_map slot_pointers (firstn k (st_stack s)) ++ held s.
(** What comes out of a statement *)
Definition leaves {W} (o : outcome (state W) flow) : list object :=
  match o with Val v _ => flow_pointers v | Pan p _ => panic_pointers p | _ => [] end.

(** Two states that are equal in what is reached from [given]: the variables may be others, as long
    as there are as many, and all other objects may hold other values. *)
Record alike {W} (given : list object) (s t : state W) : Prop := mkalike {
  ak_args : st_args t = st_args s;
  ak_modules : st_modules t = st_modules s;
  ak_units : st_units t = st_units s;
  ak_leaked : st_leaked t = st_leaked s;
  ak_world : st_world t = st_world s;
  ak_size : same_size (st_heap s) (st_heap t);
  ak_same : forall x, reachable (st_heap s) given x -> same_object (st_heap s) (st_heap t) x }.

(** The same comes out of a call in both states, and they are alike again. *)
Definition answers {W} (s t : state W) (o o' : outcome (state W) value) : Prop :=
  match o, o' with
  | Val v s', Val w t' => v = w /\ alike (pointers v ++ held s') s' t' /\ st_stack s' = st_stack s /\ st_stack t' = st_stack t
  | Pan p s', Pan q t' => p = q /\ alike (panic_pointers p ++ held s') s' t' /\ st_stack s' = st_stack s /\ st_stack t' = st_stack t
  | Exit z s', Exit z' t' => z = z' /\ st_world t' = st_world s'
  | _, _ => False
  end.
(** The same of a statement: the slots at the top stay the same in both states, those below stay as
    they were. *)
Definition local_end {W} (k : nat) (after : list object) (s t s' t' : state W) : Prop :=
  alike (after ++ own k s') s' t' /\ firstn k (st_stack t') = firstn k (st_stack s') /\
  skipn k (st_stack s') = skipn k (st_stack s) /\ skipn k (st_stack t') = skipn k (st_stack t).
Definition leads {W} (k : nat) (s t : state W) (o o' : outcome (state W) flow) : Prop :=
  match o, o' with
  | Val v s', Val w t' => v = w /\ local_end k (flow_pointers v) s t s' t'
  | Pan p s', Pan q t' => p = q /\ local_end k (panic_pointers p) s t s' t'
  | Exit z s', Exit z' t' => z = z' /\ st_world t' = st_world s'
  | _, _ => False
  end.
