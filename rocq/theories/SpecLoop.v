(** What a [for] over the elements of an array should do. *)
From Verif Require Import Base Lexer Ast Program Value StdLib Exec Runtime SpecRun.

(** No value mentions iterator [st]. *)
Definition unmentioned (st : loc) : scope := mkscope (fun i => i <> st) (fun _ => True).
(** Only the first iterators and the first variables are mentioned. *)
Definition within (iters cells : nat) : scope := mkscope (fun i => i < iters) (fun c => c < cells).

(** No value mentions an iterator, or a variable, that does not exist. *)
Definition inside {W} (s : state W) : Prop :=
  @sound_state (within (length (h_iters (st_heap s))) (length (h_cells (st_heap s)))) W s.

Section Loop.
Context {W : Type}.

(** The states only differ in the iterator and in a dict that is new. *)
Definition moved (st : loc) (s s' : state W) : Prop :=
  exists d i, s' = set_heap s (mkheap (h_cells (st_heap s)) (h_arrs (st_heap s)) (h_dicts (st_heap s) ++ [d])
                                 (list_set (h_iters (st_heap s)) st i)).

Variable body : state W -> outcome (state W) flow -> Prop.
Variables a st : loc.
Variable ix : slot.

(** The body begins in [s'] with element [k] in the variable of the loop. *)
Definition begins (k : nat) (s s' : state W) : Prop :=
  exists v s0, nth_error (arr_get (st_heap s) a) k = Some v /\ moved st s s0 /\ store ix v s0 = Val tt s'.

(** The loop from element [k] on, as long as the body does not change the length. *)
Inductive in_order : nat -> state W -> outcome (state W) flow -> Prop :=
| io_end k s s' : k = length (arr_get (st_heap s) a) -> moved st s s' -> in_order k s (Val (Reg VNil) s')
| io_next k s s1 v s2 o :
    begins k s s1 -> body s1 (Val (Reg v) s2) ->
    length (arr_get (st_heap s2) a) = length (arr_get (st_heap s) a) ->
    in_order (S k) s2 o -> in_order k s o
| io_resized k s s1 v s2 o :
    begins k s s1 -> body s1 (Val (Reg v) s2) ->
    length (arr_get (st_heap s2) a) <> length (arr_get (st_heap s) a) -> in_order k s o
| io_break k s s1 s2 : begins k s s1 -> body s1 (Val Brk s2) -> in_order k s (Val (Reg VNil) s2)
| io_left k s s1 o :
    begins k s s1 -> body s1 o -> match o with Val (Reg _) _ | Val Brk _ => False | _ => True end ->
    in_order k s o.
End Loop.

(** The statements are evaluated to the end, in [s]. *)
Definition block_runs {W} (X : ext W) (O : os W) (u : uinfo) (b : list xstatement) (s : state W)
  (o : outcome (state W) flow) : Prop :=
  o <> Fuel /\ exists m, eval_block (run X O true false m) u b s = o.
