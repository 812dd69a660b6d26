(** What is assumed of the libraries around the interpreter when the closed variables of two runs
    are compared: they do not look inside functions. *)
From Coq Require Import List.
From Verif Require Import Base Lexer Ast Program Value StdLib Exec Runtime SpecRun.

(** The heap with other closed variables *)
Definition recell (cs : list value) (h : heap) : heap := mkheap cs (h_arrs h) (h_dicts h) (h_iters h).

(** The threads of asynchronous blocks do not see variables. *)
Record blind {W} (X : ext W) : Prop := mkblind {
  bl_join : forall cs i h w, x_join X i (recell cs h) w =
    match x_join X i h w with (inl (v, h'), w') => (inl (v, recell cs h'), w') | (inr e, w') => (inr e, w') end }.

(** The closed variables when every variable is in a cell, and the state then *)
Definition opened (x : vslot) : vslot := Closed (slot_id x).
Definition wide {W} (cs : list value) (s : state W) : state W :=
  mkstate (map opened (st_stack s)) (st_args s) (recell cs (st_heap s)) (st_modules s) (st_units s) (st_leaked s) (st_world s).

(** The cells are those of the lazy run for what was captured, and the stack for the rest. *)
Record inv {W} (sc : scope) (cs : list value) (s : state W) : Prop := mkinv {
  i_iter : forall i, @sc_iter sc i;
  i_length : length cs = length (h_cells (st_heap s));
  i_cell : forall c, @sc_cell sc c -> c < length cs /\ nth c cs VNil = cell_get (st_heap s) c;
  i_cells : Forall (@sound sc) cs;
  i_args : Forall (@sound sc) (st_args s);
  i_heap : @sound_heap sc (st_heap s);
  i_modules : Forall (fun m => @sound sc (snd m)) (st_modules s);
  i_slot : forall i x, nth_error (st_stack s) i = Some x ->
    match x with Regular id v => ~ @sc_cell sc id /\ id < length cs /\ nth id cs VNil = v | Closed c => @sc_cell sc c end;
  i_apart : forall i j x y, nth_error (st_stack s) i = Some x -> nth_error (st_stack s) j = Some y ->
    slot_id x = slot_id y -> i = j \/ @sc_cell sc (slot_id x) }.


(** In [s] every slot has a variable of its own, unless that variable was captured. *)
Definition tidy {W} (s : state W) : Prop := exists sc cs, inv sc cs s.

(** The value of a variable, by slot *)
Definition slot_now {W} (s : state W) (ix : slot) : option value :=
  option_map (slot_value (st_heap s)) (nth_error (st_stack s) ix).

(** The states of two runs, of which one keeps all variables in cells *)
Definition same_rest {W} (s s' : state W) : Prop :=
  st_args s = st_args s' /\ h_arrs (st_heap s) = h_arrs (st_heap s') /\ h_dicts (st_heap s) = h_dicts (st_heap s') /\
  h_iters (st_heap s) = h_iters (st_heap s') /\ st_modules s = st_modules s' /\ st_world s = st_world s'.
Definition alike {W A} (o o' : outcome (state W) A) : Prop :=
  match o, o' with
  | Val a s, Val b s' => a = b /\ same_rest s s' /\ forall ix, slot_now s ix = slot_now s' ix
  | Pan p s, Pan q s' => p = q /\ same_rest s s' /\ forall ix, slot_now s ix = slot_now s' ix
  | Exit z s, Exit z' s' => z = z' /\ same_rest s s'
  | Crash c, Crash d => c = d
  | Fuel, Fuel => True
  | _, _ => False
  end.

(** Values that only mention the first [n] variables *)
Definition first_cells (n : nat) : scope := mkscope (fun _ => True) (fun c => c < n).
