(** Specifications for whole runs of the interpreter. *)
From Coq Require Import Sorting.Permutation.
From Verif Require Import Base Lexer Ast Program Value StdLib Exec Runtime SpecSema SpecProgram.

(** A value that is not a function, nor an error around one. *)
Fixpoint plain (v : value) : Prop :=
  match v with VFun _ => False | VErr _ c => plain c | _ => True end.

(** [v] is data that was added to the heap. *)
Definition adds_data (h : heap) (v : value) (h' : heap) : Prop :=
  exists arrs dicts,
    h' = mkheap (h_cells h) (h_arrs h ++ arrs) (h_dicts h ++ dicts) (h_iters h) /\ plain v /\
    Forall (Forall plain) arrs /\ Forall (Forall (fun e => plain (fst e) /\ plain (snd e))) dicts.

(** What is assumed of the libraries and threads around the interpreter: a hash map is iterated
    in some order, and the values built by others are data, not functions. *)
Record honest {W} (X : ext W) : Prop := mkhonest {
  hn_order : forall l, Permutation (x_order X l) l;
  hn_glob : forall s w d c, x_std_glob X s w = inr (d, c) -> plain c;
  hn_join : forall i h w v h' w', x_join X i h w = (inl (v, h'), w') -> adds_data h v h' }.

(** Which iterators and which closed variables values may mention.  Usually all may; the
    restrictions serve to show what cannot be reached. *)
Class scope := mkscope { sc_iter : loc -> Prop; sc_cell : loc -> Prop }.
Definition anything : scope := mkscope (fun _ => True) (fun _ => True).

Section Sound.
Context {sc : scope}.

(** Every Hush function in the value has a body that the analyser would accept. *)
Fixpoint sound (v : value) : Prop :=
  match v with
  | VFun f => sound_func f
  | VErr _ c => sound c
  | _ => True
  end
with sound_func (f : func) : Prop :=
  match f with
  | FHush _ params fi body context _ =>
      params <= fi_slots fi /\ Forall (fun x => snd x < fi_slots fi) context /\
      Forall (fun ix => ix < fi_slots fi) (option_list (fi_self fi)) /\
      each (valid_statement true false (fi_slots fi)) body /\
      Forall (fun x => sc_cell (fst x)) context
  | FRust g => sound_native g
  end
with sound_native (g : native) : Prop :=
  match g with
  | NBind obj f => sound obj /\ sound_func f
  | NIterArr _ st | NIterStr _ st | NIterDict st | NRangeInt st _ _ | NRangeFloat st _ _ | NJoin st => sc_iter st
  | _ => True
  end.

Definition sound_entry (e : value * value) : Prop := sound (fst e) /\ sound (snd e).
Definition sound_iter (i : iter_state) : Prop :=
  match i with ISEntries l => Forall sound_entry l | _ => True end.
Definition sound_heap (h : heap) : Prop :=
  Forall sound (h_cells h) /\ Forall (Forall sound) (h_arrs h) /\
  Forall (Forall sound_entry) (h_dicts h) /\ Forall sound_iter (h_iters h).
Definition sound_slot (x : vslot) : Prop := match x with Regular c v => sc_cell c /\ sound v | Closed c => sc_cell c end.
Definition sound_state {W} (s : state W) : Prop :=
  Forall sound_slot (st_stack s) /\ Forall sound (st_args s) /\ sound_heap (st_heap s) /\
  Forall (fun m => sound (snd m)) (st_modules s).
End Sound.

(** The variable of a slot *)
Definition slot_id (x : vslot) : loc := match x with Regular id _ => id | Closed c => c end.

(** The handles of asynchronous blocks that were joined *)
Definition joined (h : heap) (i : loc) : Prop := nth_error (h_iters h) i = Some (ISJoin None).

(** The state in which an operation gives back control, with a value or a panic. *)
Inductive finishes {W A} : outcome (state W) A -> state W -> Prop :=
| fin_value a s : finishes (Val a s) s
| fin_panic p s : finishes (Pan p s) s.

#[local] Existing Instance anything.
(** [s'] comes after [s] by evaluating statements and calling functions, of analysed programs. *)
Inductive later {W} (X : ext W) (O : os W) : state W -> state W -> Prop :=
| lt_now s : later X O s s
| lt_statement n u st fn lp k s s1 s2 :
    valid_statement fn lp k st -> k <= length (st_stack s) ->
    finishes (ev_statement (run X O true false n) u st s) s1 -> later X O s1 s2 -> later X O s s2
| lt_call n obj f start p s s1 s2 :
    sound obj -> sound_func f -> start <= length (st_args s) ->
    finishes (ev_call (run X O true false n) obj f start p s) s1 -> later X O s1 s2 -> later X O s s2.
