(** How the processes that a block starts should be taken care of, independent of the functions
    that run blocks. *)
From Verif Require Import Base Exec SpecExec.

(** The processes that were started, and those that were waited for *)
Definition spawned (l : list event) : list N := flat_map (fun e => match e with EvSpawn _ c => [c] | _ => [] end) l.
Definition awaited (l : list event) : list N := flat_map (fun e => match e with EvWait c _ => [c] | _ => [] end) l.
Definition times (c : N) (l : list N) : nat := count_occ N.eq_dec l c.

(** Every process is waited for as often as it is started (the system may use a number again
    once the process has been waited for). *)
Definition reaped (l : list event) : Prop := forall c, times c (spawned l) = times c (awaited l).
(** Nothing is waited for before it is started, or twice. *)
Definition timely (l : list event) : Prop := forall l1 l2 c, l = l1 ++ l2 -> times c (awaited l1) <= times c (spawned l1).

(** Where a run ended, unless the interpreter crashed *)
Definition final {W A} (r : @ran W A) : option (@xstate W) :=
  match r with Ran _ s | RIo _ _ s | RPanic _ s | RExit _ s => Some s | RCrash _ => None end.
Definition completed {W A} (r : @ran W A) : bool := match r with Ran _ _ => true | _ => false end.

(** The commands of a pipeline after the first *)
Definition followers (c : ecommand) : nat := match c with EBuiltin _ _ _ _ => 0 | EExternal _ tail => length tail end.
