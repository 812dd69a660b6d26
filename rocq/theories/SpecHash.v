(** What hashing and hash tables should do. *)
From Coq Require Import Strings.String.
From Verif Require Import Base Lexer Ast Program Value SpecOrder SpecRuntime HashTable.

(** The float -0.0, which is equal to 0.0 but has other bits, is nowhere in the tree. *)
Fixpoint no_minus_zero (t : tree) : Prop :=
  match t with
  | TFloat f => f <> S754_zero true
  | TArr l => fold_right (fun t P => no_minus_zero t /\ P) True l
  | TDict l => fold_right (fun (e : tree * tree) P => (no_minus_zero (fst e) /\ no_minus_zero (snd e)) /\ P) True l
  | TErr _ c => no_minus_zero c
  | _ => True
  end.

(** What the value gives to the hasher, with enough steps *)
Definition hashed_as (rank : bytes -> N) (h : heap) (v : value) (f : list mark) : Prop :=
  exists n, forall m, n <= m -> feed rank h m LockNone v = Known f.

(** [a == b], with enough steps *)
Definition equals (h : heap) (a b : value) : Prop := exists n, forall m, n <= m -> eqv h m false a b = Known true.

(** Every entry with the hash searched for is compared. *)
Definition thorough (seen : list N -> N -> list nat) : Prop :=
  forall hashes x i, nth_error hashes i = Some x -> In i (seen hashes x).

(** The table of the dict [l] holds the map [m]: every entry is at the place where its key, as
    it is now, belongs. *)
Definition in_place (rank : bytes -> N) (hasher : list mark -> N) (h : heap) (l : loc) (t : table) (m : list (tree * value)) : Prop :=
  NoDup (map fst m) /\
  Forall2 (fun (b : bucket) (e : tree * value) =>
             bk_val b = snd e /\ no_minus_zero (fst e) /\ (exists n, reads (LockDict l) h n (bk_key b) (fst e)) /\
             exists f, hashed_as rank h (bk_key b) f /\ bk_hash b = hasher f)
          t m.

(** Insertions one after the other; each comes with whether the table has to grow for it. *)
Fixpoint inserts (rank : bytes -> N) (hasher : list mark -> N) (seen : list N -> N -> list nat) (h : heap) (l : loc) (n : nat)
  (ops : list (bool * (value * value))) (t : table) : walk table :=
  match ops with
  | [] => Known t
  | (grow, (k, v)) :: r =>
      wbind (table_insert rank h hasher seen n l grow t k v) (fun t' => inserts rank hasher seen h l n r t')
  end.

(** The keys and values of a table, as the interpreter above it sees them *)
Definition contents (t : table) : list (value * value) := map (fun b => (bk_key b, bk_val b)) t.
