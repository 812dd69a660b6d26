(** Model of how values are hashed and of the hash tables behind the dicts, one level below
    [dict_get] and [dict_put] of [Value]. *)
From Coq Require Import Strings.String.
From Verif Require Import Base Lexer Ast Program Value.

(** What a value writes into the hasher (trait [Hash]): discriminants of enums, lengths of
    sequences, bytes, integers, the bits of floats, line, column and path of a function, the
    name of a native function.  Simplification: the items are kept apart, where the hasher sees
    the bytes of them one after the other. *)
Inductive mark :=
| MTag (n : nat)
| MLen (n : nat)
| MByte (b : byte)
| MInt (z : Z)
| MBits (f : spec_float)
| MNum (n : N)
| MName (s : bytes).

(** One entry of a table: its hash at the time when it was put at its place, key and value.
    value/dict.rs 31: [HashMap<Value, Value>]. *)
Record bucket := mkbucket { bk_hash : N; bk_key : value; bk_val : value }.
(** value/dict.rs 31 *)
Definition table := list bucket.

Section Hashing.
(** The numbers of interned paths (symbol/mod.rs 21-25) *)
Variable rank : bytes -> N.
Variable h : heap.

(** Not in the code: what the elements of a sequence write, one after the other *)
Definition feed_all {A} (f : A -> walk (list mark)) : list A -> walk (list mark) :=
  fix go l :=
    match l with
    | [] => Known []
    | x :: l' => wbind (f x) (fun a => wbind (go l') (fun b => Known (a ++ b)%list))
    end.

(** The entries of a dict as a [BTreeMap] has them: value/dict.rs 123-126 *)
Definition ordered_entries (n : nat) (k : lock) (l : loc) : walk (list (value * value)) :=
  wbind (sort_walk (fun e e' : value * value => vcmp rank h n k (fst e) (fst e')) (dict_entries h l))
        (dedup (fun e e' : value * value => eqv h n false (fst e) (fst e'))).

(** The [Hash] derived for [Value] (value/mod.rs 104), string.rs 15, array.rs 118-122, dict.rs
    122-130, float.rs 65-76 (one NaN for all), function.rs 22, 138-144 and 266-270, error.rs
    74-79, source.rs 13.  [k] is the collection mutably borrowed meanwhile. *)
Fixpoint feed (n : nat) (k : lock) (v : value) : walk (list mark) :=
  match n with
  | O => Deep
  | S n' =>
      let tag := MTag (type_rank (get_type v)) in
      match v with
      | VNil => Known [tag]
      | VBool b => Known [tag; MByte (if b then x01 else x00)]
      | VByte b => Known [tag; MByte b]
      | VInt z => Known [tag; MInt z]
      | VFloat f => Known [tag; MBits f]
      | VStr s => Known (tag :: MLen (length s) :: map MByte s)
      | VArr l =>
          if arr_locked k l then Busy
          else wbind (feed_all (feed n' k) (arr_get h l)) (fun ms =>
               Known (tag :: MLen (length (arr_get h l)) :: ms))
      | VDict l =>
          if dict_locked k l then Busy
          else wbind (ordered_entries n' k l) (fun es =>
               wbind (feed_all (fun e : value * value =>
                        wbind (feed n' k (fst e)) (fun a =>
                        wbind (feed n' k (snd e)) (fun b => Known (a ++ b)%list))) es) (fun ms =>
               Known (tag :: MLen (length es) :: ms)))
      | VFun (FHush _ _ _ _ _ p) =>
          Known [tag; MTag 0; MNum (line (sp_pos p)); MNum (column (sp_pos p)); MNum (rank (sp_path p))]
      | VFun (FRust f) => Known [tag; MTag 1; MName (native_name f)]
      | VErr d c =>
          wbind (feed n' k c) (fun ms => Known (tag :: MLen (length d) :: map MByte d ++ ms)%list)
      end
  end.

(** The hasher of the map: any function.  (The one of the library is seeded at random.) *)
Variable hasher : list mark -> N.
(** Which places of a table with these hashes are compared with a key of the given hash, in
    this order.  The library compares the entries of the groups it probes whose seven bits of
    hash are the same. *)
Variable seen : list N -> N -> list nat.

(** The search of the map: the first of the places at which there is an equal key *)
Fixpoint probe (n : nat) (key : value) (t : table) (places : list nat) : walk (option nat) :=
  match places with
  | [] => Known None
  | i :: r =>
      match nth_error t i with
      | None => probe n key t r
      | Some b => wbind (eqv h n false key (bk_key b)) (fun e => if e then Known (Some i) else probe n key t r)
      end
  end.

(** value/dict.rs 66-72 *)
Definition table_get (n : nat) (t : table) (key : value) : walk (option value) :=
  wbind (feed n LockNone key) (fun f =>
  wbind (probe n key t (seen (map bk_hash t) (hasher f))) (fun r =>
  Known (match r with
         | None => None
         | Some i => option_map bk_val (nth_error t i)
         end))).

(** The table is made larger: every key is hashed again, as it is now. *)
Fixpoint rehash (n : nat) (k : lock) (t : table) : walk table :=
  match t with
  | [] => Known []
  | b :: t' =>
      wbind (feed n k (bk_key b)) (fun f =>
      wbind (rehash n k t') (fun t'' => Known (mkbucket (hasher f) (bk_key b) (bk_val b) :: t'')))
  end.

(** Not in the code: another value at a place *)
Definition set_value (t : table) (i : nat) (v : value) : table :=
  match nth_error t i with
  | None => t
  | Some b => list_set t i (mkbucket (bk_hash b) (bk_key b) v)
  end.

(** value/dict.rs 60-62: [HashMap::insert] hashes the key, makes room if there is none
    ([grow]), and searches.  An equal key that is there stays and gets the value. *)
Definition table_insert (n : nat) (l : loc) (grow : bool) (t : table) (key v : value) : walk table :=
  wbind (feed n (LockDict l) key) (fun f =>
  wbind (if grow then rehash n (LockDict l) t else Known t) (fun t' =>
  wbind (probe n key t' (seen (map bk_hash t') (hasher f))) (fun r =>
  Known (match r with
         | Some i => set_value t' i v
         | None => t' ++ [mkbucket (hasher f) key v]
         end)%list))).
End Hashing.
