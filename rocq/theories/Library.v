(** Model of the construction of the standard library: src/runtime/lib.rs. *)
From Coq Require Import Strings.String.
From Verif Require Import Base Lexer Ast Program Value Text StdLib.

(** Dicts whose keys are strings ([HashMap::get] and [HashMap::insert]). Used in lib.rs 40-53. *)
Fixpoint str_get (key : bytes) (d : list (value * value)) : option value :=
  match d with
  | [] => None
  | (VStr k, v) :: d' => if bytes_eqb key k then Some v else str_get key d'
  | _ :: d' => str_get key d'
  end.
(** [HashMap::insert], lib.rs 40-53 *)
Fixpoint str_put (key : bytes) (v : value) (d : list (value * value)) : list (value * value) :=
  match d with
  | [] => [(VStr key, v)]
  | (VStr k, w) :: d' => if bytes_eqb key k then (VStr k, v) :: d' else (VStr k, w) :: str_put key v d'
  | e :: d' => e :: str_put key v d'
  end.

(** lib.rs 40-53.  [key] is what was read of the path since the last dot.  [None] stands for the
    panic of line 52. *)
Fixpoint lib_insert (key path : bytes) (v : value) (l : loc) (h : heap) : option heap :=
  match path with
  | [] => Some (dict_set h l (str_put key v (dict_entries h l)))
  | c :: rest =>
      if Byte.eqb c x2e then
        match str_get key (dict_entries h l) with
        | Some (VDict l') => lib_insert [] rest v l' h
        | Some _ => None
        | None =>
            let l' := length (h_dicts h) in
            let h := snd (new_dict h []) in
            lib_insert [] rest v l' (dict_set h l (str_put key (VDict l') (dict_entries h l)))
        end
      else lib_insert (key ++ [c]) rest v l h
  end.

(** lib.rs 24-37, for the functions in the order in which [inventory] gives them; [None] stands
    for the panics. *)
Definition lib_add (f : std_fun) (h : heap) : option heap :=
  if prefix_of (bs "std.") (std_name f)
  then lib_insert [] (skipn 4 (std_name f)) (VFun (FRust (NStd f))) 0 h
  else None.
(** lib.rs 24-37: the loop *)
Fixpoint lib_new (order : list std_fun) (h : heap) : option heap :=
  match order with
  | [] => Some h
  | f :: order' => match lib_add f h with Some h => lib_new order' h | None => None end
  end.
(** lib.rs 25: [Dict::default()] *)
Definition empty_library : heap := mkheap [] [] [[]] [].
