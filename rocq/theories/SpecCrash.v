(** What can make the interpreter itself fail, as opposed to a panic of the program. *)
From Coq Require Import Strings.String.
From Verif Require Import Base Ast Program Value StdLib Exec.

(** [x] is [v] or a part of it: an element of an array, a key or a value of a dict, the context of
    an error, at any depth. *)
Inductive inside (h : heap) (x : value) : value -> Prop :=
| in_itself : inside h x x
| in_array l v : In v (arr_get h l) -> inside h x v -> inside h x (VArr l)
| in_key l k v : In (k, v) (dict_entries h l) -> inside h x k -> inside h x (VDict l)
| in_value l k v : In (k, v) (dict_entries h l) -> inside h x v -> inside h x (VDict l)
| in_context d c : inside h x c -> inside h x (VErr d c).

(** The failures there are. *)
Definition failures_of_a_program : list crash := [CBorrow; CRand; CEnv; CLexer; CAlias].

(** The calls of library functions that fail: a random number from an empty interval, a variable of
    the environment without a name, and sorting an array that is a part of itself. *)
Inductive fails (h : heap) : std_fun -> list value -> crash -> Prop :=
| f_interval a b : (b < a)%Z -> fails h SRandInt [VInt a; VInt b] CRand
| f_no_name v : ~ In x00 v -> fails h SExport [VStr []; VStr v] CEnv
| f_sort l v : In v (arr_get h l) -> inside h (VArr l) v -> fails h SSort [VArr l] CBorrow.

(** A block with the built-in [alias]. *)
Definition has_alias (b : eblock) : Prop :=
  exists args abort p, In (EBuiltin BAlias args abort p) (ek_head b :: ek_tail b).
