(** What the functions of the standard library take, and what they may change. *)
From Coq Require Import Strings.String.
From Verif Require Import Base Lexer Ast Program Value StdLib.

(** The functions that do not call the interpreter *)
Definition direct (f : std_fun) : Prop := f <> SCatch /\ f <> SImport.

(** ** Arguments *)
Record kind := mkkind { k_fits : value -> bool; k_name : bytes }.
Definition any_value : kind := mkkind (fun _ => true) [].
Definition a_bool : kind := mkkind (fun v => match v with VBool _ => true | _ => false end) (bs "bool").
Definition a_char : kind := mkkind (fun v => match v with VByte _ => true | _ => false end) (bs "char").
Definition an_int : kind := mkkind (fun v => match v with VInt _ => true | _ => false end) (bs "int").
Definition a_string : kind := mkkind (fun v => match v with VStr _ => true | _ => false end) (bs "string").
Definition an_array : kind := mkkind (fun v => match v with VArr _ => true | _ => false end) (bs "array").
Definition a_function : kind := mkkind (fun v => match v with VFun _ => true | _ => false end) (bs "function").
Definition a_number : kind :=
  mkkind (fun v => match v with VInt _ | VFloat _ => true | _ => false end) (bs "int or float").
Definition readable : kind :=
  mkkind (fun v => match v with VInt _ | VFloat _ | VStr _ => true | _ => false end) (bs "int, float or string").
Definition sized (name : bytes) : kind :=
  mkkind (fun v => match v with VStr _ | VArr _ | VDict _ => true | _ => false end) name.

(** The kinds of the arguments.  [std.contains] looks for bytes in strings; [std.read] can be called
    without argument; [std.print] and [std.println] take any number. *)
Definition takes (f : std_fun) (args : list value) : list kind :=
  match f with
  | SArgs | SCwd | SRand => []
  | SAssert => [a_bool]
  | SBase64Encode | SBase64Decode | SBytes | SCd | SEnv | SGlob | SHexEncode | SHexDecode | SJsonDecode
  | SRegex | STrim | SImport => [a_string]
  | SBind => [any_value; a_function]
  | SContains =>
      [sized (bs "string ,array or dict"); match args with VStr _ :: _ => a_char | _ => any_value end]
  | SExport | SSplit => [a_string; a_string]
  | SError => [a_string; any_value]
  | SExit | SRandSeed | SSleep => [an_int]
  | SFloat | SInt => [readable]
  | SHasError | SJsonEncode | SPanic | SToString | SType => [any_value]
  | SIsEmpty | SIter | SLen => [sized (bs "string, array or dict")]
  | SPop | SSort => [an_array]
  | SPush => [an_array; any_value]
  | SRandInt => [an_int; an_int]
  | SRange => [a_number; a_number; a_number]
  | SReplace => [a_string; a_string; a_string]
  | SSubstr => [a_string; an_int; an_int]
  | STypecheck | STryTypecheck => [any_value; a_string]
  | SCatch => [a_function]
  | SRead => match args with [] => [] | _ => [a_string] end
  | SPrint | SPrintln => map (fun _ => any_value) args
  end.

(** All arguments have the kinds they should have. *)
Definition fitting (f : std_fun) (args : list value) : Prop := Forall2 (fun k v => k_fits k v = true) (takes f args) args.

(** The first argument with a wrong kind, and the name of the right one *)
Inductive first_wrong : list kind -> list value -> value -> bytes -> Prop :=
| fw_here k ks v vs : k_fits k v = false -> first_wrong (k :: ks) (v :: vs) v (k_name k)
| fw_later k ks v vs v' t : k_fits k v = true -> first_wrong ks vs v' t -> first_wrong (k :: ks) (v :: vs) v' t.

(** The panic is about the number or the kinds of arguments. *)
Definition about_arguments (q : panic) : Prop := match q with PInvalidArgs _ _ _ | PTypeError _ _ _ => True | _ => False end.

(** ** Effects *)

(** The array that the call may change *)
Definition changes (f : std_fun) (args : list value) (l : loc) : Prop :=
  (f = SPush \/ f = SPop \/ f = SSort) /\ exists r, args = VArr l :: r.

(** Objects are added, and no other object than that array is changed. *)
Definition only_changes (f : std_fun) (args : list value) (h h' : heap) : Prop :=
  h_cells h' = h_cells h /\
  (exists dicts, h_dicts h' = h_dicts h ++ dicts) /\
  (exists iters, h_iters h' = h_iters h ++ iters) /\
  length (h_arrs h) <= length (h_arrs h') /\
  (forall l, l < length (h_arrs h) -> ~ changes f args l -> nth_error (h_arrs h') l = nth_error (h_arrs h) l).

(** The functions that reach for the world outside *)
Definition reaches_out (f : std_fun) : Prop :=
  In f [SCd; SExport; SPrint; SPrintln; SRand; SRandInt; SRandSeed; SRead; SSleep].

(** How the call leaves objects and world.  Internal errors end the process. *)
Definition left_as {W} (f : std_fun) (args : list value) (h : heap) (w : W) (r : res (W := W)) : Prop :=
  match r with
  | Val _ (h', w') => only_changes f args h h' /\ (~ reaches_out f -> w' = w)
  | Pan _ (h', w') => h' = h /\ (~ reaches_out f -> w' = w)
  | Exit _ s => f = SExit /\ s = (h, w)
  | Crash _ | Fuel => True
  end.

(** ** Numbers *)

(** The number [m * 2 ^ e] between the integers [t] and [t + 1] *)
Definition whole_part (m : positive) (e t : Z) : Prop :=
  (0 <= t /\ t * 2 ^ Z.max 0 (- e) <= Z.pos m * 2 ^ Z.max 0 e < (t + 1) * 2 ^ Z.max 0 (- e))%Z.
(** The integer nearest to [z] in the range of 64 bits *)
Definition clamped (z : Z) : Z := if (z <? i64_min)%Z then i64_min else if (i64_max <? z)%Z then i64_max else z.
(** The integer of a float: without its fraction *)
Inductive truncated : spec_float -> Z -> Prop :=
| tr_nan : truncated S754_nan 0
| tr_zero s : truncated (S754_zero s) 0
| tr_above : truncated (S754_infinity false) i64_max
| tr_below : truncated (S754_infinity true) i64_min
| tr_positive m e t : whole_part m e t -> truncated (S754_finite false m e) (clamped t)
| tr_negative m e t : whole_part m e t -> truncated (S754_finite true m e) (clamped (- t)).

(** The float is the integer. *)
Inductive same_number (z : Z) : spec_float -> Prop :=
| sn_zero s : z = 0%Z -> same_number z (S754_zero s)
| sn_finite (s : bool) m e :
    (Z.pos m * 2 ^ Z.max 0 e = Z.abs z * 2 ^ Z.max 0 (- e))%Z -> (if s then z < 0 else 0 < z)%Z ->
    same_number z (S754_finite s m e).

(** ** Containers and environment *)

(** The operator [==] says that the values are equal, or that they are not. *)
Definition compared (h : heap) (a b : value) (r : bool) : Prop := exists n, eqv h n false a b = Known r.
(** What [std.contains] should say of the items of an array, which are compared one after the other *)
Definition among (h : heap) (items : list value) (v : value) (r : bool) : Prop :=
  if r then exists before x after, items = before ++ x :: after /\ (forall y, In y before -> compared h y v false) /\ compared h x v true
  else forall y, In y items -> compared h y v false.
(** The number of bytes, items or entries *)
Inductive counts (h : heap) : value -> nat -> Prop :=
| co_string s : counts h (VStr s) (length s)
| co_array l items : nth_error (h_arrs h) l = Some items -> counts h (VArr l) (length items)
| co_dict l entries : nth_error (h_dicts h) l = Some entries -> counts h (VDict l) (length entries).

(** An environment of the process: setting a variable changes its value and no other's. *)
Definition environment {W} (X : ext W) : Prop :=
  forall k v w, x_env X k (x_set_env X k v w) = Some v /\ forall k', k' <> k -> x_env X k' (x_set_env X k v w) = x_env X k' w.
(** Names and values that variables of the environment can have; see the findings for empty names *)
Definition exportable (k v : bytes) : Prop := k <> [] /\ ~ In x3d k /\ ~ In x00 k /\ ~ In x00 v.
