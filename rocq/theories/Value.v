(** Model of run-time values: src/runtime/value/*.rs, source.rs, panic.rs.

    Garbage-collected objects live in a heap of numbered objects; [Gc] clones share the
    number.  Arrays, dicts, closed variables and the mutable state of iterators have separate
    numberings.  Objects are never freed (collection is not observable).  A look-up of a
    number that was never allocated gives an empty object; a [Gc] pointer cannot dangle, so
    this is never reached. *)
From Coq Require Import Strings.String.
From Coq Require Export Floats.SpecFloat.
From Verif Require Import Base Lexer Ast Program.

(** source.rs 15-19.  The path is a symbol in the code, its text here. *)
Record spos := mkspos { sp_path : bytes; sp_pos : pos }.

(** A [Gc] pointer (value/array.rs 15, dict.rs 31, mem.rs 42-47): the number of what it points
    to. *)
Definition loc := nat.

(** lib.rs 24-37: the functions of the standard library, one constructor per
    [inventory::submit!] in src/runtime/lib/*.rs. *)
Inductive std_fun :=
| SArgs | SAssert | SBase64Encode | SBase64Decode | SBind | SBytes | SCatch | SCd | SContains
| SCwd | SEnv | SExport | SError | SExit | SFloat | SGlob | SHasError | SHexEncode
| SHexDecode | SImport | SInt | SIsEmpty | SIter | SJsonEncode | SJsonDecode | SLen | SPanic
| SPop | SPrint | SPrintln | SPush | SRand | SRandInt | SRandSeed | SRange | SRead | SRegex
| SReplace | SSleep | SSort | SSplit | SSubstr | SToString | STrim | SType | STypecheck
| STryTypecheck.

(** lib/regex.rs 73-155 *)
Inductive regex_fun := RMatch | RSplit | RReplace.

(** value/mod.rs 106-118, function.rs 24-27 and 66-75, error.rs 15-18, and the native functions
    carrying data: lib/bind.rs 38-41, lib/iter.rs 62-74, lib/range.rs 56-60, lib/regex.rs,
    command/exec/join.rs.
    - Integers are [i64], kept in range by construction; floats are IEEE binary64.
    - The context of an error is never written after creation, so it is kept inside the value
      instead of in a cell.
    - [FHush unit …]: [unit] numbers the loaded source the function comes from; together with
      the position it identifies the body the code compares by address. *)
Inductive value :=
| VNil
| VBool (b : bool)
| VByte (b : byte)
| VInt (z : Z)
| VFloat (f : spec_float)
| VStr (s : bytes)
| VArr (l : loc)
| VDict (l : loc)
| VFun (f : func)
| VErr (description : bytes) (context : value)
with func :=
| FHush (unit : nat) (params : nat) (fi : frame_info) (body : list xstatement)
        (context : list (loc * slot)) (p : spos)
| FRust (n : native)
with native :=
| NStd (f : std_fun)
| NBind (obj : value) (f : func)
| NIterArr (array : loc) (state : loc)
| NIterStr (string : bytes) (state : loc)
| NIterDict (state : loc)
| NRangeInt (state : loc) (to step : Z)
| NRangeFloat (state : loc) (to step : spec_float)
| NRegex (f : regex_fun) (pattern : bytes)
| NJoin (state : loc).

(** The [GcCell] fields of the native functions above. lib/iter.rs 62-74, lib/range.rs 56-60 and
    command/exec/join.rs 9-16. *)
Inductive iter_state :=
| ISInt (z : Z)
| ISFloat (f : spec_float)
| ISEntries (l : list (value * value))
| ISJoin (handle : option N).

(** What the [Gc<GcCell<_>>] of value/array.rs 15, dict.rs 31, mem.rs 42-47 and of the native
    functions point to.  Nothing is collected here. *)
Record heap := mkheap {
  h_cells : list value;                     (* closed variables, mem.rs 42-47 *)
  h_arrs : list (list value);               (* array.rs 12-15 *)
  h_dicts : list (list (value * value));    (* dict.rs 28-31 *)
  h_iters : list iter_state }.

(** mem.rs 52-57: the value of a closed variable *)
Definition cell_get (h : heap) (l : loc) : value := nth l (h_cells h) VNil.
(** value/array.rs 32-34 ([borrow]) *)
Definition arr_get (h : heap) (l : loc) : list value := nth l (h_arrs h) [].
(** value/dict.rs 48-50 ([borrow]) *)
Definition dict_entries (h : heap) (l : loc) : list (value * value) := nth l (h_dicts h) [].
(** lib/iter.rs 79-139 and lib/range.rs 70-105: the [borrow] of the field of an iterator *)
Definition iter_get (h : heap) (l : loc) : iter_state := nth l (h_iters h) (ISInt 0).

(** Replacing an item, as through [borrow_mut] (value/array.rs 38-40) *)
Fixpoint list_set {A} (l : list A) (n : nat) (x : A) : list A :=
  match l, n with
  | [], _ => []
  | _ :: l', O => x :: l'
  | y :: l', S n' => y :: list_set l' n' x
  end.

(** mem.rs 61-66: storing in a closed variable *)
Definition cell_set (h : heap) (l : loc) (v : value) : heap :=
  mkheap (list_set (h_cells h) l v) (h_arrs h) (h_dicts h) (h_iters h).
(** value/array.rs 38-40 ([borrow_mut]) *)
Definition arr_set (h : heap) (l : loc) (a : list value) : heap :=
  mkheap (h_cells h) (list_set (h_arrs h) l a) (h_dicts h) (h_iters h).
(** value/dict.rs 54-56 ([borrow_mut]) *)
Definition dict_set (h : heap) (l : loc) (d : list (value * value)) : heap :=
  mkheap (h_cells h) (h_arrs h) (list_set (h_dicts h) l d) (h_iters h).
(** lib/iter.rs 79-139 and lib/range.rs 70-105: the [borrow_mut] of the field of an iterator *)
Definition iter_set (h : heap) (l : loc) (s : iter_state) : heap :=
  mkheap (h_cells h) (h_arrs h) (h_dicts h) (list_set (h_iters h) l s).

(** [Array::new], [Dict::new], [GcCell::new]. value/array.rs 20-22. *)
Definition new_arr (h : heap) (a : list value) : value * heap :=
  (VArr (length (h_arrs h)), mkheap (h_cells h) (h_arrs h ++ [a]) (h_dicts h) (h_iters h)).
(** value/dict.rs 36-38 *)
Definition new_dict (h : heap) (d : list (value * value)) : value * heap :=
  (VDict (length (h_dicts h)), mkheap (h_cells h) (h_arrs h) (h_dicts h ++ [d]) (h_iters h)).
(** lib/iter.rs 26-57 and lib/range.rs 25-51: the [GcCell::new] of an iterator *)
Definition new_iter (h : heap) (s : iter_state) : loc * heap :=
  (length (h_iters h), mkheap (h_cells h) (h_arrs h) (h_dicts h) (h_iters h ++ [s])).

(** value/mod.rs 35-46 *)
Inductive vtype :=
| TyNil | TyBool | TyByte | TyInt | TyFloat | TyString | TyArray | TyDict | TyFunction
| TyError.

(** value/mod.rs 51-68: [Type::parse] *)
Definition type_parse (s : bytes) : option vtype :=
  if bytes_eqb s (bs "nil") then Some TyNil
  else if bytes_eqb s (bs "bool") then Some TyBool
  else if bytes_eqb s (bs "int") then Some TyInt
  else if bytes_eqb s (bs "float") then Some TyFloat
  else if bytes_eqb s (bs "char") then Some TyByte
  else if bytes_eqb s (bs "string") then Some TyString
  else if bytes_eqb s (bs "array") then Some TyArray
  else if bytes_eqb s (bs "dict") then Some TyDict
  else if bytes_eqb s (bs "function") then Some TyFunction
  else if bytes_eqb s (bs "error") then Some TyError
  else None.

(** value/mod.rs 72-85: [Type::display] *)
Definition type_display (t : vtype) : bytes :=
  match t with
  | TyNil => bs "nil"
  | TyBool => bs "bool"
  | TyByte => bs "char"
  | TyInt => bs "int"
  | TyFloat => bs "float"
  | TyString => bs "string"
  | TyArray => bs "array"
  | TyDict => bs "dict"
  | TyFunction => bs "function"
  | TyError => bs "error"
  end.

(** value/mod.rs 140-153: [Value::get_type] *)
Definition get_type (v : value) : vtype :=
  match v with
  | VNil => TyNil
  | VBool _ => TyBool
  | VByte _ => TyByte
  | VInt _ => TyInt
  | VFloat _ => TyFloat
  | VStr _ => TyString
  | VArr _ => TyArray
  | VDict _ => TyDict
  | VFun _ => TyFunction
  | VErr _ _ => TyError
  end.

(** Position of the type in the declaration of [Value] (mod.rs 106-118): what the derived ordering
    compares for values of different types. *)
Definition type_rank (t : vtype) : nat :=
  match t with
  | TyNil => 0 | TyBool => 1 | TyByte => 2 | TyInt => 3 | TyFloat => 4 | TyString => 5
  | TyArray => 6 | TyDict => 7 | TyFunction => 8 | TyError => 9
  end.

(** panic.rs 14-96.  IO errors are kept as their text. *)
Inductive panic :=
| PStackOverflow (p : spos)
| PIntegerOverflow (p : spos)
| PDivisionByZero (p : spos)
| PIndexOutOfBounds (index : value) (p : spos)
| PEmptyCollection (p : spos)
| PInvalidCall (function : value) (p : spos)
| PInvalidArgs (supplied expected : nat) (p : spos)
| PInvalidCondition (v : value) (p : spos)
| PTypeError (v : value) (expected : bytes) (p : spos)
| PValueError (v : value) (message : bytes) (p : spos)
| PAssignToReadonlyField (field : value) (p : spos)
| PInvalidCommandArgs (object : bytes) (items : nat) (p : spos)
| PIo (error : bytes) (p : spos)
| PUnsupportedFd (fd : Z) (p : spos)
| PInvalidPattern (pattern : bytes) (p : spos)
| PAssertionFailed (p : spos)
| PImportFailed (path : bytes) (p : spos)
| PInvalidJoin (p : spos)
| PUser (context : value) (p : spos).

(** Names of the native functions (the [name] methods), by which they are compared,
    ordered and hashed (function.rs 235-270). *)
Definition std_name (f : std_fun) : bytes :=
  match f with
  | SArgs => bs "std.args"
  | SAssert => bs "std.assert"
  | SBase64Encode => bs "std.base64.encode"
  | SBase64Decode => bs "std.base64.decode"
  | SBind => bs "std.bind"
  | SBytes => bs "std.bytes"
  | SCatch => bs "std.catch"
  | SCd => bs "std.cd"
  | SContains => bs "std.contains"
  | SCwd => bs "std.cwd"
  | SEnv => bs "std.env"
  | SExport => bs "std.export"
  | SError => bs "std.error"
  | SExit => bs "std.exit"
  | SFloat => bs "std.float"
  | SGlob => bs "std.glob"
  | SHasError => bs "std.has_error"
  | SHexEncode => bs "std.hex.encode"
  | SHexDecode => bs "std.hex.decode"
  | SImport => bs "std.import"
  | SInt => bs "std.int"
  | SIsEmpty => bs "std.is_empty"
  | SIter => bs "std.iter"
  | SJsonEncode => bs "std.json.encode"
  | SJsonDecode => bs "std.json.decode"
  | SLen => bs "std.len"
  | SPanic => bs "std.panic"
  | SPop => bs "std.pop"
  | SPrint => bs "std.print"
  | SPrintln => bs "std.println"
  | SPush => bs "std.push"
  | SRand => bs "std.rand"
  | SRandInt => bs "std.randint"
  | SRandSeed => bs "std.randseed"
  | SRange => bs "std.range"
  | SRead => bs "std.read"
  | SRegex => bs "std.regex"
  | SReplace => bs "std.replace"
  | SSleep => bs "std.sleep"
  | SSort => bs "std.sort"
  | SSplit => bs "std.split"
  | SSubstr => bs "std.substr"
  | SToString => bs "std.to_string"
  | STrim => bs "std.trim"
  | SType => bs "std.type"
  | STypecheck => bs "std.typecheck"
  | STryTypecheck => bs "std.try_typecheck"
  end.

(** The [name] methods: lib/iter.rs 77, lib/range.rs 68, lib/bind.rs 44, lib/regex.rs 84, 107
    and 137, command/exec/join.rs 35 *)
Definition native_name (n : native) : bytes :=
  match n with
  | NStd f => std_name f
  | NBind _ _ => bs "std.bind<impl>"
  | NIterArr _ _ | NIterStr _ _ | NIterDict _ => bs "std.iter<impl>"
  | NRangeInt _ _ _ | NRangeFloat _ _ _ => bs "std.range<impl>"
  | NRegex RMatch _ => bs "std.regex<match>"
  | NRegex RSplit _ => bs "std.regex<split>"
  | NRegex RReplace _ => bs "std.regex<replace>"
  | NJoin _ => bs "<command>.join"
  end.

(** ** Floats (value/float.rs): binary64 with the operations of the standard library's
    specification of IEEE 754 *)

(** value/ops.rs 21-38: [f64 + f64] *)
Definition fadd := SFadd 53 1024.
(** value/ops.rs 21-38: [f64 - f64] *)
Definition fsub := SFsub 53 1024.
(** value/ops.rs 21-38: [f64 * f64] *)
Definition fmul := SFmul 53 1024.
(** value/ops.rs 21-38: [f64 / f64] *)
Definition fdiv := SFdiv 53 1024.
(** value/ops.rs 3-19: [- f64] *)
Definition fneg := SFopp.

(** Rust's [%] on [f64] (C's [fmod]): exact remainder with the sign of the dividend. *)
Definition frem (x y : spec_float) : spec_float :=
  match x, y with
  | S754_nan, _ | _, S754_nan | S754_infinity _, _ | _, S754_zero _ => S754_nan
  | S754_zero _, _ | _, S754_infinity _ => x
  | S754_finite sx mx ex, S754_finite _ my ey =>
      let e := Z.min ex ey in
      let a := (Z.pos mx * 2 ^ (ex - e))%Z in
      let b := (Z.pos my * 2 ^ (ey - e))%Z in
      let r := (a mod b)%Z in
      binary_normalize 53 1024 (if sx then - r else r)%Z e sx
  end.

(** [i64 as f64] *)
Definition float_of_int (z : Z) : spec_float := binary_normalize 53 1024 z 0 false.

(** [f64 as i64]: truncation, saturating, NaN to 0 (float.rs 100-104). *)
Definition int_of_float (f : spec_float) : Z :=
  match f with
  | S754_nan | S754_zero _ => 0
  | S754_infinity s => if s then i64_min else i64_max
  | S754_finite s m e =>
      let a := if (0 <=? e)%Z then (Z.pos m * 2 ^ e)%Z else (Z.pos m / 2 ^ (- e))%Z in
      let z := if s then (- a)%Z else a in
      Z.max i64_min (Z.min i64_max z)
  end.

(** float.rs 27-29 *)
Definition is_nan (f : spec_float) : bool :=
  match f with S754_nan => true | _ => false end.

(** float.rs 33-39 *)
Definition float_eqb (x y : spec_float) : bool := SFeqb x y.

(** float.rs 52-62 *)
Definition float_cmp (x y : spec_float) : comparison :=
  match SFcompare x y with
  | Some c => c
  | None => if is_nan x then Lt else Gt
  end.

(** Equal, and with the same bits, hence the same hash (float.rs 65-76): 0.0 and -0.0 are
    equal but hash differently. *)
Definition float_same (x y : spec_float) : bool :=
  match x, y with
  | S754_zero s, S754_zero s' => Bool.eqb s s'
  | _, _ => SFeqb x y
  end.

(** ** Orderings *)

(** Derived ordering of [[u8]]. *)
Fixpoint bytes_cmp (a b : bytes) : comparison :=
  match a, b with
  | [], [] => Eq
  | [], _ :: _ => Lt
  | _ :: _, [] => Gt
  | x :: a', y :: b' =>
      match (Byte.to_N x ?= Byte.to_N y)%N with Eq => bytes_cmp a' b' | c => c end
  end.

(** The ordering of [bool], used by the one derived for [Value] (mod.rs 105) *)
Definition bool_cmp (a b : bool) : comparison :=
  match a, b with
  | false, true => Lt
  | true, false => Gt
  | _, _ => Eq
  end.

(** The outcome of an operation that walks the heap: an answer; [Busy] when it reaches the
    collection that is being modified, where the borrow check of [GcCell] stops the process;
    [Deep] when the walk is longer than the fuel, which for a cyclic structure is always. For
    the methods of value/array.rs, dict.rs and fmt.rs. *)
Inductive walk (A : Type) := Known (a : A) | Busy | Deep.
Arguments Known {A} a.
Arguments Busy {A}.
Arguments Deep {A}.

(** Not in the code: sequencing of the steps of such an operation *)
Definition wbind {A B} (x : walk A) (f : A -> walk B) : walk B :=
  match x with Known a => f a | Busy => Busy | Deep => Deep end.

(** The collection that is mutably borrowed during a walk, if any. [borrow_mut] of
    value/array.rs 38-40 and dict.rs 54-56. *)
Inductive lock := LockNone | LockArr (l : loc) | LockDict (l : loc).

(** The panic of [GcCell::borrow] (value/array.rs 32-34) *)
Definition arr_locked (k : lock) (l : loc) : bool :=
  match k with LockArr l' => Nat.eqb l l' | _ => false end.
(** The panic of [GcCell::borrow] (value/dict.rs 48-50) *)
Definition dict_locked (k : lock) (l : loc) : bool :=
  match k with LockDict l' => Nat.eqb l l' | _ => false end.

(** Lexicographic comparison of sequences. The ordering of [Vec], used by the one derived for
    [Array] (value/array.rs 13-15). *)
Definition lex {A} (cmp : A -> A -> walk comparison) : list A -> list A -> walk comparison :=
  fix go a b :=
    match a, b with
    | [], [] => Known Eq
    | [], _ :: _ => Known Lt
    | _ :: _, [] => Known Gt
    | x :: a', y :: b' =>
        wbind (cmp x y) (fun c => match c with Eq => go a' b' | _ => Known c end)
    end.

(** Insertion of an element into a sorted list, after the elements not greater than it. Part of
    the sort of value/array.rs 110-112. *)
Definition insert_sorted {A} (cmp : A -> A -> walk comparison) (x : A)
  : list A -> walk (list A) :=
  fix go l :=
    match l with
    | [] => Known [x]
    | y :: l' =>
        wbind (cmp x y) (fun c =>
        match c with
        | Lt => Known (x :: l)
        | _ => wbind (go l') (fun r => Known (y :: r))
        end)
    end.

(** Stable sort ([<[T]>::sort]).  The algorithm of the Rust library is not modelled: for a
    total order the stable result is unique, for anything else it is unspecified. value/array.rs
    110-112 and dict.rs 106-115. *)
Definition sort_walk {A} (cmp : A -> A -> walk comparison) (l : list A) : walk (list A) :=
  fold_left (fun acc x => wbind acc (insert_sorted cmp x)) l (Known []).

Section Walks.
(** Numbering of interned paths (symbol/mod.rs), by which functions of different sources are
    ordered (source.rs 49-54). *)
Variable rank : bytes -> N.
Variable h : heap.

(** source.rs 49-54 *)
Definition spos_cmp (a b : spos) : comparison :=
  match (rank (sp_path a) ?= rank (sp_path b))%N with
  | Eq =>
      match (line (sp_pos a) ?= line (sp_pos b))%N with
      | Eq => (column (sp_pos a) ?= column (sp_pos b))%N
      | c => c
      end
  | c => c
  end.

(** function.rs 24-27 (derived: Hush functions before native ones), 122-135 and 252-263 *)
Definition func_cmp (f g : func) : comparison :=
  match f, g with
  | FHush _ _ _ _ _ p, FHush _ _ _ _ _ q => spos_cmp p q
  | FHush _ _ _ _ _ _, FRust _ => Lt
  | FRust _, FHush _ _ _ _ _ _ => Gt
  | FRust a, FRust b => bytes_cmp (native_name a) (native_name b)
  end.

(** Conjunction over two lists of the same length, from left to right. The equality of [Vec],
    used by the one derived for [Array] (value/array.rs 13-15). *)
Definition all2 {A} (eq : A -> A -> walk bool) : list A -> list A -> walk bool :=
  fix go a b :=
    match a, b with
    | [], [] => Known true
    | x :: a', y :: b' =>
        wbind (eq x y) (fun r => if r then go a' b' else Known false)
    | _, _ => Known false
    end.

(** First entry whose key matches. [HashMap::get], see [dict_get]. *)
Definition find_entry (eq : value -> value -> walk bool) (key : value)
  : list (value * value) -> walk (option value) :=
  fix go d :=
    match d with
    | [] => Known None
    | (x, v) :: d' => wbind (eq key x) (fun r => if r then Known (Some v) else go d')
    end.

(** The equality derived for positions: syntax/source.rs 52-56 *)
Definition pos_eqb (p q : pos) : bool :=
  (line p =? line q)%N && (column p =? column q)%N.

(** The equality derived for [Value] (mod.rs 95), array.rs 13, dict.rs 29, float.rs 33-39,
    function.rs 109-116 and 242-246, error.rs 66-71.
    [bits = false] is [==].  [bits = true] is "equal and with the same hash", which is what a
    look-up in a [HashMap] needs: it only differs on 0.0 and -0.0.
    Two Hush functions have the same body when they come from the same position of the same
    loaded source; their captured variables are compared by value.  Sequences have to have the
    same length before any element is looked at.  Two dicts are equal when they have the same
    number of entries and every key of the first finds an equal value in the second. *)
Fixpoint eqv (n : nat) (bits : bool) (a b : value) : walk bool :=
  match n with
  | O => Deep
  | S n' =>
      match a, b with
      | VNil, VNil => Known true
      | VBool x, VBool y => Known (Bool.eqb x y)
      | VByte x, VByte y => Known (byte_eqb x y)
      | VInt x, VInt y => Known (x =? y)%Z
      | VFloat x, VFloat y => Known (if bits then float_same x y else float_eqb x y)
      | VStr x, VStr y => Known (bytes_eqb x y)
      | VArr x, VArr y =>
          if Nat.eqb (length (arr_get h x)) (length (arr_get h y))
          then all2 (eqv n' bits) (arr_get h x) (arr_get h y)
          else Known false
      | VDict x, VDict y =>
          if Nat.eqb (length (dict_entries h x)) (length (dict_entries h y))
          then
            (fix go d :=
               match d with
               | [] => Known true
               | (key, v) :: d' =>
                   wbind (find_entry (eqv n' true) key (dict_entries h y)) (fun r =>
                   match r with
                   | None => Known false
                   | Some w => wbind (eqv n' bits v w) (fun e => if e then go d' else Known false)
                   end)
               end) (dict_entries h x)
          else Known false
      | VFun (FHush u _ _ _ c p), VFun (FHush u' _ _ _ c' p') =>
          if Nat.eqb u u' && pos_eqb (sp_pos p) (sp_pos p') && Nat.eqb (length c) (length c')
          then all2 (fun (x y : loc * slot) =>
                       wbind (eqv n' bits (cell_get h (fst x)) (cell_get h (fst y))) (fun e =>
                       Known (e && Nat.eqb (snd x) (snd y)))) c c'
          else Known false
      | VFun (FRust x), VFun (FRust y) => Known (bytes_eqb (native_name x) (native_name y))
      | VErr d c, VErr d' c' =>
          if bytes_eqb d d' then eqv n' bits c c' else Known false
      | _, _ => Known false
      end
  end.

(** The ordering derived for [Value] (mod.rs 95), array.rs 13, dict.rs 92-107, error.rs 13.
    Dicts are compared as [BTreeMap]s, i.e. as sequences of entries sorted by key, without the
    entries whose key is equal to the next one (0.0 and -0.0 can both be keys of the
    [HashMap]).  [k] is the collection mutably borrowed meanwhile. *)
Definition dedup {A} (eq : A -> A -> walk bool) : list A -> walk (list A) :=
  fix go l :=
    match l with
    | x :: ((y :: _) as l') =>
        wbind (eq x y) (fun r =>
        if r then go l' else wbind (go l') (fun t => Known (x :: t)))
    | _ => Known l
    end.
(** The ordering derived for [Value] (mod.rs 104-105), array.rs 13, dict.rs 97-116, error.rs
    15-18; see above *)
Fixpoint vcmp (n : nat) (k : lock) (a b : value) : walk comparison :=
  match n with
  | O => Deep
  | S n' =>
      match a, b with
      | VNil, VNil => Known Eq
      | VBool x, VBool y => Known (bool_cmp x y)
      | VByte x, VByte y => Known (Byte.to_N x ?= Byte.to_N y)%N
      | VInt x, VInt y => Known (x ?= y)%Z
      | VFloat x, VFloat y => Known (float_cmp x y)
      | VStr x, VStr y => Known (bytes_cmp x y)
      | VArr x, VArr y =>
          if arr_locked k x || arr_locked k y then Busy
          else lex (vcmp n' k) (arr_get h x) (arr_get h y)
      | VDict x, VDict y =>
          let by_key := fun (e e' : value * value) => vcmp n' k (fst e) (fst e') in
          let same_key := fun (e e' : value * value) => eqv n' false (fst e) (fst e') in
          let entries := fun l =>
            if dict_locked k l then Busy
            else wbind (sort_walk by_key (dict_entries h l)) (dedup same_key) in
          wbind (entries x) (fun ex =>
          wbind (entries y) (fun ey =>
          lex (fun (e e' : value * value) =>
                 wbind (vcmp n' k (fst e) (fst e')) (fun c =>
                 match c with Eq => vcmp n' k (snd e) (snd e') | _ => Known c end))
              ex ey))
      | VFun f, VFun g => Known (func_cmp f g)
      | VErr d c, VErr d' c' =>
          match bytes_cmp d d' with Eq => vcmp n' k c c' | r => Known r end
      | _, _ => Known (Nat.compare (type_rank (get_type a)) (type_rank (get_type b)))
      end
  end.

(** The walk made by hashing a value (mod.rs 95, array.rs 118-122, dict.rs 122-130,
    error.rs 74-79; functions hash their position or name).  The hash itself is not
    modelled, only whether computing it ends, and whether it meets the collection [k] that is
    mutably borrowed.  The comparisons that sort the entries of a dict visit a part of what is
    visited here. *)
Fixpoint hash_walk (n : nat) (k : lock) (v : value) : walk unit :=
  match n with
  | O => Deep
  | S n' =>
      match v with
      | VArr l =>
          if arr_locked k l then Busy
          else fold_left (fun acc x => wbind acc (fun _ => hash_walk n' k x))
                         (arr_get h l) (Known tt)
      | VDict l =>
          if dict_locked k l then Busy
          else fold_left (fun acc (e : value * value) =>
                            wbind acc (fun _ =>
                            wbind (hash_walk n' k (fst e)) (fun _ => hash_walk n' k (snd e))))
                         (dict_entries h l) (Known tt)
      | VErr _ c => hash_walk n' k c
      | _ => Known tt
      end
  end.

(** Replaces the value of the first entry whose key matches, keeping the old key; otherwise
    appends ([HashMap::insert]). [HashMap::insert], see [dict_put]. *)
Definition put_entry (eq : value -> value -> walk bool) (key v : value)
  : list (value * value) -> walk (list (value * value)) :=
  fix go d :=
    match d with
    | [] => Known [(key, v)]
    | (x, w) :: d' =>
        wbind (eq key x) (fun r =>
        if r then Known ((x, v) :: d') else wbind (go d') (fun d'' => Known ((x, w) :: d'')))
    end.

(** dict.rs 66-72 and 76-80: [HashMap::get] hashes the key, then compares it with the keys of
    equal hash.  Simplification: keys are compared in insertion order, and a key whose
    contents were changed after its insertion is found by its present contents. *)
Definition dict_get (n : nat) (l : loc) (key : value) : walk (option value) :=
  wbind (hash_walk n LockNone key) (fun _ =>
  find_entry (eqv n true) key (dict_entries h l)).

(** dict.rs 60-62: the dict is mutably borrowed while the key is hashed. *)
Definition dict_put (n : nat) (l : loc) (key v : value) : walk (list (value * value)) :=
  wbind (hash_walk n (LockDict l) key) (fun _ =>
  put_entry (eqv n true) key v (dict_entries h l)).
End Walks.
