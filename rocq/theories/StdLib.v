(** Model of the standard library: src/runtime/lib/*.rs, except [std.catch] and [std.import],
    which call the interpreter and are in Runtime.v. *)
From Coq Require Import Strings.String.
From Verif Require Import Base Lexer Ast Program Value Text Json.

(** How an operation of the interpreter may end: with a value, with a Hush panic, by ending
    the process ([std.exit], the [exec] built-ins), by a panic of the Rust code, or not
    within the fuel. runtime/mod.rs 106 and 629 ([panic!]), value/array.rs 32-40 and dict.rs
    48-56 (a failing borrow). *)
Inductive crash :=
| CSlot        (* index out of range in the variable stack, mem.rs *)
| CFlow        (* [panic!] on a control flow that cannot happen, mod.rs 105 and 598 *)
| CBorrow      (* a collection is borrowed while being modified, array.rs 54-55, dict.rs 54-56 *)
| CRand        (* [gen_range] with an empty range, lib/rand.rs 55 *)
| CEnv         (* [set_var] with an empty name, lib/env.rs 57 *)
| CLexer       (* [todo!()] of the lexer in an imported file *)
| CSema        (* a panic of the semantic analyser in an imported file *)
| CAlias.      (* [todo!()] of the alias built-in, command/exec/mod.rs 171 *)

Inductive outcome (S A : Type) :=
| Val (a : A) (s : S)
| Pan (p : panic) (s : S)
| Exit (code : Z) (s : S)
| Crash (c : crash)
| Fuel.
Arguments Val {S A}.
Arguments Pan {S A}.
Arguments Exit {S A}.
Arguments Crash {S A}.
Arguments Fuel {S A}.

(** Everything that is not computed by the interpreter itself.  [W] is the state of the outside
    world: file system, environment, processes, terminal, random generator. The calls made in
    src/runtime/lib/*.rs and value/fmt.rs 38-42 and 99-103. *)
Record ext (W : Type) := mkext {
  (* the limit of the variable stack, mem.rs 186-194; [None], no limit, is only there for stating
     properties *)
  x_stack_size : option nat;
  (* text of floats: [str::parse::<f64>] and [{:#?}] *)
  x_parse_float : bytes -> option spec_float;
  x_float_text : spec_float -> bytes;
  (* [String::from_utf8_lossy(…).escape_debug()], value/fmt.rs 101 *)
  x_escape : bytes -> bytes;
  (* numbering of interned paths *)
  x_rank : bytes -> N;
  (* the order in which a [HashMap] is iterated *)
  x_order : list (value * value) -> list (value * value);
  (* [Debug for OsString] *)
  x_debug : bytes -> bytes;
  (* whether messages are coloured, term/color.rs 9-12 *)
  x_tty : bool;
  (* error messages of the hex and base64 crates *)
  x_hex_error : bytes -> bytes;
  x_base64_error : bytes -> bytes;
  (* working directory and environment; [inl] is the text of an [io::Error] *)
  x_cd : bytes -> W -> option bytes * W;
  x_cwd : W -> bytes + bytes;
  x_env : bytes -> W -> option bytes;
  x_set_env : bytes -> bytes -> W -> W;
  (* terminal *)
  x_write : bytes -> W -> option bytes * W;
  x_read : W -> (bytes + bytes) * W;
  x_sleep : Z -> W -> W;
  (* random generator *)
  x_rand : W -> spec_float * W;
  x_rand_int : Z -> Z -> W -> Z * W;
  x_seed : Z -> W -> W;
  (* [std.glob]: the paths, or description and context of the error *)
  x_std_glob : bytes -> W -> list bytes + (bytes * value);
  (* serde_json: text of a tree, tree of a text, message when there is none *)
  x_json_text : json -> bytes;
  x_json_parse : bytes -> option json;
  x_json_error : bytes -> bytes;
  (* regex *)
  x_regex_check : bytes -> option bytes;
  x_regex_match : bytes -> bytes -> bool;
  x_regex_split : bytes -> bytes -> list bytes;
  x_regex_replace : bytes -> bytes -> bytes -> bytes;
  (* std.import: canonical path of a file named in another, and contents of a file *)
  x_resolve : bytes -> bytes -> W -> bytes + bytes;
  x_file : bytes -> W -> bytes + bytes;
  (* waiting for an asynchronous block, command/exec/join.rs: [inr] is a panic *)
  x_join : N -> heap -> W -> (value * heap + panic) * W }.

Arguments x_stack_size {W}. Arguments x_parse_float {W}. Arguments x_float_text {W}.
Arguments x_escape {W}. Arguments x_rank {W}. Arguments x_order {W}. Arguments x_debug {W}. Arguments x_tty {W}.
Arguments x_hex_error {W}. Arguments x_base64_error {W}.
Arguments x_cd {W}. Arguments x_cwd {W}. Arguments x_env {W}. Arguments x_set_env {W}.
Arguments x_write {W}. Arguments x_read {W}. Arguments x_sleep {W}. Arguments x_rand {W}.
Arguments x_rand_int {W}. Arguments x_seed {W}. Arguments x_std_glob {W}.
Arguments x_json_text {W}. Arguments x_json_parse {W}. Arguments x_json_error {W}.
Arguments x_regex_check {W}.
Arguments x_regex_match {W}. Arguments x_regex_split {W}. Arguments x_regex_replace {W}.
Arguments x_resolve {W}. Arguments x_file {W}. Arguments x_join {W}.

Section StdLib.
Context {W : Type}.
Variable X : ext W.

(** ** Formatting: value/fmt.rs *)

(** [*byte as char] written as UTF-8 *)
Definition char_text (b : byte) : bytes :=
  let n := Byte.to_N b in
  if (n <? 128)%N then [b] else [byte_of (192 + n / 64); byte_of (128 + n mod 64)]%N.

(** term/color.rs 15-66 and [termion::color] *)
Definition paint (color : bytes) (text : bytes) : bytes :=
  if x_tty X then x1b :: bs "[38;5;" ++ color ++ bs "m" ++ text ++ x1b :: bs "[39m" else text.
(** term/color.rs 15-66, as used in value/fmt.rs *)
Definition red : bytes -> bytes := paint (bs "1").
(** term/color.rs 15-66, as used in symbol/fmt.rs 14-28 *)
Definition green : bytes -> bytes := paint (bs "2").
(** term/color.rs 15-66, as used in src/main.rs 109-123 *)
Definition yellow : bytes -> bytes := paint (bs "3").

(** symbol/fmt.rs 14-28 for a symbol that is known *)
Definition symbol_text (s : bytes) : bytes := green (x_escape X s).

(** source.rs 75-87 *)
Definition spos_text (p : spos) : bytes :=
  symbol_text (sp_path p) ++ bs " (line " ++ digits_of (line (sp_pos p)) ++ bs ", column "
    ++ digits_of (column (sp_pos p)) ++ bs ")".

(** value/fmt.rs 99-103 *)
Definition str_text (s : bytes) : bytes := x22 :: x_escape X s ++ [x22].

(** [ first] and [, next] for the items of a list. value/fmt.rs 45-64 and 67-96. *)
Definition items_text {A} (item : A -> walk bytes) (l : list A) : walk bytes :=
  (fix go first l :=
     match l with
     | [] => Known []
     | x :: l' =>
         wbind (item x) (fun t =>
         wbind (go false l') (fun r =>
         Known ((if first : bool then bs " " else bs ", ") ++ t ++ r)))
     end) true l.

(** fmt.rs 120-137 *)
Fixpoint show (n : nat) (h : heap) (v : value) : walk bytes :=
  match n with
  | O => Deep
  | S n' =>
      match v with
      | VNil => Known (bs "nil")
      | VBool b => Known (if b then bs "true" else bs "false")
      | VInt z => Known (int_text z)
      | VFloat f => Known (x_float_text X f)
      | VByte b => Known (char_text b)
      | VStr s => Known (str_text s)
      | VArr l =>
          wbind (items_text (show n' h) (arr_get h l)) (fun t =>
          Known (bs "[" ++ t ++ bs " ]"))
      | VDict l =>
          wbind (items_text (fun e : value * value =>
                   wbind (show n' h (fst e)) (fun k =>
                   wbind (show n' h (snd e)) (fun t => Known (k ++ bs ": " ++ t))))
                 (x_order X (dict_entries h l))) (fun t =>
          Known (bs "@[" ++ t ++ bs " ]"))
      | VFun (FHush _ _ _ _ _ p) => Known (bs "function<" ++ spos_text p ++ bs ">")
      | VFun (FRust f) => Known (native_name f)
      | VErr d c =>
          wbind (show n' h c) (fun t =>
          Known (bs "error: " ++ str_text d ++ bs " (" ++ t ++ bs ")"))
      end
  end.

(** panic.rs 225-356 *)
Definition panic_text (n : nat) (h : heap) (p : panic) : walk bytes :=
  let say q t := Known (red (bs "Panic") ++ bs " in " ++ spos_text q ++ bs ": " ++ t) in
  let about q before v after :=
    wbind (show n h v) (fun t => say q (before ++ bs "(" ++ yellow t ++ bs ")" ++ after)) in
  match p with
  | PStackOverflow q => say q (bs "stack overflow")
  | PIntegerOverflow q => say q (bs "integer overflow")
  | PDivisionByZero q => say q (bs "division by zero")
  | PIndexOutOfBounds v q => about q (bs "index ") v (bs " out of bounds")
  | PEmptyCollection q => say q (bs "collection is empty")
  | PInvalidCall v q => about q (bs "attempt to call ") v (bs ", which is not a function")
  | PInvalidArgs supplied expected q =>
      say q (bs "incorrect amount of function parameters -- supplied "
               ++ int_text (Z.of_nat supplied) ++ bs ", expected " ++ int_text (Z.of_nat expected))
  | PInvalidCondition v q => about q (bs "condition ") v (bs " is not a boolean")
  | PTypeError v t q => about q (bs "value ") v (bs " has unexpected type, expected " ++ t)
  | PValueError v t q => about q (bs "invalid value ") v (bs ", expected " ++ t)
  | PInvalidCommandArgs object items q =>
      say q (object ++ bs " expansion resulted in " ++ int_text (Z.of_nat items) ++ bs " items")
  | PIo e q => say q e
  | PUnsupportedFd fd q =>
      say q (bs "unsupported file descriptor (" ++ yellow (int_text fd) ++ bs ")")
  | PInvalidPattern s q =>
      say q (bs "pattern (" ++ yellow (x_debug X s) ++ bs ") has invalid UTF-8")
  | PAssignToReadonlyField v q => about q (bs "attempt to assign field ") v (bs ", which is readonly")
  | PAssertionFailed q => say q (bs "assertion failed")
  | PImportFailed path q =>
      say q (bs "failed to import module (" ++ yellow (symbol_text path) ++ bs ")")
  | PInvalidJoin q => say q (bs "attempt to call join more than once")
  | PUser v q => about q (bs "std.panic") v []
  end.

(** ** The functions *)

(** [Result<Value, Panic>] (value/function.rs 199), with the heap and the world afterwards *)
Definition res := outcome (heap * W) value.

(** A walk that does not give an answer. Not in the code: see [walk]. *)
Definition walked {A} (r : walk A) (k : A -> res) : res :=
  match r with Known a => k a | Busy => Crash CBorrow | Deep => Fuel end.

(** value/error.rs 82-86 *)
Definition io_error (e : bytes) : value := VErr e VNil.

(** lib/has_error.rs 17-45.  The entries of a dict are visited in an unspecified order. *)
Definition any {A} (f : A -> walk bool) : list A -> walk bool :=
  fix go l :=
    match l with
    | [] => Known false
    | x :: l' => wbind (f x) (fun r => if r then Known true else go l')
    end.
(** lib/has_error.rs 17-45 *)
Fixpoint has_error (n : nat) (h : heap) (v : value) : walk bool :=
  match n with
  | O => Deep
  | S n' =>
      match v with
      | VErr _ _ => Known true
      | VArr l => any (has_error n' h) (arr_get h l)
      | VDict l =>
          any (fun e : value * value =>
                 wbind (has_error n' h (fst e)) (fun r =>
                 if r then Known true else has_error n' h (snd e)))
              (x_order X (dict_entries h l))
      | _ => Known false
      end
  end.

(** array.rs 73-77: [<[Value]>::contains] *)
Definition arr_contains (n : nat) (h : heap) (l : list value) (v : value) : walk bool :=
  any (fun x => eqv h n false x v) l.

(** lib/iter.rs 128-138 and lib/range.rs 94-104 *)
Definition iteration (next : option value) (h : heap) (w : W) : res :=
  let '(d, h') :=
    new_dict h ((VStr (bs "finished"), VBool (match next with None => true | _ => false end))
                :: match next with Some v => [(VStr (bs "value"), v)] | None => [] end) in
  Val d (h', w).

(** array.rs 59-69, string.rs 34-44 *)
Definition nth_z {A} (l : list A) (z : Z) : option A :=
  if (z <? 0)%Z then None else nth_error l (Z.to_nat z).

(** lib/iter.rs 87-126 *)
Definition iter_call (n : native) (h : heap) (w : W) : res :=
  match n with
  | NIterArr a st =>
      match iter_get h st with
      | ISInt ix =>
          match nth_z (arr_get h a) ix with
          | Some v => iteration (Some v) (iter_set h st (ISInt (ix + 1))) w
          | None => iteration None h w
          end
      | _ => iteration None h w
      end
  | NIterStr s st =>
      match iter_get h st with
      | ISInt ix =>
          match nth_z s ix with
          | Some b => iteration (Some (VByte b)) (iter_set h st (ISInt (ix + 1))) w
          | None => iteration None h w
          end
      | _ => iteration None h w
      end
  | NIterDict st =>
      match iter_get h st with
      | ISEntries es =>
          match rev es with
          | (k, v) :: r =>
              let h := iter_set h st (ISEntries (rev r)) in
              let '(d, h) := new_dict h [(VStr (bs "key"), k); (VStr (bs "value"), v)] in
              iteration (Some d) h w
          | [] => iteration None h w
          end
      | _ => iteration None h w
      end
  (* lib/range.rs 76-92: the addition wraps in a release build *)
  | NRangeInt st to step =>
      match iter_get h st with
      | ISInt from =>
          if (if 0 <? step then to <=? from else from <=? to)%Z then iteration None h w
          else iteration (Some (VInt from)) (iter_set h st (ISInt (wrap64 (from + step)))) w
      | _ => iteration None h w
      end
  | NRangeFloat st to step =>
      match iter_get h st with
      | ISFloat from =>
          let gt a b := match float_cmp a b with Gt => true | _ => false end in
          let lt a b := match float_cmp a b with Lt => true | _ => false end in
          if (if gt step (S754_zero false) then negb (lt from to) else negb (gt from to))
          then iteration None h w
          else iteration (Some (VFloat from)) (iter_set h st (ISFloat (fadd from step))) w
      | _ => iteration None h w
      end
  | _ => iteration None h w
  end.

(** lib/range.rs 25-51 and lib/util.rs [Numbers::promote]: three integers, or three floats when
    at least one is a float; otherwise the first value that is no number. *)
Definition range (a b c : value) (p : spos) (h : heap) (w : W) : res :=
  let num v := match v with VInt _ | VFloat _ => true | _ => false end in
  let flt v := match v with VInt z => float_of_int z | VFloat f => f | _ => S754_nan end in
  let bad v := Pan (PTypeError v (bs "int or float") p) (h, w) in
  if negb (num a) then bad a else if negb (num b) then bad b else if negb (num c) then bad c
  else
    match a, b, c with
    | VInt from, VInt to, VInt step =>
        let '(st, h) := new_iter h (ISInt from) in
        Val (VFun (FRust (NRangeInt st to step))) (h, w)
    | _, _, _ =>
        let '(st, h) := new_iter h (ISFloat (flt a)) in
        Val (VFun (FRust (NRangeFloat st (flt b) (flt c)))) (h, w)
    end.

(** lib/typecheck.rs 34-66: the value, and the type when it is another *)
Definition typecheck (args : list value) (p : spos) : (value * option vtype) + panic :=
  match args with
  | [v; VStr t] =>
      match type_parse t with
      | None => inr (PValueError (VStr t) (bs "valid type") p)
      | Some ty =>
          inl (v, if Nat.eqb (type_rank (get_type v)) (type_rank ty) then None else Some ty)
      end
  | [_; v] => inr (PTypeError v (bs "string") p)
  | _ => inr (PInvalidArgs (length args) 2 p)
  end.

(** lib/print.rs 22-28: what is written for a value *)
Definition print_text (n : nat) (h : heap) (v : value) : walk bytes :=
  match v with
  | VStr s => Known s
  | VByte b => Known [b]
  | v => show n h v
  end.
(** lib/print.rs 35-58: the values with a tab between them *)
Fixpoint print_all (n : nat) (h : heap) (first : bool) (args : list value) : walk bytes :=
  match args with
  | [] => Known []
  | v :: r =>
      wbind (print_text n h v) (fun t =>
      wbind (print_all n h false r) (fun u =>
      Known ((if first then [] else [x09]) ++ t ++ u)))
  end.

(** lib/print.rs 35-58, lib/println.rs 35-58.  Simplified: the parts are written at once. *)
Definition print (n : nat) (newline : bytes) (args : list value) (p : spos) (h : heap) (w : W)
  : res :=
  walked (print_all n h true args) (fun t =>
  match x_write X (t ++ newline) w with
  | (None, w) => Val VNil (h, w)
  | (Some e, w) => Pan (PIo e p) (h, w)
  end).

(** lib/read.rs 20-28 and 34-58 *)
Definition read (p : spos) (h : heap) (w : W) : res :=
  match x_read X w with
  | (inr s, w) => Val (VStr s) (h, w)
  | (inl e, w) => Pan (PIo e p) (h, w)
  end.

(** All functions but [SCatch] and [SImport].  [runtime_args] is [Runtime::args]. The [call]
    methods of src/runtime/lib/*.rs, each cited at its case. *)
Definition std_call (n : nat) (runtime_args : value) (f : std_fun) (args : list value) (p : spos)
  (h : heap) (w : W) : res :=
  let ok v := Val v (h, w) in
  let type_error v t := Pan (PTypeError v t p) (h, w) in
  let count k := Pan (PInvalidArgs (length args) k p) (h, w) in
  match f with
  (* lib/args.rs 20-25 *)
  | SArgs => match args with [] => ok runtime_args | _ => count 0 end
  (* lib/assert.rs 20-28 *)
  | SAssert =>
      match args with
      | [VBool true] => ok VNil
      | [VBool false] => Pan (PAssertionFailed p) (h, w)
      | [v] => type_error v (bs "bool")
      | _ => count 1
      end
  (* lib/base64.rs 23-30 *)
  | SBase64Encode =>
      match args with
      | [VStr s] => ok (VStr (b64_encode s))
      | [v] => type_error v (bs "string")
      | _ => count 1
      end
  (* lib/base64.rs 39-52 *)
  | SBase64Decode =>
      match args with
      | [VStr s] =>
          ok (match b64_decode s with
              | Some r => VStr r
              | None => VErr (x_base64_error X s) (VStr s)
              end)
      | [v] => type_error v (bs "string")
      | _ => count 1
      end
  (* lib/bind.rs 21-33 *)
  | SBind =>
      match args with
      | [obj; VFun f] => ok (VFun (FRust (NBind obj f)))
      | [_; v] => type_error v (bs "function")
      | _ => count 2
      end
  (* lib/bytes.rs 20-35 *)
  | SBytes =>
      match args with
      | [VStr s] => let '(a, h) := new_arr h (map VByte s) in Val a (h, w)
      | [v] => type_error v (bs "string")
      | _ => count 1
      end
  (* lib/cd.rs 22-33 *)
  | SCd =>
      match args with
      | [VStr s] =>
          match x_cd X s w with
          | (None, w) => Val VNil (h, w)
          | (Some e, w) => Val (io_error e) (h, w)
          end
      | [v] => type_error v (bs "string")
      | _ => count 1
      end
  (* lib/contains.rs 20-32 *)
  | SContains =>
      match args with
      | [VArr l; v] => walked (arr_contains n h (arr_get h l) v) (fun b => ok (VBool b))
      | [VDict l; v] =>
          walked (dict_get h n l v) (fun r =>
          ok (VBool (match r with Some _ => true | None => false end)))
      | [VStr s; VByte b] => ok (VBool (existsb (byte_eqb b) s))
      | [VStr _; v] => type_error v (bs "char")
      | [v; _] => type_error v (bs "string ,array or dict")
      | _ => count 2
      end
  (* lib/cwd.rs 22-34 *)
  | SCwd =>
      match args with
      | [] => ok (match x_cwd X w with inr s => VStr s | inl e => io_error e end)
      | _ => count 0
      end
  (* lib/env.rs 23-35 *)
  | SEnv =>
      match args with
      | [VStr s] => ok (match x_env X s w with Some v => VStr v | None => VNil end)
      | [v] => type_error v (bs "string")
      | _ => count 1
      end
  (* lib/env.rs 44-70 *)
  | SExport =>
      match args with
      | [VStr k; VStr v] =>
          if existsb (byte_eqb x3d) k || existsb (byte_eqb x00) k
          then ok (VErr (bs "invalid export key") (VStr k))
          else if existsb (byte_eqb x00) v
          then ok (VErr (bs "invalid export value") (VStr v))
          else if bytes_eqb k [] then Crash CEnv
          else Val VNil (h, x_set_env X k v w)
      | [VStr _; v] => type_error v (bs "string")
      | [v; _] => type_error v (bs "string")
      | _ => count 2
      end
  (* lib/error.rs 21-32 *)
  | SError =>
      match args with
      | [VStr s; c] => ok (VErr s c)
      | [v; _] => type_error v (bs "string")
      | _ => count 2
      end
  (* lib/exit.rs 22-34 *)
  | SExit =>
      match args with
      | [VInt z] =>
          if ((0 <=? z) && (z <=? 255))%Z then Exit z (h, w)
          else Pan (PValueError (VInt z) (bs "valid exit code") p) (h, w)
      | [v] => type_error v (bs "int")
      | _ => count 1
      end
  (* lib/float.rs 20-51 *)
  | SFloat =>
      match args with
      | [VFloat f] => ok (VFloat f)
      | [VInt z] => ok (VFloat (float_of_int z))
      | [VStr s] =>
          match x_parse_float X s with
          | Some f => ok (VFloat f)
          | None => Pan (PValueError (VStr s) (bs "valid integer") p) (h, w)
          end
      | [v] => type_error v (bs "int, float or string")
      | _ => count 1
      end
  (* lib/glob.rs 18-44 *)
  | SGlob =>
      match args with
      | [VStr s] =>
          match x_std_glob X s w with
          | inl paths => let '(a, h) := new_arr h (map VStr paths) in Val a (h, w)
          | inr (d, c) => ok (VErr d c)
          end
      | [v] => type_error v (bs "string")
      | _ => count 1
      end
  (* lib/has_error.rs 51-56 *)
  | SHasError =>
      match args with
      | [v] => walked (has_error n h v) (fun b => ok (VBool b))
      | _ => count 1
      end
  (* lib/hex.rs 23-30 *)
  | SHexEncode =>
      match args with
      | [VStr s] => ok (VStr (hex_encode s))
      | [v] => type_error v (bs "string")
      | _ => count 1
      end
  (* lib/hex.rs 39-52 *)
  | SHexDecode =>
      match args with
      | [VStr s] =>
          ok (match hex_decode s with
              | Some r => VStr r
              | None => VErr (x_hex_error X s) (VStr s)
              end)
      | [v] => type_error v (bs "string")
      | _ => count 1
      end
  (* lib/int.rs 20-51 *)
  | SInt =>
      match args with
      | [VInt z] => ok (VInt z)
      | [VFloat f] => ok (VInt (int_of_float f))
      | [VStr s] =>
          match parse_int s with
          | Some z => ok (VInt z)
          | None => Pan (PValueError (VStr s) (bs "valid integer") p) (h, w)
          end
      | [v] => type_error v (bs "int, float or string")
      | _ => count 1
      end
  (* lib/is_empty.rs 20-31 *)
  | SIsEmpty =>
      match args with
      | [VArr l] => ok (VBool (match arr_get h l with [] => true | _ => false end))
      | [VDict l] => ok (VBool (match dict_entries h l with [] => true | _ => false end))
      | [VStr s] => ok (VBool (match s with [] => true | _ => false end))
      | [v] => type_error v (bs "string, array or dict")
      | _ => count 1
      end
  (* lib/iter.rs 26-57 *)
  | SIter =>
      match args with
      | [VArr l] =>
          let '(st, h) := new_iter h (ISInt 0) in Val (VFun (FRust (NIterArr l st))) (h, w)
      | [VDict l] =>
          let '(st, h) := new_iter h (ISEntries (x_order X (dict_entries h l))) in
          Val (VFun (FRust (NIterDict st))) (h, w)
      | [VStr s] =>
          let '(st, h) := new_iter h (ISInt 0) in Val (VFun (FRust (NIterStr s st))) (h, w)
      | [v] => type_error v (bs "string, array or dict")
      | _ => count 1
      end
  (* lib/json.rs 34-48 *)
  | SJsonEncode =>
      match args with
      | [v] =>
          walked (to_json (x_order X) n h v) (fun r =>
          match r with
          | Some j => ok (VStr (x_json_text X j))
          | None =>
              Pan (PValueError v (bs "nil, bool, byte, int, float, string, array or dict") p)
                  (h, w)
          end)
      | _ => count 1
      end
  (* lib/json.rs 57-69 *)
  | SJsonDecode =>
      match args with
      | [VStr s] =>
          match match x_json_parse X s with Some j => from_json j h | None => None end with
          | Some (v, h) => Val v (h, w)
          | None => ok (VErr (x_json_error X s) (VStr s))
          end
      | [v] => type_error v (bs "string")
      | _ => count 1
      end
  (* lib/length.rs 20-28 *)
  | SLen =>
      match args with
      | [VArr l] => ok (VInt (Z.of_nat (length (arr_get h l))))
      | [VDict l] => ok (VInt (Z.of_nat (length (dict_entries h l))))
      | [VStr s] => ok (VInt (Z.of_nat (length s)))
      | [v] => type_error v (bs "string, array or dict")
      | _ => count 1
      end
  (* lib/panic.rs 20-25 *)
  | SPanic => match args with [v] => Pan (PUser v p) (h, w) | _ => count 1 end
  (* lib/pop.rs 20-33 *)
  | SPop =>
      match args with
      | [VArr l] =>
          match rev (arr_get h l) with
          | v :: r => Val v (arr_set h l (rev r), w)
          | [] => Pan (PEmptyCollection p) (h, w)
          end
      | [v] => type_error v (bs "array")
      | _ => count 1
      end
  (* lib/print.rs 35-58 *)
  | SPrint => print n [] args p h w
  (* lib/println.rs 35-58 *)
  | SPrintln => print n [x0a] args p h w
  (* lib/push.rs 20-30 *)
  | SPush =>
      match args with
      | [VArr l; v] => Val VNil (arr_set h l (arr_get h l ++ [v]), w)
      | [v; _] => type_error v (bs "array")
      | _ => count 2
      end
  (* lib/rand.rs 39-46 *)
  | SRand =>
      match args with
      | [] => let '(f, w) := x_rand X w in Val (VFloat f) (h, w)
      | _ => count 0
      end
  (* lib/rand.rs 52-60 *)
  | SRandInt =>
      match args with
      | [VInt a; VInt b] =>
          if (a <=? b)%Z then let '(z, w) := x_rand_int X a b w in Val (VInt z) (h, w)
          else Crash CRand
      | [v; _] => type_error v (bs "int")
      | _ => count 2
      end
  (* lib/rand.rs 66-75 *)
  | SRandSeed =>
      match args with
      | [VInt z] => Val VNil (h, x_seed X z w)
      | [v] => type_error v (bs "int")
      | _ => count 1
      end
  (* lib/range.rs 25-51 *)
  | SRange => match args with [a; b; c] => range a b c p h w | _ => count 3 end
  (* lib/read.rs 34-58 *)
  | SRead =>
      match args with
      | [] => read p h w
      | [VStr s] =>
          match x_write X s w with
          | (None, w) => read p h w
          | (Some e, w) => Pan (PIo e p) (h, w)
          end
      | [v] => type_error v (bs "string")
      | _ => count 1
      end
  (* lib/regex.rs 24-69 *)
  | SRegex =>
      match args with
      | [VStr s] =>
          match x_regex_check X s with
          | Some e => ok (VErr (bs "invalid regex") (VStr e))
          | None =>
              let '(d, h) :=
                new_dict h [(VStr (bs "match"), VFun (FRust (NRegex RMatch s)));
                            (VStr (bs "split"), VFun (FRust (NRegex RSplit s)));
                            (VStr (bs "replace"), VFun (FRust (NRegex RReplace s)))] in
              Val d (h, w)
          end
      | [v] => type_error v (bs "string")
      | _ => count 1
      end
  (* lib/replace.rs 23-39 *)
  | SReplace =>
      match args with
      | [VStr s; VStr a; VStr b] => ok (VStr (replace_str s a b))
      | [VStr _; VStr _; v] => type_error v (bs "string")
      | [VStr _; v; _] => type_error v (bs "string")
      | [v; _; _] => type_error v (bs "string")
      | _ => count 3
      end
  (* lib/sleep.rs 22-34 *)
  | SSleep =>
      match args with
      | [VInt z] =>
          if (z <? 0)%Z then Pan (PValueError (VInt z) (bs "positive integer") p) (h, w)
          else Val VNil (h, x_sleep X z w)
      | [v] => type_error v (bs "int")
      | _ => count 1
      end
  (* lib/sort.rs 20-30 *)
  | SSort =>
      match args with
      | [VArr l] =>
          walked (sort_walk (vcmp (x_rank X) h n (LockArr l)) (arr_get h l)) (fun r =>
          Val VNil (arr_set h l r, w))
      | [v] => type_error v (bs "array")
      | _ => count 1
      end
  (* lib/split.rs 22-38 *)
  | SSplit =>
      match args with
      | [VStr s; VStr a] => let '(v, h) := new_arr h (map VStr (split_str s a)) in Val v (h, w)
      | [VStr _; v] => type_error v (bs "string")
      | [v; _] => type_error v (bs "string")
      | _ => count 2
      end
  (* lib/substr.rs 30-42 *)
  | SSubstr =>
      match args with
      | [VStr s; VInt a; VInt b] =>
          ok (match substr s a b with Some r => VStr r | None => VNil end)
      | [v; VInt _; VInt _] => type_error v (bs "string")
      | [VStr _; v; VInt _] => type_error v (bs "int")
      | [VStr _; VInt _; v] => type_error v (bs "int")
      | _ => count 3
      end
  (* lib/to_string.rs 21-27 *)
  | SToString =>
      match args with
      | [VStr s] => ok (VStr s)
      | [v] => walked (show n h v) (fun t => ok (VStr t))
      | _ => count 1
      end
  (* lib/trim.rs 22-35 *)
  | STrim =>
      match args with
      | [VStr s] => ok (VStr (trim s))
      | [v] => type_error v (bs "string")
      | _ => count 1
      end
  (* lib/type_.rs 56-64 *)
  | SType =>
      match args with
      | [v] => ok (VStr (type_display (get_type v)))
      | _ => count 1
      end
  (* lib/typecheck.rs 72-85 *)
  | STypecheck =>
      match typecheck args p with
      | inr e => Pan e (h, w)
      | inl (v, None) => ok v
      | inl (v, Some t) => type_error v (type_display t)
      end
  (* lib/typecheck.rs 96-117 *)
  | STryTypecheck =>
      match typecheck args p with
      | inr e => Pan e (h, w)
      | inl (_, None) => ok VNil
      | inl (v, Some t) =>
          walked (show n h v) (fun s =>
          ok (VErr (bs "type error: expected " ++ type_display t ++ bs ", got "
                      ++ type_display (get_type v) ++ bs " (" ++ s ++ bs ")") v))
      end
  (* lib/catch.rs 23-60 and lib/import.rs 136-146: in Runtime.v *)
  | SCatch | SImport => Fuel
  end.

(** lib/regex.rs 83-155 *)
Definition regex_call (f : regex_fun) (pattern : bytes) (args : list value) (p : spos) (h : heap)
  (w : W) : res :=
  let type_error v := Pan (PTypeError v (bs "string") p) (h, w) in
  let count k := Pan (PInvalidArgs (length args) k p) (h, w) in
  match f with
  | RMatch =>
      match args with
      | [VStr s] => Val (VBool (x_regex_match X pattern s)) (h, w)
      | [v] => type_error v
      | _ => count 1
      end
  | RSplit =>
      match args with
      | [VStr s] =>
          let '(v, h) := new_arr h (map VStr (x_regex_split X pattern s)) in Val v (h, w)
      | [v] => type_error v
      | _ => count 1
      end
  | RReplace =>
      match args with
      | [VStr s; VStr r] => Val (VStr (x_regex_replace X pattern s r)) (h, w)
      | [VStr _; v] => type_error v
      | [v; _] => type_error v
      | _ => count 2
      end
  end.

(** command/exec/join.rs 37-54.  The arguments are not looked at. *)
Definition join_call (st : loc) (p : spos) (h : heap) (w : W) : res :=
  match iter_get h st with
  | ISJoin (Some handle) =>
      let h := iter_set h st (ISJoin None) in
      match x_join X handle h w with
      | (inl (v, h), w) => Val v (h, w)
      | (inr e, w) => Pan e (h, w)
      end
  | _ => Pan (PInvalidJoin p) (h, w)
  end.

(** The native functions that do not call the interpreter. value/function.rs 222-224. *)
Definition native_call (n : nat) (runtime_args : value) (f : native) (args : list value)
  (p : spos) (h : heap) (w : W) : res :=
  match f with
  | NStd f => std_call n runtime_args f args p h w
  | NIterArr _ _ | NIterStr _ _ | NIterDict _ | NRangeInt _ _ _ | NRangeFloat _ _ _ =>
      match args with
      | [] => iter_call f h w
      | _ => Pan (PInvalidArgs (length args) 0 p) (h, w)
      end
  | NRegex f pattern => regex_call f pattern args p h w
  | NJoin st => join_call st p h w
  | NBind _ _ => Fuel
  end.
End StdLib.
