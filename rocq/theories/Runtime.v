(** Model of the interpreter: src/runtime/mod.rs, mem.rs, lib.rs, lib/catch.rs, lib/import.rs and
    the calling part of lib/bind.rs.

    The evaluator is a family of functions indexed by fuel; [Fuel] is the answer when it does
    not suffice.  Fuel stands for time and for the depth of the machine stack, none of which
    the code bounds. *)
From Coq Require Import Strings.String.
From Verif Require Import Base Lexer Ast Parser Program Sema Value Text StdLib Exec.

(** flow.rs 6-13 *)
Inductive flow := Reg (v : value) | Ret (v : value) | Brk.

(** mem.rs 42-47.  Every slot gets the number of a closed variable when it is created, which is
    the one it uses if it is ever captured (in the code a new [Gc] is made at that time). *)
Inductive vslot := Regular (id : loc) (v : value) | Closed (c : loc).

(** mod.rs 42-51 and 56-75.  [std] and [args] are constants, see [initial] below; the interner
    is not needed.  The top of the stack comes first.  [st_units] counts loaded sources.
    [st_leaked] is not in the code: it records that [eval] of an imported file was left by a
    panic, which leaves its variables on the stack (mod.rs 103). *)
Record state (W : Type) := mkstate {
  st_stack : list vslot;
  st_args : list value;
  st_heap : heap;
  st_modules : list (bytes * value);
  st_units : nat;
  st_leaked : bool;
  st_world : W }.
Arguments mkstate {W}.
Arguments st_stack {W}. Arguments st_args {W}. Arguments st_heap {W}. Arguments st_modules {W}.
Arguments st_units {W}. Arguments st_leaked {W}. Arguments st_world {W}.

(** Not in the code: updates of one field of the state, here and below *)
Definition set_stack {W} (s : state W) x : state W :=
  mkstate x (st_args s) (st_heap s) (st_modules s) (st_units s) (st_leaked s) (st_world s).
(** See [set_stack]. *)
Definition set_args {W} (s : state W) x : state W :=
  mkstate (st_stack s) x (st_heap s) (st_modules s) (st_units s) (st_leaked s) (st_world s).
(** See [set_stack]. *)
Definition set_heap {W} (s : state W) x : state W :=
  mkstate (st_stack s) (st_args s) x (st_modules s) (st_units s) (st_leaked s) (st_world s).
(** See [set_stack]. *)
Definition set_world {W} (s : state W) (x : W) : state W :=
  mkstate (st_stack s) (st_args s) (st_heap s) (st_modules s) (st_units s) (st_leaked s) x.

(** lib.rs 23-53: the functions of the library with the dicts they are placed in.  Dict 0 is
    [std]; 1, 2 and 3 are [std.base64], [std.hex] and [std.json]. *)
Definition std_functions : list std_fun :=
  [SArgs; SAssert; SBind; SBytes; SCatch; SCd; SContains; SCwd; SEnv; SExport; SError; SExit;
   SFloat; SGlob; SHasError; SImport; SInt; SIsEmpty; SIter; SLen; SPanic; SPop; SPrint;
   SPrintln; SPush; SRand; SRandInt; SRandSeed; SRange; SRead; SRegex; SReplace; SSleep;
   SSort; SSplit; SSubstr; SToString; STrim; SType; STypecheck; STryTypecheck].
(** lib.rs 40-53: the name after the last dot with the function *)
Definition std_entry (f : std_fun) : value * value :=
  (VStr (skipn 4 (std_name f)), VFun (FRust (NStd f))).
(** lib.rs 24-37: the dict made by [new] *)
Definition std_value : value := VDict 0.
(** lib.rs 24-53: the dict of the library, then the dicts in it *)
Definition std_dicts : list (list (value * value)) :=
  [map std_entry std_functions ++
     [(VStr (bs "base64"), VDict 1); (VStr (bs "hex"), VDict 2); (VStr (bs "json"), VDict 3)];
   [(VStr (bs "encode"), VFun (FRust (NStd SBase64Encode)));
    (VStr (bs "decode"), VFun (FRust (NStd SBase64Decode)))];
   [(VStr (bs "encode"), VFun (FRust (NStd SHexEncode)));
    (VStr (bs "decode"), VFun (FRust (NStd SHexDecode)))];
   [(VStr (bs "encode"), VFun (FRust (NStd SJsonEncode)));
    (VStr (bs "decode"), VFun (FRust (NStd SJsonDecode)))]].

(** mod.rs 56-75: array 0 holds the command line arguments.  The main program is source 0. *)
Definition args_value : value := VArr 0.
(** mod.rs 56-75 *)
Definition initial {W} (args : list bytes) (w : W) : state W :=
  mkstate [] [] (mkheap [] [map VStr args] std_dicts []) [] 1 false w.

(** The source a piece of code comes from: its number and its path. In the code the path is part
    of every position, source.rs 15-19. *)
Record uinfo := mkuinfo { u_number : nat; u_path : bytes }.
(** source.rs 57-65 *)
Definition at_ (u : uinfo) (p : pos) : spos := mkspos (u_path u) p.

(** ** Operators *)

(** mod.rs 758-830: the result of a checked operation *)
Definition checked (e : panic) (z : Z) : value + panic :=
  if in_i64 z then inl (VInt z) else inr e.
(** mod.rs 766-805 *)
Definition int_op (op : binary_op) (p : spos) (a b : Z) : value + panic :=
  match op with
  | BPlus => checked (PIntegerOverflow p) (a + b)
  | BMinus => checked (PIntegerOverflow p) (a - b)
  | BTimes => checked (PIntegerOverflow p) (a * b)
  | BDiv =>
      if (b =? 0)%Z then inr (PDivisionByZero p) else checked (PDivisionByZero p) (Z.quot a b)
  | _ =>
      (* [checked_rem] also fails when the quotient overflows *)
      if (b =? 0)%Z then inr (PDivisionByZero p)
      else if in_i64 (Z.quot a b) then inl (VInt (Z.rem a b)) else inr (PDivisionByZero p)
  end.
(** mod.rs 766-805 with value/ops.rs 21-38 *)
Definition float_op (op : binary_op) : spec_float -> spec_float -> spec_float :=
  match op with
  | BPlus => fadd | BMinus => fsub | BTimes => fmul | BDiv => fdiv | _ => frem
  end.
(** mod.rs 758-830 *)
Definition arithmetic_op (op : binary_op) (p : spos) (l : value) (lp : spos) (r : value)
  (rp : spos) : value + panic :=
  match l, r with
  | VInt a, VInt b => int_op op p a b
  | VInt _, r => inr (PTypeError r (bs "int") rp)
  | VFloat a, VFloat b => inl (VFloat (float_op op a b))
  | VFloat _, r => inr (PTypeError r (bs "float") rp)
  | l, _ => inr (PTypeError l (bs "int or float") lp)
  end.

(** mod.rs 835-875.  The two values have the same simple type, so the comparison derived for
    [Value] does not walk. *)
Definition ord_test (op : binary_op) (c : comparison) : bool :=
  match op, c with
  | BLower, Lt | BLowerEquals, Lt | BLowerEquals, Eq
  | BGreater, Gt | BGreaterEquals, Gt | BGreaterEquals, Eq => true
  | _, _ => false
  end.
(** mod.rs 835-875 *)
Definition ord_op (op : binary_op) (l : value) (lp : spos) (r : value) (rp : spos)
  : value + panic :=
  match l, r with
  | VInt a, VInt b => inl (VBool (ord_test op (a ?= b)%Z))
  | VFloat a, VFloat b => inl (VBool (ord_test op (float_cmp a b)))
  | VByte a, VByte b => inl (VBool (ord_test op (Byte.to_N a ?= Byte.to_N b)%N))
  | VStr a, VStr b => inl (VBool (ord_test op (bytes_cmp a b)))
  | VInt _, r => inr (PTypeError r (bs "int") rp)
  | VFloat _, r => inr (PTypeError r (bs "float") rp)
  | VByte _, r => inr (PTypeError r (bs "char") rp)
  | VStr _, r => inr (PTypeError r (bs "string") rp)
  | l, _ => inr (PTypeError l (bs "int, float, byte or string") lp)
  end.

(** mod.rs 725-744 *)
Definition concat_op (l : value) (lp : spos) (r : value) (rp : spos) : value + panic :=
  match l, r with
  | VStr a, VStr b => inl (VStr (a ++ b))
  | VStr _, r => inr (PTypeError r (bs "string") rp)
  | l, _ => inr (PTypeError l (bs "string") lp)
  end.

(** mod.rs 653-676.  The negation of an integer is not checked: it wraps in a release build. *)
Definition unary_op_value (op : unary_op) (v : value) (p : spos) : flow + panic :=
  match op, v with
  | UMinus, VFloat f => inl (Reg (VFloat (fneg f)))
  | UMinus, VInt z => inl (Reg (VInt (wrap64 (- z))))
  | UMinus, v => inr (PTypeError v (bs "int or float") p)
  | UNot, VBool b => inl (Reg (VBool (negb b)))
  | UNot, v => inr (PTypeError v (bs "bool") p)
  | UTry, VErr d c => inl (Ret (VErr d c))
  | UTry, v => inl (Reg v)
  end.

(** value/error.rs 40-62 *)
Definition error_get (d : bytes) (c : value) (field : value) : option value :=
  match field with
  | VStr s =>
      if bytes_eqb s (bs "description") then Some (VStr d)
      else if bytes_eqb s (bs "context") then Some c else None
  | _ => None
  end.

Section Run.
Context {W : Type}.
Variable X : ext W.
Variable O : os W.
(** The interpreter is [tail = true], [eager = false].  The other values are reference
    semantics: [tail = false] makes every call an ordinary one, [eager = true] keeps every
    variable in a shared cell from the start. *)
Variables tail eager : bool.

Notation state := (state W).
(** Not in the code: [Result<_, Panic>] with the state of the interpreter *)
Definition M (A : Type) := state -> outcome state A.
(** Not in the code: [Ok] *)
Definition ret {A} (a : A) : M A := fun s => Val a s.
(** Not in the code: [?] *)
Definition bind {A B} (m : M A) (f : A -> M B) : M B := fun s =>
  match m s with
  | Val a s => f a s
  | Pan p s => Pan p s
  | Exit c s => Exit c s
  | Crash c => Crash c
  | Fuel => Fuel
  end.
Notation "'let*' x := m 'in' k" := (bind m (fun x => k))
  (at level 200, x pattern, m at level 100, k at level 200).
(** Not in the code: [Err] *)
Definition throw {A} (p : panic) : M A := fun s => Pan p s.
(** Not in the code: a panic of the host *)
Definition crash_with {A} (c : crash) : M A := fun _ => Crash c.
(** Not in the code: the state *)
Definition get : M state := fun s => Val s s.
(** Not in the code: a new state *)
Definition put (s : state) : M unit := fun _ => Val tt s.
(** Not in the code: a [Result] of a function without state *)
Definition of_sum {A} (r : A + panic) : M A :=
  match r with inl a => ret a | inr p => throw p end.
(** Not in the code: see [walk] *)
Definition of_walk {A} (r : walk A) : M A :=
  match r with Known a => ret a | Busy => crash_with CBorrow | Deep => fun _ => Fuel end.
(** An operation on the heap and the world. Not in the code. *)
Definition lift {A} (f : heap -> W -> outcome (heap * W) A) : M A := fun s =>
  let back (x : heap * W) := set_world (set_heap s (fst x)) (snd x) in
  match f (st_heap s) (st_world s) with
  | Val a x => Val a (back x)
  | Pan p x => Pan p (back x)
  | Exit c x => Exit c (back x)
  | Crash c => Crash c
  | Fuel => Fuel
  end.

(** ** Memory: mem.rs *)

(** mem.rs 52-57 *)
Definition slot_value (h : heap) (s : vslot) : value :=
  match s with Regular _ v => v | Closed c => cell_get h c end.

(** mem.rs 142-145 *)
Definition fetch (ix : slot) : M value := fun s =>
  match nth_error (st_stack s) ix with
  | Some x => Val (slot_value (st_heap s) x) s
  | None => Crash CSlot
  end.

(** mem.rs 166-170 *)
Definition store (ix : slot) (v : value) : M unit := fun s =>
  match nth_error (st_stack s) ix with
  | Some (Regular id _) => Val tt (set_stack s (list_set (st_stack s) ix (Regular id v)))
  | Some (Closed c) => Val tt (set_heap s (cell_set (st_heap s) c v))
  | None => Crash CSlot
  end.

(** mem.rs 149-153 and 71-82 *)
Definition capture (ix : slot) : M loc := fun s =>
  match nth_error (st_stack s) ix with
  | Some (Regular id v) =>
      Val id (set_heap (set_stack s (list_set (st_stack s) ix (Closed id)))
                       (cell_set (st_heap s) id v))
  | Some (Closed c) => Val c s
  | None => Crash CSlot
  end.

(** mem.rs 157-161 and 86-88 *)
Definition place (ix : slot) (c : loc) : M unit := fun s =>
  match nth_error (st_stack s) ix with
  | Some _ => Val tt (set_stack s (list_set (st_stack s) ix (Closed c)))
  | None => Crash CSlot
  end.

(** mem.rs 92-97 and 122-131 *)
Definition new_slot (id : loc) : vslot := if eager then Closed id else Regular id VNil.
(** mem.rs 125-126 *)
Definition overflows (size : nat) : bool :=
  match x_stack_size X with Some max => max <? size | None => false end.
(** mem.rs 122-131 *)
Definition extend (n : nat) (p : spos) : M unit := fun s =>
  if overflows (length (st_stack s) + n) then Pan (PStackOverflow p) s
  else
    let h := st_heap s in
    Val tt (mkstate (map new_slot (seq (length (h_cells h)) n) ++ st_stack s) (st_args s)
              (mkheap (h_cells h ++ repeat VNil n) (h_arrs h) (h_dicts h) (h_iters h))
              (st_modules s) (st_units s) (st_leaked s) (st_world s)).

(** mem.rs 135-137 *)
Definition shrink (n : nat) (s : state) : state := set_stack s (skipn n (st_stack s)).

(** mod.rs 593-595 *)
Definition store_all : slot -> list value -> M unit :=
  fix go ix l :=
    match l with
    | [] => ret tt
    | v :: l' => let* _ := store ix v in go (S ix) l'
    end.
(** mod.rs 598-600 *)
Definition place_all : list (loc * slot) -> M unit :=
  fix go l :=
    match l with
    | [] => ret tt
    | (c, ix) :: l' => let* _ := place ix c in go l'
    end.
(** mod.rs 223-233 *)
Definition capture_all : list Program.capture -> M (list (loc * slot)) :=
  fix go l :=
    match l with
    | [] => ret []
    | c :: l' =>
        let* x := capture (cap_from c) in
        let* r := go l' in
        ret ((x, cap_to c) :: r)
    end.

(** ** The evaluator *)

(** The functions that call each other, at some fuel. mod.rs 123-649: [eval_expr],
    [eval_statement], [eval_block] and [call]. *)
Record evals := mkevals {
  ev_expr : uinfo -> xexpr -> M (flow * spos * value);
  ev_statement : uinfo -> xstatement -> M flow;
  ev_call : value -> func -> nat -> spos -> M value;
  ev_for : uinfo -> slot -> func -> spos -> list xstatement -> M flow }.

Section Step.
(** The functions with less fuel, and the fuel for walking values. *)
Variable E : evals.
Variable n : nat.

(** mod.rs 123-157, without tail call *)
Fixpoint eval_block (u : uinfo) (b : list xstatement) : M flow :=
  match b with
  | [] => ret (Reg VNil)
  | [s] => ev_statement E u s
  | s :: b' =>
      let* f := ev_statement E u s in
      match f with
      | Reg _ => eval_block u b'
      | f => ret f
      end
  end.

(** Values of a list of expressions; [inl] when one of them does not complete. mod.rs 190-201. *)
Fixpoint eval_list (u : uinfo) (es : list xexpr) : M (flow + list value) :=
  match es with
  | [] => ret (inr [])
  | e :: es' =>
      let* (f, _, _) := ev_expr E u e in
      match f with
      | Reg v =>
          let* r := eval_list u es' in
          ret (match r with inr l => inr (v :: l) | inl f => inl f end)
      | f => ret (inl f)
      end
  end.

(** Insertion of a string key in a new dict. mod.rs 204-220: [HashMap::insert]. *)
Definition symbol_put (k : symbol) (v : value) (d : list (value * value)) : list (value * value) :=
  match put_entry (fun a b => Known (match a, b with VStr x, VStr y => bytes_eqb x y | _, _ => false end))
          (VStr k) v d with
  | Known d => d
  | _ => d
  end.

(** mod.rs 204-220: the entries so far in [d] *)
Fixpoint eval_dict (u : uinfo) (items : list (symbol * xexpr)) (d : list (value * value))
  : M (flow + list (value * value)) :=
  match items with
  | [] => ret (inr d)
  | (k, e) :: items' =>
      let* (f, _, _) := ev_expr E u e in
      match f with
      | Reg v => eval_dict u items' (symbol_put k v d)
      | f => ret (inl f)
      end
  end.

(** mod.rs 165-187 *)
Definition lit_value (l : literal) : value :=
  match l with
  | LNil => VNil
  | LTrue => VBool true
  | LFalse => VBool false
  | LInt z => VInt z
  | LFloat t => VFloat (match x_parse_float X t with Some f => f | None => S754_nan end)
  | LByte b => VByte b
  | LString s => VStr s
  end.

(** mod.rs 341-366 *)
Definition access (obj : value) (op : spos) (field : value) (fp : spos) : M value :=
  let* s := get in
  let h := st_heap s in
  let bounds (r : option value) :=
    match r with Some v => ret v | None => throw (PIndexOutOfBounds field fp) end in
  match obj, field with
  | VDict l, _ => let* r := of_walk (dict_get h n l field) in bounds r
  | VArr l, VInt z => bounds (nth_z (arr_get h l) z)
  | VArr _, _ => throw (PTypeError field (bs "int") fp)
  | VStr t, VInt z => bounds (option_map VByte (nth_z t z))
  | VStr _, _ => throw (PTypeError field (bs "int") fp)
  | VErr d c, _ => bounds (error_get d c field)
  | _, _ => throw (PTypeError obj (bs "string, array, dict or error") op)
  end.

(** mod.rs 382-392 *)
Fixpoint push_args (u : uinfo) (start : nat) (args : list xexpr) : M (option flow) :=
  match args with
  | [] => ret None
  | e :: args' =>
      let* (f, _, _) := ev_expr E u e in
      let* s := get in
      match f with
      | Reg v =>
          let* _ := put (set_args s (st_args s ++ [v])) in
          push_args u start args'
      | f =>
          let* _ := put (set_args s (firstn start (st_args s))) in
          ret (Some f)
      end
  end.

(** mod.rs 369-392: everything of a call up to the call itself *)
Definition prepare_call (u : uinfo) (f : xexpr) (args : list xexpr)
  : M (flow + (value * func * nat)) :=
  let* (fl, fp, obj) := ev_expr E u f in
  match fl with
  | Reg (VFun g) =>
      let* s := get in
      let start := length (st_args s) in
      let* r := push_args u start args in
      match r with
      | Some fl => ret (inl fl)
      | None => ret (inr (obj, g, start))
      end
  | Reg v => throw (PInvalidCall v fp)
  | fl => ret (inl fl)
  end.

(** mod.rs 680-753 *)
Definition eval_binary (u : uinfo) (l : xexpr) (op : binary_op) (r : xexpr) (p : spos) : M flow :=
  let* (fl, lp, _) := ev_expr E u l in
  match fl with
  | Reg a =>
      let right (k : value -> spos -> M value) : M flow :=
        let* (fr, rp, _) := ev_expr E u r in
        match fr with
        | Reg b => let* v := k b rp in ret (Reg v)
        | f => ret f
        end in
      match op with
      | BAnd | BOr =>
          match a, op with
          | VBool false, BAnd => ret (Reg (VBool false))
          | VBool true, BOr => ret (Reg (VBool true))
          | VBool _, _ =>
              right (fun b rp =>
                match b with
                | VBool _ => ret b
                | _ => throw (PTypeError b (bs "bool") rp)
                end)
          | _, _ => throw (PTypeError a (bs "bool") lp)
          end
      | BPlus | BMinus | BTimes | BDiv | BMod =>
          right (fun b rp => of_sum (arithmetic_op op p a lp b rp))
      | BGreater | BGreaterEquals | BLower | BLowerEquals =>
          right (fun b rp => of_sum (ord_op op a lp b rp))
      | BEquals =>
          right (fun b _ =>
            let* s := get in
            let* e := of_walk (eqv (st_heap s) n false a b) in ret (VBool e))
      | BNotEquals =>
          right (fun b _ =>
            let* s := get in
            let* e := of_walk (eqv (st_heap s) n false a b) in ret (VBool (negb e)))
      | BConcat => right (fun b rp => of_sum (concat_op a lp b rp))
      end
  | f => ret f
  end.

(** A new array or dict. mod.rs 190-220. *)
Definition alloc (f : heap -> value * heap) : M value := fun s =>
  let '(v, h) := f (st_heap s) in Val v (set_heap s h).

(** mod.rs 165-252 and 257-407 *)
Definition eval_expr (u : uinfo) (e : xexpr) : M (flow * spos * value) :=
  let plain p (m : M flow) : M (flow * spos * value) :=
    let* f := m in ret (f, at_ u p, VNil) in
  match e with
  | XIdent ix p => plain p (let* v := fetch ix in ret (Reg v))
  | XLit l p => plain p (ret (Reg (lit_value l)))
  | XFieldName s p => plain p (ret (Reg (VStr s)))
  | XArray es p =>
      plain p (
        let* r := eval_list u es in
        match r with
        | inr l => let* v := alloc (fun h => new_arr h l) in ret (Reg v)
        | inl f => ret f
        end)
  | XDict items p =>
      plain p (
        let* r := eval_dict u items [] in
        match r with
        | inr d => let* v := alloc (fun h => new_dict h d) in ret (Reg v)
        | inl f => ret f
        end)
  | XFunction params fi body p =>
      plain p (
        let* context := capture_all (fi_captures fi) in
        ret (Reg (VFun (FHush (u_number u) params fi body context (at_ u p)))))
  | XUnary op e p =>
      plain p (
        let* (f, ep, _) := ev_expr E u e in
        match f with
        | Reg v => of_sum (unary_op_value op v ep)
        | f => ret f
        end)
  | XBinary l op r p => plain p (eval_binary u l op r (at_ u p))
  | XIf c t e p =>
      plain p (
        let* (f, cp, _) := ev_expr E u c in
        match f with
        | Reg (VBool b) => eval_block u (if b then t else e)
        | Reg v => throw (PInvalidCondition v cp)
        | f => ret f
        end)
  | XAccess o f p =>
      let* (fo, op, _) := ev_expr E u o in
      match fo with
      | Reg obj =>
          let* (ff, fp, _) := ev_expr E u f in
          match ff with
          | Reg field =>
              let* v := access obj op field fp in
              ret (Reg v, at_ u p, obj)
          | f => ret (f, at_ u p, VNil)
          end
      | f => ret (f, at_ u p, VNil)
      end
  | XCall f args p =>
      plain p (
        let* r := prepare_call u f args in
        match r with
        | inr (obj, g, start) => let* v := ev_call E obj g start (at_ u p) in ret (Reg v)
        | inl f => ret f
        end)
  | XCommand b p =>
      plain p (fun s =>
        (let* v := lift (eval_command_block X O
           (fun ix => option_map (slot_value (st_heap s)) (nth_error (st_stack s) ix))
           (u_path u) b (at_ u p)) in
         ret (Reg v)) s)
  end.

(** mod.rs 447-465 *)
Definition assign_field (obj : value) (op : spos) (field : value) (fp : spos) (v : value) (p : spos)
  : M unit :=
  let* s := get in
  let h := st_heap s in
  match obj, field with
  | VDict l, _ =>
      let* d := of_walk (dict_put h n l field v) in
      put (set_heap s (dict_set h l d))
  | VArr l, VInt z =>
      if (Z.of_nat (length (arr_get h l)) <=? z)%Z then throw (PIndexOutOfBounds field fp)
      else if (z <? 0)%Z then throw (PIndexOutOfBounds field p)
      else put (set_heap s (arr_set h l (list_set (arr_get h l) (Z.to_nat z) v)))
  | VArr _, _ => throw (PTypeError field (bs "int") fp)
  | VErr _ _, _ => throw (PAssignToReadonlyField field fp)
  | _, _ => throw (PTypeError obj (bs "array, dict or error") op)
  end.

(** mod.rs 411-565 *)
Definition eval_statement (u : uinfo) (st : xstatement) : M flow :=
  match st with
  | XAssign l r =>
      let* (f, _, _) := ev_expr E u r in
      match f with
      | Reg v =>
          match l with
          | LIdent ix _ => let* _ := store ix v in ret (Reg VNil)
          | LAccess o fe p =>
              let* (fo, op, _) := ev_expr E u o in
              match fo with
              | Reg obj =>
                  let* (ff, fp, _) := ev_expr E u fe in
                  match ff with
                  | Reg field =>
                      let* _ := assign_field obj op field fp v (at_ u p) in
                      ret (Reg VNil)
                  | f => ret f
                  end
              | f => ret f
              end
          end
      | f => ret f
      end
  | XReturn e =>
      let* (f, _, _) := ev_expr E u e in
      ret (match f with Reg v => Ret v | f => f end)
  | XBreak => ret Brk
  | XWhile c b =>
      let* (f, cp, _) := ev_expr E u c in
      match f with
      | Reg (VBool false) => ret (Reg VNil)
      | Reg (VBool true) =>
          let* f := eval_block u b in
          match f with
          | Reg _ => ev_statement E u (XWhile c b)
          | Ret v => ret (Ret v)
          | Brk => ret (Reg VNil)
          end
      | Reg v => throw (PInvalidCondition v cp)
      | f => ret f
      end
  | XFor ix e b =>
      let* (f, p, _) := ev_expr E u e in
      match f with
      | Reg (VFun g) => ev_for E u ix g p b
      | Reg v => throw (PTypeError v (bs "function") p)
      | f => ret f
      end
  | XExpr e =>
      let* (f, _, _) := ev_expr E u e in ret f
  end.

(** mod.rs 516-557: the loop of [for] *)
Definition eval_for (u : uinfo) (ix : slot) (g : func) (p : spos) (b : list xstatement) : M flow :=
  let* s := get in
  let* r := ev_call E VNil g (length (st_args s)) p in
  match r with
  | VDict l =>
      let field (k : bytes) : M value :=
        let* s := get in
        let* r := of_walk (dict_get (st_heap s) n l (VStr k)) in
        match r with
        | Some v => ret v
        | None => throw (PIndexOutOfBounds (VStr k) p)
        end in
      let* finished := field (bs "finished") in
      match finished with
      | VBool true => ret (Reg VNil)
      | VBool false =>
          let* v := field (bs "value") in
          let* _ := store ix v in
          let* f := eval_block u b in
          match f with
          | Reg _ => ev_for E u ix g p b
          | Ret v => ret (Ret v)
          | Brk => ret (Reg VNil)
          end
      | v => throw (PTypeError v (bs "bool") p)
      end
  | v => throw (PTypeError v (bs "dict") p)
  end.

(** mod.rs 618-621: dropping the variables of an activation, whatever the body came to *)
Definition finish {A} (slots : nat) (m : M A) : M A := fun s =>
  match m s with
  | Val a s => Val a (shrink slots s)
  | Pan p s => Pan p (shrink slots s)
  | r => r
  end.

(** mod.rs 130-157 and 608-621: the body of a function.  The tail call closure is only reached
    when the last statement is a call, or returns a call; it drops the variables before the
    call, and they are not dropped again. *)
Definition tail_call (u : uinfo) (slots : nat) (f : xexpr) (args : list xexpr) (p : pos) : M flow :=
  fun s =>
  match prepare_call u f args s with
  | Val (inr (obj, g, start)) s =>
      bind (ev_call E obj g start (at_ u p)) (fun v => ret (Reg v)) (shrink slots s)
  | Val (inl f) s => Val f (shrink slots s)
  | Pan e s => Pan e (shrink slots s)
  | Exit c s => Exit c s
  | Crash c => Crash c
  | Fuel => Fuel
  end.
(** mod.rs 130-157 with the closure of 608-614 *)
Fixpoint eval_body (u : uinfo) (slots : nat) (b : list xstatement) : M flow :=
  match b with
  | [] => finish slots (ret (Reg VNil))
  | [s] =>
      match tail, s with
      | true, XReturn (XCall f args p) =>
          let* f := tail_call u slots f args p in
          ret (match f with Reg v => Ret v | f => f end)
      | true, XExpr (XCall f args p) => tail_call u slots f args p
      | _, _ => finish slots (ev_statement E u s)
      end
  | s :: b' => fun st =>
      match ev_statement E u s st with
      | Val (Reg _) st => eval_body u slots b' st
      | Val f st => Val f (shrink slots st)
      | Pan p st => Pan p (shrink slots st)
      | r => r
      end
  end.

(** mod.rs 570-630 *)
Definition call_hush (obj : value) (unit : nat) (params : nat) (fi : frame_info)
  (body : list xstatement) (context : list (loc * slot)) (fp : spos) (start : nat) (p : spos)
  : M value :=
  let* s := get in
  let args := skipn start (st_args s) in
  let* _ := put (set_args s (firstn start (st_args s))) in
  if Nat.eqb (length args) params then
    let* _ := extend (fi_slots fi) p in
    let* _ := store_all 0 args in
    let* _ := place_all context in
    let* _ := match fi_self fi with Some ix => store ix obj | None => ret tt end in
    let* f := eval_body (mkuinfo unit (sp_path fp)) (fi_slots fi) body in
    match f with
    | Reg v | Ret v => ret v
    | Brk => crash_with CFlow
    end
  else throw (PInvalidArgs (length args) params p).

(** mod.rs 91-118.  The variables of the program are dropped only when it completes. *)
Definition eval_program (u : uinfo) (prog : program) : M value :=
  let* _ := extend (pr_root_slots prog) (at_ u (mkpos 0 0)) in
  let* _ := store 0 std_value in
  fun s =>
  match eval_block u (pr_statements prog) s with
  | Val (Reg v) s => Val v (shrink (pr_root_slots prog) s)
  | Val _ _ => Crash CFlow
  | Pan p s => Pan p s
  | Exit c s => Exit c s
  | Crash c => Crash c
  | Fuel => Fuel
  end.

(** Not in the code: sets [st_leaked] when the evaluation of an imported file (import.rs
    119-127) panics, since mod.rs 103 then leaves without shrinking the stack. *)
Definition leaking {A} (m : M A) : M A := fun s =>
  match m s with
  | Pan p s =>
      Pan p (mkstate (st_stack s) (st_args s) (st_heap s) (st_modules s) (st_units s) true
               (st_world s))
  | r => r
  end.

(** import.rs 80-130.  The error messages written to the terminal are not modelled. *)
Definition load (path : bytes) (p : spos) : M value :=
  let* s := get in
  match x_file X path (st_world s) with
  | inl e => throw (PIo e p)
  | inr text =>
      match analyze text with
      | AnalysisCrash => crash_with CLexer
      | AnalysisFuel => fun _ => Fuel
      | Analysis b [] [] =>
          match sema b with
          | SemaCrash => crash_with CSema
          | SemaErrors _ => throw (PImportFailed path p)
          | SemaOk prog =>
              let unit := st_units s in
              let* _ := put (mkstate (st_stack s) (st_args s) (st_heap s) (st_modules s)
                               (S unit) (st_leaked s) (st_world s)) in
              leaking (eval_program (mkuinfo unit path) prog)
          end
      | Analysis _ _ _ => throw (PImportFailed path p)
      end
  end.

(** import.rs 42: [HashMap::get] of the modules *)
Fixpoint module_get (path : bytes) (l : list (bytes * value)) : option value :=
  match l with
  | [] => None
  | (k, v) :: l' => if bytes_eqb path k then Some v else module_get path l'
  end.

(** import.rs 31-77 *)
Definition import (target : bytes) (p : spos) : M value :=
  let* s := get in
  match x_resolve X target (sp_path p) (st_world s) with
  | inl e => throw (PIo e p)
  | inr path =>
      match module_get path (st_modules s) with
      | Some v => ret v
      | None =>
          let* v := load path p in
          let* s := get in
          let* _ := put (mkstate (st_stack s) (st_args s) (st_heap s) ((path, v) :: st_modules s)
                           (st_units s) (st_leaked s) (st_world s)) in
          ret v
      end
  end.

(** catch.rs 23-60: the panic becomes an error value.  Showing a value that contains itself
    never ends. *)
Definition catch (m : M value) : M value := fun s =>
  match m s with
  | Pan p s =>
      match panic_text X n (st_heap s) p with
      | Known t => Val (VErr (bs "caught panic: " ++ t) (VStr (bs "panic"))) s
      | Busy => Crash CBorrow
      | Deep => Fuel
      end
  | r => r
  end.

(** mod.rs 632-645 *)
Definition native_body (f : native) (args : list value) (start : nat) (p : spos) : M value :=
  match f with
  | NStd SCatch =>
      match args with
      | [VFun g] => catch (ev_call E VNil g (start + 1) p)
      | [v] => throw (PTypeError v (bs "function") p)
      | _ => throw (PInvalidArgs (length args) 1 p)
      end
  | NStd SImport =>
      match args with
      | [VStr t] => import t p
      | [v] => throw (PTypeError v (bs "string") p)
      | _ => throw (PInvalidArgs (length args) 1 p)
      end
  | NBind obj g => ev_call E obj g start p
  | _ => lift (native_call X n args_value f args p)
  end.
(** mod.rs 642: the arguments are dropped whatever the function came to *)
Definition truncated {A} (start : nat) (m : M A) : M A := fun s =>
  match m s with
  | Val a s => Val a (set_args s (firstn start (st_args s)))
  | Pan p s => Pan p (set_args s (firstn start (st_args s)))
  | r => r
  end.

(** mod.rs 570-649 *)
Definition call (obj : value) (f : func) (start : nat) (p : spos) : M value :=
  match f with
  | FHush unit params fi body context fp => call_hush obj unit params fi body context fp start p
  | FRust g =>
      let* s := get in
      truncated start (native_body g (skipn start (st_args s)) start p)
  end.
End Step.

(** Not in the code: evaluation that is not allowed any step *)
Definition no_fuel : evals :=
  mkevals (fun _ _ _ => Fuel) (fun _ _ _ => Fuel) (fun _ _ _ _ _ => Fuel) (fun _ _ _ _ _ _ => Fuel).

(** Not in the code: one more level of calls between the functions above *)
Definition step (E : evals) (n : nat) : evals :=
  mkevals (eval_expr E n) (eval_statement E n) (call E n) (eval_for E n).

(** Not in the code: [n] levels of calls *)
Fixpoint run (n : nat) : evals :=
  match n with
  | 0 => no_fuel
  | S n' => step (run n') n'
  end.

(** mod.rs 91-118 for the main program, in a new interpreter *)
Definition run_program (n : nat) (path : bytes) (prog : program) (args : list bytes) (w : W)
  : outcome state value :=
  eval_program (run n) (mkuinfo 0 path) prog (initial args w).
End Run.
