(** The rules of evaluation, one construct at a time, without fuel: what a reader of a program may
    rely on. *)
From Coq Require Import Strings.String.
From Verif Require Import Base Lexer Ast Parser Program Sema Value StdLib Exec Runtime SpecRuntime SpecShow.

(** The family of attempts comes to the end [r]. *)
Definition ends {S A} (f : nat -> outcome S A) (r : outcome S A) : Prop := r <> Fuel /\ exists n, f n = r.

(** Two results that are the same failure: a panic, the end of the process or a crash. *)
Inductive fails {S A B} : outcome S A -> outcome S B -> Prop :=
| fl_panic p s : fails (Pan p s) (Pan p s)
| fl_exit c s : fails (Exit c s) (Exit c s)
| fl_crash c : fails (Crash c) (Crash c).

Section Rules.
Context {W : Type}.
Variable X : ext W.
Variable O : os W.
Notation state := (state W).
Notation result := (outcome state flow).

(** ** Judgements *)

Definition flow_of (r : outcome state (flow * spos * value)) : result :=
  match r with
  | Val (f, _, _) s => Val f s
  | Pan p s => Pan p s
  | Exit c s => Exit c s
  | Crash c => Crash c
  | Fuel => Fuel
  end.
Definition evaluates (u : uinfo) (e : xexpr) (s : state) (r : result) : Prop :=
  ends (fun n => flow_of (ev_expr (interp X O n) u e s)) r.
Definition executes (u : uinfo) (st : xstatement) (s : state) (r : result) : Prop :=
  ends (fun n => ev_statement (interp X O n) u st s) r.
Definition calls (obj : value) (f : func) (start : nat) (p : spos) (s : state)
  (r : outcome state value) : Prop :=
  ends (fun n => ev_call (interp X O n) obj f start p s) r.

(** The position written in the tree *)
Definition expr_pos (e : xexpr) : pos :=
  match e with
  | XIdent _ p | XLit _ p | XFieldName _ p | XArray _ p | XDict _ p | XFunction _ _ _ p
  | XUnary _ _ p | XBinary _ _ _ p | XIf _ _ _ p | XAccess _ _ p | XCall _ _ p | XCommand _ p => p
  end.

(** Anything but a plain value: a [return], a [break], a panic, the end. *)
Definition stops (r : result) : Prop := match r with Val (Reg _) _ => False | _ => True end.

(** ** Statements *)

(** Statements one after the other.  The value is that of the last one. *)
Inductive sequence (u : uinfo) : list xstatement -> state -> result -> Prop :=
| sq_none s : sequence u [] s (Val (Reg VNil) s)
| sq_last st s r : executes u st s r -> sequence u [st] s r
| sq_next st b s v s1 r : b <> [] ->
    executes u st s (Val (Reg v) s1) -> sequence u b s1 r -> sequence u (st :: b) s r
| sq_stop st b s r : executes u st s r -> stops r -> sequence u (st :: b) s r.

(** [if c then t else e end] *)
Inductive choice (u : uinfo) (c : xexpr) (t e : list xstatement) (s : state) : result -> Prop :=
| ch_then s1 r : evaluates u c s (Val (Reg (VBool true)) s1) -> sequence u t s1 r -> choice u c t e s r
| ch_else s1 r : evaluates u c s (Val (Reg (VBool false)) s1) -> sequence u e s1 r -> choice u c t e s r
| ch_bad v s1 : evaluates u c s (Val (Reg v) s1) -> ~ is_boolean v ->
    choice u c t e s (Pan (PInvalidCondition v (at_ u (expr_pos c))) s1)
| ch_stop r : evaluates u c s r -> stops r -> choice u c t e s r.

(** [while c do b end] *)
Inductive loop (u : uinfo) (c : xexpr) (b : list xstatement) : state -> result -> Prop :=
| lp_done s s1 : evaluates u c s (Val (Reg (VBool false)) s1) -> loop u c b s (Val (Reg VNil) s1)
| lp_again s s1 v s2 r : evaluates u c s (Val (Reg (VBool true)) s1) ->
    sequence u b s1 (Val (Reg v) s2) -> loop u c b s2 r -> loop u c b s r
| lp_break s s1 s2 : evaluates u c s (Val (Reg (VBool true)) s1) ->
    sequence u b s1 (Val Brk s2) -> loop u c b s (Val (Reg VNil) s2)
| lp_leave s s1 r : evaluates u c s (Val (Reg (VBool true)) s1) ->
    sequence u b s1 r -> stops r -> (forall s2, r <> Val Brk s2) -> loop u c b s r
| lp_bad s v s1 : evaluates u c s (Val (Reg v) s1) -> ~ is_boolean v ->
    loop u c b s (Pan (PInvalidCondition v (at_ u (expr_pos c))) s1)
| lp_stop s r : evaluates u c s r -> stops r -> loop u c b s r.

(** Variable [ix] gets a new value; the others, and everything else, stay. *)
Inductive assigned (ix : slot) (v : value) (s : state) : state -> Prop :=
| as_own id old before after : st_stack s = before ++ Regular id old :: after -> length before = ix ->
    assigned ix v s (set_stack s (before ++ Regular id v :: after))
| as_shared c : nth_error (st_stack s) ix = Some (Closed c) ->
    assigned ix v s (set_heap s (mkheap (list_set (h_cells (st_heap s)) c v) (h_arrs (st_heap s))
                                   (h_dicts (st_heap s)) (h_iters (st_heap s)))).

(** The value stored for a name *)
Fixpoint field_of (d : list (value * value)) (k : bytes) : option value :=
  match d with
  | [] => None
  | (VStr k', v) :: d' => if bytes_eqb k k' then Some v else field_of d' k
  | _ :: d' => field_of d' k
  end.

(** [for ix in g do b end] once the iterator [g] is known *)
Inductive for_each (u : uinfo) (ix : slot) (g : func) (p : spos) (b : list xstatement)
  : state -> result -> Prop :=
| fe_done s d s1 : calls VNil g (length (st_args s)) p s (Val (VDict d) s1) ->
    field_of (dict_entries (st_heap s1) d) (bs "finished") = Some (VBool true) ->
    for_each u ix g p b s (Val (Reg VNil) s1)
| fe_again s d s1 x s2 v s3 r : calls VNil g (length (st_args s)) p s (Val (VDict d) s1) ->
    field_of (dict_entries (st_heap s1) d) (bs "finished") = Some (VBool false) ->
    field_of (dict_entries (st_heap s1) d) (bs "value") = Some x -> assigned ix x s1 s2 ->
    sequence u b s2 (Val (Reg v) s3) -> for_each u ix g p b s3 r -> for_each u ix g p b s r
| fe_break s d s1 x s2 s3 : calls VNil g (length (st_args s)) p s (Val (VDict d) s1) ->
    field_of (dict_entries (st_heap s1) d) (bs "finished") = Some (VBool false) ->
    field_of (dict_entries (st_heap s1) d) (bs "value") = Some x -> assigned ix x s1 s2 ->
    sequence u b s2 (Val Brk s3) -> for_each u ix g p b s (Val (Reg VNil) s3)
| fe_leave s d s1 x s2 r : calls VNil g (length (st_args s)) p s (Val (VDict d) s1) ->
    field_of (dict_entries (st_heap s1) d) (bs "finished") = Some (VBool false) ->
    field_of (dict_entries (st_heap s1) d) (bs "value") = Some x -> assigned ix x s1 s2 ->
    sequence u b s2 r -> stops r -> (forall s3, r <> Val Brk s3) -> for_each u ix g p b s r
| fe_call s o r : calls VNil g (length (st_args s)) p s o -> fails o r -> for_each u ix g p b s r
| fe_no_dict s v s1 : calls VNil g (length (st_args s)) p s (Val v s1) -> (forall d, v <> VDict d) ->
    for_each u ix g p b s (Pan (PTypeError v (bs "dict") p) s1)
| fe_no_finished s d s1 : calls VNil g (length (st_args s)) p s (Val (VDict d) s1) ->
    field_of (dict_entries (st_heap s1) d) (bs "finished") = None ->
    for_each u ix g p b s (Pan (PIndexOutOfBounds (VStr (bs "finished")) p) s1)
| fe_no_bool s d s1 v : calls VNil g (length (st_args s)) p s (Val (VDict d) s1) ->
    field_of (dict_entries (st_heap s1) d) (bs "finished") = Some v -> ~ is_boolean v ->
    for_each u ix g p b s (Pan (PTypeError v (bs "bool") p) s1)
| fe_no_value s d s1 : calls VNil g (length (st_args s)) p s (Val (VDict d) s1) ->
    field_of (dict_entries (st_heap s1) d) (bs "finished") = Some (VBool false) ->
    field_of (dict_entries (st_heap s1) d) (bs "value") = None ->
    for_each u ix g p b s (Pan (PIndexOutOfBounds (VStr (bs "value")) p) s1)
| fe_no_slot s d s1 x : calls VNil g (length (st_args s)) p s (Val (VDict d) s1) ->
    field_of (dict_entries (st_heap s1) d) (bs "finished") = Some (VBool false) ->
    field_of (dict_entries (st_heap s1) d) (bs "value") = Some x -> length (st_stack s1) <= ix ->
    for_each u ix g p b s (Crash CSlot).

(** [for ix in e do b end] *)
Inductive for_loop (u : uinfo) (ix : slot) (e : xexpr) (b : list xstatement) (s : state) : result -> Prop :=
| fo_loop g s1 r : evaluates u e s (Val (Reg (VFun g)) s1) ->
    for_each u ix g (at_ u (expr_pos e)) b s1 r -> for_loop u ix e b s r
| fo_bad v s1 : evaluates u e s (Val (Reg v) s1) -> (forall g, v <> VFun g) ->
    for_loop u ix e b s (Pan (PTypeError v (bs "function") (at_ u (expr_pos e))) s1)
| fo_stop r : evaluates u e s r -> stops r -> for_loop u ix e b s r.

(** [return e] *)
Inductive returns (u : uinfo) (e : xexpr) (s : state) : result -> Prop :=
| rt_value v s1 : evaluates u e s (Val (Reg v) s1) -> returns u e s (Val (Ret v) s1)
| rt_stop r : evaluates u e s r -> stops r -> returns u e s r.

(** ** Operands *)

(** What a literal stands for.  Text that is not a number does not come from the lexer. *)
Inductive denotes : literal -> value -> Prop :=
| de_nil : denotes LNil VNil
| de_true : denotes LTrue (VBool true)
| de_false : denotes LFalse (VBool false)
| de_int z : denotes (LInt z) (VInt z)
| de_float t f : x_parse_float X t = Some f -> denotes (LFloat t) (VFloat f)
| de_no_float t : x_parse_float X t = None -> denotes (LFloat t) (VFloat S754_nan)
| de_byte c : denotes (LByte c) (VByte c)
| de_string t : denotes (LString t) (VStr t).

(** All expressions are evaluated, in order, each to a value. *)
Inductive all_give (u : uinfo) : list xexpr -> state -> list value -> state -> Prop :=
| ag_none s : all_give u [] s [] s
| ag_next e es s v s1 vs s2 : evaluates u e s (Val (Reg v) s1) -> all_give u es s1 vs s2 ->
    all_give u (e :: es) s (v :: vs) s2.
(** One of them is the first not to give a value; those after it are not evaluated. *)
Inductive one_stops (u : uinfo) : list xexpr -> state -> result -> Prop :=
| os_here e es s r : evaluates u e s r -> stops r -> one_stops u (e :: es) s r
| os_later e es s v s1 r : evaluates u e s (Val (Reg v) s1) -> one_stops u es s1 r ->
    one_stops u (e :: es) s r.
(** The operands first, then [k] with their values *)
Inductive strictly (u : uinfo) (es : list xexpr) (k : list value -> state -> result -> Prop) (s : state)
  : result -> Prop :=
| st_all vs s1 r : all_give u es s vs s1 -> k vs s1 r -> strictly u es k s r
| st_stop r : one_stops u es s r -> strictly u es k s r.

(** [[e1, ..., en]]: a new array with the values *)
Inductive new_array : list value -> state -> result -> Prop :=
| na vs s l s1 : l = length (h_arrs (st_heap s)) ->
    s1 = set_heap s (mkheap (h_cells (st_heap s)) (h_arrs (st_heap s) ++ [vs]) (h_dicts (st_heap s)) (h_iters (st_heap s))) ->
    new_array vs s (Val (Reg (VArr l)) s1).

(** [@[k1: e1, ..., kn: en]]: a new dict with one entry for every name *)
Inductive new_dictionary (ks : list symbol) : list value -> state -> result -> Prop :=
| nd vs s l s1 : l = length (h_dicts (st_heap s)) ->
    s1 = set_heap s (mkheap (h_cells (st_heap s)) (h_arrs (st_heap s))
           (h_dicts (st_heap s) ++ [combine (map VStr ks) vs]) (h_iters (st_heap s))) ->
    new_dictionary ks vs s (Val (Reg (VDict l)) s1).

(** [not], [-] and [?]; [-] of an integer is C18 *)
Inductive unary (op : unary_op) (p : spos) : list value -> state -> result -> Prop :=
| un_not b s : op = UNot -> unary op p [VBool b] s (Val (Reg (VBool (negb b))) s)
| un_not_bad v s : op = UNot -> ~ is_boolean v -> unary op p [v] s (Pan (PTypeError v (bs "bool") p) s)
| un_minus z s : op = UMinus -> unary op p [VInt z] s (Val (Reg (VInt (wrap64 (- z)))) s)
| un_minus_float f s : op = UMinus -> unary op p [VFloat f] s (Val (Reg (VFloat (SFopp f))) s)
| un_minus_bad v s : op = UMinus -> (forall z, v <> VInt z) -> (forall f, v <> VFloat f) ->
    unary op p [v] s (Pan (PTypeError v (bs "int or float") p) s)
| un_try_error d c s : op = UTry -> unary op p [VErr d c] s (Val (Ret (VErr d c)) s)
| un_try v s : op = UTry -> (forall d c, v <> VErr d c) -> unary op p [v] s (Val (Reg v) s).

(** The operators that evaluate both sides.  Arithmetic and comparisons are C17 and C19. *)
Definition lazy (op : binary_op) : bool := match op with BAnd | BOr => true | _ => false end.
Inductive binary (op : binary_op) (p lp rp : spos) : list value -> state -> result -> Prop :=
| bi_concat a b s : op = BConcat -> binary op p lp rp [VStr a; VStr b] s (Val (Reg (VStr (a ++ b))) s)
| bi_concat_left v w s : op = BConcat -> (forall a, v <> VStr a) ->
    binary op p lp rp [v; w] s (Pan (PTypeError v (bs "string") lp) s)
| bi_concat_right a w s : op = BConcat -> (forall b, w <> VStr b) ->
    binary op p lp rp [VStr a; w] s (Pan (PTypeError w (bs "string") rp) s)
| bi_equals n v w b s : op = BEquals -> eqv (st_heap s) n false v w = Known b ->
    binary op p lp rp [v; w] s (Val (Reg (VBool b)) s)
| bi_differs n v w b s : op = BNotEquals -> eqv (st_heap s) n false v w = Known b ->
    binary op p lp rp [v; w] s (Val (Reg (VBool (negb b))) s)
| bi_arithmetic v w s x : arithmetic op = true -> arithmetic_op op p v lp w rp = inl x ->
    binary op p lp rp [v; w] s (Val (Reg x) s)
| bi_arithmetic_panic v w s e : arithmetic op = true -> arithmetic_op op p v lp w rp = inr e ->
    binary op p lp rp [v; w] s (Pan e s)
| bi_order v w s x : match op with BLower | BLowerEquals | BGreater | BGreaterEquals => True | _ => False end ->
    ord_op op v lp w rp = inl x -> binary op p lp rp [v; w] s (Val (Reg x) s)
| bi_order_panic v w s e : match op with BLower | BLowerEquals | BGreater | BGreaterEquals => True | _ => False end ->
    ord_op op v lp w rp = inr e -> binary op p lp rp [v; w] s (Pan e s).

(** Element [z] of a list, counting from zero *)
Inductive element {A} (l : list A) : Z -> A -> Prop :=
| el before x after : l = before ++ x :: after -> element l (Z.of_nat (length before)) x.

(** [obj[field]]; dicts with any keys are C29 *)
Inductive reads_field (op fp : spos) (h : heap) : value -> value -> value + panic -> Prop :=
| rf_array l z v : element (arr_get h l) z v -> reads_field op fp h (VArr l) (VInt z) (inl v)
| rf_array_out l z : (z < 0 \/ Z.of_nat (length (arr_get h l)) <= z)%Z ->
    reads_field op fp h (VArr l) (VInt z) (inr (PIndexOutOfBounds (VInt z) fp))
| rf_string t z c : element t z c -> reads_field op fp h (VStr t) (VInt z) (inl (VByte c))
| rf_string_out t z : (z < 0 \/ Z.of_nat (length t) <= z)%Z ->
    reads_field op fp h (VStr t) (VInt z) (inr (PIndexOutOfBounds (VInt z) fp))
| rf_no_index obj field : match obj with VArr _ | VStr _ => True | _ => False end ->
    (forall z, field <> VInt z) -> reads_field op fp h obj field (inr (PTypeError field (bs "int") fp))
| rf_name l k v : field_of (dict_entries h l) k = Some v -> reads_field op fp h (VDict l) (VStr k) (inl v)
| rf_no_name l k : field_of (dict_entries h l) k = None ->
    reads_field op fp h (VDict l) (VStr k) (inr (PIndexOutOfBounds (VStr k) fp))
| rf_key n l k v : (forall t, k <> VStr t) -> dict_get h n l k = Known (Some v) ->
    reads_field op fp h (VDict l) k (inl v)
| rf_no_key n l k : (forall t, k <> VStr t) -> dict_get h n l k = Known None ->
    reads_field op fp h (VDict l) k (inr (PIndexOutOfBounds k fp))
| rf_description d c : reads_field op fp h (VErr d c) (VStr (bs "description")) (inl (VStr d))
| rf_context d c : reads_field op fp h (VErr d c) (VStr (bs "context")) (inl c)
| rf_no_error_field d c f : f <> VStr (bs "description") -> f <> VStr (bs "context") ->
    reads_field op fp h (VErr d c) f (inr (PIndexOutOfBounds f fp))
| rf_no_object obj f : match obj with VArr _ | VStr _ | VDict _ | VErr _ _ => False | _ => True end ->
    reads_field op fp h obj f (inr (PTypeError obj (bs "string, array, dict or error") op)).
Inductive accesses (op fp : spos) : list value -> state -> result -> Prop :=
| ac_value obj field s v : reads_field op fp (st_heap s) obj field (inl v) ->
    accesses op fp [obj; field] s (Val (Reg v) s)
| ac_panic obj field s e : reads_field op fp (st_heap s) obj field (inr e) ->
    accesses op fp [obj; field] s (Pan e s).

(** [obj[field] = v] *)
Inductive writes_field (op fp p : spos) (v : value) (s : state) : value -> value -> result -> Prop :=
| wf_array l before old after : arr_get (st_heap s) l = before ++ old :: after ->
    writes_field op fp p v s (VArr l) (VInt (Z.of_nat (length before)))
      (Val (Reg VNil) (set_heap s (arr_set (st_heap s) l (before ++ v :: after))))
| wf_array_above l z : (Z.of_nat (length (arr_get (st_heap s) l)) <= z)%Z ->
    writes_field op fp p v s (VArr l) (VInt z) (Pan (PIndexOutOfBounds (VInt z) fp) s)
| wf_array_below l z : (z < 0)%Z ->
    writes_field op fp p v s (VArr l) (VInt z) (Pan (PIndexOutOfBounds (VInt z) p) s)
| wf_no_index l f : (forall z, f <> VInt z) ->
    writes_field op fp p v s (VArr l) f (Pan (PTypeError f (bs "int") fp) s)
| wf_dict n l k d : dict_put (st_heap s) n l k v = Known d ->
    writes_field op fp p v s (VDict l) k (Val (Reg VNil) (set_heap s (dict_set (st_heap s) l d)))
| wf_dict_itself n l k : dict_put (st_heap s) n l k v = Busy ->
    writes_field op fp p v s (VDict l) k (Crash CBorrow)
| wf_error d c f : writes_field op fp p v s (VErr d c) f (Pan (PAssignToReadonlyField f fp) s)
| wf_no_object obj f : match obj with VArr _ | VDict _ | VErr _ _ => False | _ => True end ->
    writes_field op fp p v s obj f (Pan (PTypeError obj (bs "array, dict or error") op) s).

(** [x = e] *)
Inductive sets_variable (u : uinfo) (ix : slot) (e : xexpr) (s : state) : result -> Prop :=
| sv_value v s1 s2 : evaluates u e s (Val (Reg v) s1) -> assigned ix v s1 s2 ->
    sets_variable u ix e s (Val (Reg VNil) s2)
| sv_no_slot v s1 : evaluates u e s (Val (Reg v) s1) -> length (st_stack s1) <= ix ->
    sets_variable u ix e s (Crash CSlot)
| sv_stop r : evaluates u e s r -> stops r -> sets_variable u ix e s r.
(** [o[f] = e]: [e] is evaluated first. *)
Inductive sets_field (u : uinfo) (o f : xexpr) (p : pos) : list value -> state -> result -> Prop :=
| sf v obj field s r :
    writes_field (at_ u (expr_pos o)) (at_ u (expr_pos f)) (at_ u p) v s obj field r ->
    sets_field u o f p [v; obj; field] s r.

(** ** Calls *)

(** The function to call, and the object it is a method of *)
Inductive callee (u : uinfo) : xexpr -> state -> value -> value -> state -> Prop :=
| ca_method o f p s obj field v s1 : all_give u [o; f] s [obj; field] s1 ->
    reads_field (at_ u (expr_pos o)) (at_ u (expr_pos f)) (st_heap s1) obj field (inl v) ->
    callee u (XAccess o f p) s obj v s1
| ca_plain f s v s1 : (forall o x p, f <> XAccess o x p) -> evaluates u f s (Val (Reg v) s1) ->
    callee u f s VNil v s1.

(** The arguments are put behind those of the calls under way. *)
Inductive passes (u : uinfo) : list xexpr -> state -> state -> Prop :=
| pa_none s : passes u [] s s
| pa_next e es s v s1 s2 : evaluates u e s (Val (Reg v) s1) ->
    passes u es (set_args s1 (st_args s1 ++ [v])) s2 -> passes u (e :: es) s s2.
(** One argument does not give a value.  On [return] and [break] those before are taken back. *)
Inductive passing_stops (u : uinfo) (start : nat) : list xexpr -> state -> result -> Prop :=
| pt_flow e es s f s1 : evaluates u e s (Val f s1) -> stops (Val f s1) ->
    passing_stops u start (e :: es) s (Val f (set_args s1 (firstn start (st_args s1))))
| pt_fail e es s r r' : evaluates u e s r -> @fails _ flow flow r r' -> passing_stops u start (e :: es) s r'
| pt_later e es s v s1 r : evaluates u e s (Val (Reg v) s1) ->
    passing_stops u start es (set_args s1 (st_args s1 ++ [v])) r -> passing_stops u start (e :: es) s r.

(** A call expression that does not come to the call *)
Inductive no_call (u : uinfo) (f : xexpr) (args : list xexpr) (s : state) : result -> Prop :=
| nc_argument obj g s1 r : callee u f s obj (VFun g) s1 -> passing_stops u (length (st_args s1)) args s1 r ->
    no_call u f args s r
| nc_no_function obj v s1 : callee u f s obj v s1 -> (forall g, v <> VFun g) ->
    no_call u f args s (Pan (PInvalidCall v (at_ u (expr_pos f))) s1)
| nc_stop r : evaluates u f s r -> stops r -> no_call u f args s r.
Inductive call_expression (u : uinfo) (f : xexpr) (args : list xexpr) (p : pos) (s : state) : result -> Prop :=
| cx_value obj g s1 s2 v s3 : callee u f s obj (VFun g) s1 -> passes u args s1 s2 ->
    calls obj g (length (st_args s1)) (at_ u p) s2 (Val v s3) -> call_expression u f args p s (Val (Reg v) s3)
| cx_fail obj g s1 s2 o r : callee u f s obj (VFun g) s1 -> passes u args s1 s2 ->
    calls obj g (length (st_args s1)) (at_ u p) s2 o -> fails o r -> call_expression u f args p s r
| cx_none r : no_call u f args s r -> call_expression u f args p s r.

(** *** Functions of the language *)

(** Parameters, captured variables and [self] have slots of their own. *)
Record tidy (params : nat) (fi : frame_info) (context : list (loc * slot)) : Prop := mktidy {
  ty_params : params <= fi_slots fi;
  ty_captured : forall ix, In ix (map snd context) -> params <= ix < fi_slots fi;
  ty_once : NoDup (map snd context);
  ty_self : forall ix, fi_self fi = Some ix -> params <= ix < fi_slots fi /\ ~ In ix (map snd context) }.

(** The variable shared under slot [i] *)
Fixpoint shared_as (context : list (loc * slot)) (i : slot) : option loc :=
  match context with
  | [] => None
  | (c, ix) :: context' => if Nat.eqb i ix then Some c else shared_as context' i
  end.
(** The variables of a new activation: parameters first; variables of its own are numbered from
    [first] and hold nil. *)
Definition own_variable (first : nat) (args : list value) (obj : value) (fi : frame_info)
  (context : list (loc * slot)) (i : nat) : vslot :=
  match shared_as context i with
  | Some c => Closed c
  | None =>
      Regular (first + i)
        (match fi_self fi with
         | Some ix => if Nat.eqb i ix then obj else nth i args VNil
         | None => nth i args VNil
         end)
  end.
Definition entered (obj : value) (fi : frame_info) (context : list (loc * slot)) (start : nat) (s : state) : state :=
  mkstate
    (map (own_variable (length (h_cells (st_heap s))) (skipn start (st_args s)) obj fi context) (seq 0 (fi_slots fi))
       ++ st_stack s)
    (firstn start (st_args s))
    (mkheap (h_cells (st_heap s) ++ repeat VNil (fi_slots fi)) (h_arrs (st_heap s)) (h_dicts (st_heap s))
       (h_iters (st_heap s)))
    (st_modules s) (st_units s) (st_leaked s) (st_world s).

(** Its variables are dropped. *)
Definition dropped (slots : nat) (s : state) : state := set_stack s (skipn slots (st_stack s)).
Definition leave (slots : nat) (r : result) : result :=
  match r with
  | Val f s => Val f (dropped slots s)
  | Pan p s => Pan p (dropped slots s)
  | r => r
  end.

(** The body of a function.  When the last statement is a call, or returns a call, the variables
    are dropped before the call; otherwise at the end. *)
Definition in_tail (st : xstatement) : option (xexpr * list xexpr * pos * bool) :=
  match st with
  | XExpr (XCall f args p) => Some (f, args, p, false)
  | XReturn (XCall f args p) => Some (f, args, p, true)
  | _ => None
  end.
Definition given (returned : bool) (v : value) : flow := if returned then Ret v else Reg v.
Inductive body_runs (u : uinfo) (slots : nat) : list xstatement -> state -> result -> Prop :=
| bo_none s : body_runs u slots [] s (Val (Reg VNil) (dropped slots s))
| bo_last st s r : in_tail st = None -> executes u st s r -> body_runs u slots [st] s (leave slots r)
| bo_next st b s v s1 r : b <> [] -> executes u st s (Val (Reg v) s1) -> body_runs u slots b s1 r ->
    body_runs u slots (st :: b) s r
| bo_stop st b s r : b <> [] -> executes u st s r -> stops r -> body_runs u slots (st :: b) s (leave slots r)
| bo_call st f args p k s obj g s1 s2 v s3 : in_tail st = Some (f, args, p, k) ->
    callee u f s obj (VFun g) s1 -> passes u args s1 s2 ->
    calls obj g (length (st_args s1)) (at_ u p) (dropped slots s2) (Val v s3) ->
    body_runs u slots [st] s (Val (given k v) s3)
| bo_call_fails st f args p k s obj g s1 s2 o r : in_tail st = Some (f, args, p, k) ->
    callee u f s obj (VFun g) s1 -> passes u args s1 s2 ->
    calls obj g (length (st_args s1)) (at_ u p) (dropped slots s2) o -> fails o r ->
    body_runs u slots [st] s r
| bo_no_call st f args p k s r : in_tail st = Some (f, args, p, k) ->
    no_call u f args s r -> body_runs u slots [st] s (leave slots r).

(** [p] is the place of the call; the body is evaluated in the source of the function. *)
Inductive function_call (obj : value) (unit params : nat) (fi : frame_info) (body : list xstatement)
  (context : list (loc * slot)) (fp : spos) (start : nat) (p : spos) (s : state) : outcome state value -> Prop :=
| fc_arity : length (skipn start (st_args s)) <> params ->
    function_call obj unit params fi body context fp start p s
      (Pan (PInvalidArgs (length (skipn start (st_args s))) params p) (set_args s (firstn start (st_args s))))
| fc_overflow max : length (skipn start (st_args s)) = params ->
    x_stack_size X = Some max -> max < length (st_stack s) + fi_slots fi ->
    function_call obj unit params fi body context fp start p s
      (Pan (PStackOverflow p) (set_args s (firstn start (st_args s))))
| fc_value f v s1 : length (skipn start (st_args s)) = params ->
    (forall max, x_stack_size X = Some max -> length (st_stack s) + fi_slots fi <= max) ->
    body_runs (mkuinfo unit (sp_path fp)) (fi_slots fi) body (entered obj fi context start s) (Val f s1) ->
    f = Reg v \/ f = Ret v ->
    function_call obj unit params fi body context fp start p s (Val v s1)
| fc_fail o r : length (skipn start (st_args s)) = params ->
    (forall max, x_stack_size X = Some max -> length (st_stack s) + fi_slots fi <= max) ->
    body_runs (mkuinfo unit (sp_path fp)) (fi_slots fi) body (entered obj fi context start s) o -> fails o r ->
    function_call obj unit params fi body context fp start p s r
| fc_break s1 : length (skipn start (st_args s)) = params ->
    (forall max, x_stack_size X = Some max -> length (st_stack s) + fi_slots fi <= max) ->
    body_runs (mkuinfo unit (sp_path fp)) (fi_slots fi) body (entered obj fi context start s) (Val Brk s1) ->
    function_call obj unit params fi body context fp start p s (Crash CFlow).

(** *** Functions of the library that call or load code *)

(** The arguments of the call are removed at the end. *)
Definition without_args (start : nat) (s : state) : state := set_args s (firstn start (st_args s)).

(** [std.catch(g)] *)
Inductive caught (start : nat) (p : spos) (s : state) : list value -> outcome state value -> Prop :=
| cg_value g v s1 : calls VNil g (start + 1) p s (Val v s1) -> caught start p s [VFun g] (Val v (without_args start s1))
| cg_panic g e s1 t : calls VNil g (start + 1) p s (Pan e s1) -> message X (st_heap s1) e t ->
    caught start p s [VFun g] (Val (VErr (bs "caught panic: " ++ t) (VStr (bs "panic"))) (without_args start s1))
| cg_exit g c s1 : calls VNil g (start + 1) p s (Exit c s1) -> caught start p s [VFun g] (Exit c s1)
| cg_crash g c : calls VNil g (start + 1) p s (Crash c) -> caught start p s [VFun g] (Crash c)
| cg_type v : (forall g, v <> VFun g) ->
    caught start p s [v] (Pan (PTypeError v (bs "function") p) (without_args start s))
| cg_arity args : length args <> 1 -> caught start p s args (Pan (PInvalidArgs (length args) 1 p) (without_args start s)).

(** A function made by [std.bind(obj, g)]: [g] with the same arguments and [obj] as [self] *)
Inductive rebound (obj : value) (g : func) (start : nat) (p : spos) (s : state) : outcome state value -> Prop :=
| rb_value v s1 : calls obj g start p s (Val v s1) -> rebound obj g start p s (Val v (without_args start s1))
| rb_panic e s1 : calls obj g start p s (Pan e s1) -> rebound obj g start p s (Pan e (without_args start s1))
| rb_exit c s1 : calls obj g start p s (Exit c s1) -> rebound obj g start p s (Exit c s1)
| rb_crash c : calls obj g start p s (Crash c) -> rebound obj g start p s (Crash c).

(** *** Function values *)

(** The variables named are shared from now on; [context] tells under which slots the function
    will see them. *)
Inductive shares : list Program.capture -> state -> list (loc * slot) -> state -> Prop :=
| sh_none s : shares [] s [] s
| sh_already k l s c context s1 : nth_error (st_stack s) (cap_from k) = Some (Closed c) ->
    shares l s context s1 -> shares (k :: l) s ((c, cap_to k) :: context) s1
| sh_now k l s before id v after context s1 : st_stack s = before ++ Regular id v :: after ->
    length before = cap_from k ->
    shares l
      (mkstate (before ++ Closed id :: after) (st_args s)
         (mkheap (list_set (h_cells (st_heap s)) id v) (h_arrs (st_heap s)) (h_dicts (st_heap s)) (h_iters (st_heap s)))
         (st_modules s) (st_units s) (st_leaked s) (st_world s)) context s1 ->
    shares (k :: l) s ((id, cap_to k) :: context) s1.

(** [function (..) .. end] evaluated in the source [u] *)
Inductive makes_function (u : uinfo) (params : nat) (fi : frame_info) (body : list xstatement) (p : pos) (s : state)
  : result -> Prop :=
| mf_value context s1 : shares (fi_captures fi) s context s1 ->
    makes_function u params fi body p s
      (Val (Reg (VFun (FHush (u_number u) params fi body context (at_ u p)))) s1)
| mf_no_slot k : In k (fi_captures fi) -> length (st_stack s) <= cap_from k ->
    makes_function u params fi body p s (Crash CSlot).

(** *** Programs *)

(** The variables of a program hold nil, but for [std] in the first. *)
Definition started (prog : program) (s : state) : state :=
  mkstate
    (map (fun i => Regular (length (h_cells (st_heap s)) + i) (if Nat.eqb i 0 then std_value else VNil))
       (seq 0 (pr_root_slots prog)) ++ st_stack s)
    (st_args s)
    (mkheap (h_cells (st_heap s) ++ repeat VNil (pr_root_slots prog)) (h_arrs (st_heap s)) (h_dicts (st_heap s))
       (h_iters (st_heap s)))
    (st_modules s) (st_units s) (st_leaked s) (st_world s).
Definition fits (n : nat) (s : state) : Prop :=
  forall max, x_stack_size X = Some max -> length (st_stack s) + n <= max.
Inductive program_runs (u : uinfo) (prog : program) (s : state) : outcome state value -> Prop :=
| pg_value v s1 : fits (pr_root_slots prog) s -> sequence u (pr_statements prog) (started prog s) (Val (Reg v) s1) ->
    program_runs u prog s (Val v (dropped (pr_root_slots prog) s1))
| pg_fail o r : fits (pr_root_slots prog) s -> sequence u (pr_statements prog) (started prog s) o -> fails o r ->
    program_runs u prog s r
| pg_flow f s1 : fits (pr_root_slots prog) s -> sequence u (pr_statements prog) (started prog s) (Val f s1) ->
    (forall v, f <> Reg v) -> program_runs u prog s (Crash CFlow)
| pg_overflow : ~ fits (pr_root_slots prog) s -> program_runs u prog s (Pan (PStackOverflow (at_ u (mkpos 0 0))) s).

(** [std.import(target)], [p] the place of the call.  A file whose value is known is not looked at
    again. *)
Inductive known (path : bytes) (v : value) : list (bytes * value) -> Prop :=
| kn_here l : known path v ((path, v) :: l)
| kn_later k w l : k <> path -> known path v l -> known path v ((k, w) :: l).
Definition with_module (path : bytes) (v : value) (s : state) : state :=
  mkstate (st_stack s) (st_args s) (st_heap s) ((path, v) :: st_modules s) (st_units s) (st_leaked s) (st_world s).
Definition next_unit (s : state) : state :=
  mkstate (st_stack s) (st_args s) (st_heap s) (st_modules s) (S (st_units s)) (st_leaked s) (st_world s).
Definition left_open (s : state) : state :=
  mkstate (st_stack s) (st_args s) (st_heap s) (st_modules s) (st_units s) true (st_world s).
Inductive imported (start : nat) (p : spos) (s : state) : list value -> outcome state value -> Prop :=
| im_known t path v : x_resolve X t (sp_path p) (st_world s) = inr path -> known path v (st_modules s) ->
    imported start p s [VStr t] (Val v (without_args start s))
| im_value t path text b prog v s1 : x_resolve X t (sp_path p) (st_world s) = inr path ->
    (forall w, ~ known path w (st_modules s)) -> x_file X path (st_world s) = inr text ->
    analyze text = Analysis b [] [] -> sema b = SemaOk prog ->
    program_runs (mkuinfo (st_units s) path) prog (next_unit s) (Val v s1) ->
    imported start p s [VStr t] (Val v (without_args start (with_module path v s1)))
| im_panic t path text b prog e s1 : x_resolve X t (sp_path p) (st_world s) = inr path ->
    (forall w, ~ known path w (st_modules s)) -> x_file X path (st_world s) = inr text ->
    analyze text = Analysis b [] [] -> sema b = SemaOk prog ->
    program_runs (mkuinfo (st_units s) path) prog (next_unit s) (Pan e s1) ->
    imported start p s [VStr t] (Pan e (without_args start (left_open s1)))
| im_exit t path text b prog c s1 : x_resolve X t (sp_path p) (st_world s) = inr path ->
    (forall w, ~ known path w (st_modules s)) -> x_file X path (st_world s) = inr text ->
    analyze text = Analysis b [] [] -> sema b = SemaOk prog ->
    program_runs (mkuinfo (st_units s) path) prog (next_unit s) (Exit c s1) ->
    imported start p s [VStr t] (Exit c s1)
| im_crash t path text b prog c : x_resolve X t (sp_path p) (st_world s) = inr path ->
    (forall w, ~ known path w (st_modules s)) -> x_file X path (st_world s) = inr text ->
    analyze text = Analysis b [] [] -> sema b = SemaOk prog ->
    program_runs (mkuinfo (st_units s) path) prog (next_unit s) (Crash c) ->
    imported start p s [VStr t] (Crash c)
| im_no_path t e : x_resolve X t (sp_path p) (st_world s) = inl e ->
    imported start p s [VStr t] (Pan (PIo e p) (without_args start s))
| im_no_file t path e : x_resolve X t (sp_path p) (st_world s) = inr path ->
    (forall w, ~ known path w (st_modules s)) -> x_file X path (st_world s) = inl e ->
    imported start p s [VStr t] (Pan (PIo e p) (without_args start s))
| im_syntax t path text b es es' : x_resolve X t (sp_path p) (st_world s) = inr path ->
    (forall w, ~ known path w (st_modules s)) -> x_file X path (st_world s) = inr text ->
    analyze text = Analysis b es es' -> es <> [] \/ es' <> [] ->
    imported start p s [VStr t] (Pan (PImportFailed path p) (without_args start s))
| im_static t path text b es : x_resolve X t (sp_path p) (st_world s) = inr path ->
    (forall w, ~ known path w (st_modules s)) -> x_file X path (st_world s) = inr text ->
    analyze text = Analysis b [] [] -> sema b = SemaErrors es ->
    imported start p s [VStr t] (Pan (PImportFailed path p) (without_args start s))
| im_bad_text t path text : x_resolve X t (sp_path p) (st_world s) = inr path ->
    (forall w, ~ known path w (st_modules s)) -> x_file X path (st_world s) = inr text ->
    analyze text = AnalysisCrash -> imported start p s [VStr t] (Crash CLexer)
| im_type v : (forall t, v <> VStr t) ->
    imported start p s [v] (Pan (PTypeError v (bs "string") p) (without_args start s))
| im_arity args : length args <> 1 -> imported start p s args (Pan (PInvalidArgs (length args) 1 p) (without_args start s)).
End Rules.
