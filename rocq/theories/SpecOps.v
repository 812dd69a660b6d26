(** Specifications of what the operators take, compute and refuse. *)
From Coq Require Import Strings.String SpecFloat.
From Verif Require Import Base Lexer Ast Program Value StdLib Exec Runtime SpecSig SpecRuntime.

(** The place of an expression in its source *)
Definition spot (e : xexpr) : pos :=
  match e with
  | XIdent _ p | XLit _ p | XFieldName _ p | XArray _ p | XDict _ p | XFunction _ _ _ p | XUnary _ _ p
  | XBinary _ _ _ p | XIf _ _ _ p | XAccess _ _ p | XCall _ _ p | XCommand _ p => p
  end.

(** ** Operands *)

Definition a_float : kind := mkkind (fun v => match v with VFloat _ => true | _ => false end) (bs "float").
Definition ordered : kind :=
  mkkind (fun v => match v with VInt _ | VFloat _ | VByte _ | VStr _ => true | _ => false end) (bs "int, float, byte or string").
Definition fits (k : kind) (v : value) : Prop := k_fits k v = true.

Definition order (op : binary_op) : bool :=
  match op with BLower | BLowerEquals | BGreater | BGreaterEquals => true | _ => false end.

(** What an operator takes on its left, and on its right beside the left operand [v] *)
Definition left_kind (op : binary_op) : kind :=
  match op with
  | BPlus | BMinus | BTimes | BDiv | BMod => a_number
  | BLower | BLowerEquals | BGreater | BGreaterEquals => ordered
  | BConcat => a_string
  | BAnd | BOr => a_bool
  | BEquals | BNotEquals => any_value
  end.
Definition right_kind (op : binary_op) (v : value) : kind :=
  match op with
  | BConcat => a_string
  | BAnd | BOr => a_bool
  | BEquals | BNotEquals => any_value
  | _ => match v with VInt _ => an_int | VFloat _ => a_float | VByte _ => a_char | _ => a_string end
  end.
Definition operand_kind (op : unary_op) : kind :=
  match op with UMinus => a_number | UNot => a_bool | UTry => any_value end.

(** [and] and [or] look at their right operand only if the left one does not decide. *)
Definition decides (op : binary_op) (v : value) : Prop :=
  (op = BAnd /\ v = VBool false) \/ (op = BOr /\ v = VBool true).
Definition logical (op : binary_op) : bool := match op with BAnd | BOr => true | _ => false end.

(** ** Results *)

(** The order of values.  Strings are in the order of dictionaries.  Floats are ordered as IEEE 754
    says; what is not a number is lower than everything. *)
Inductive lower : value -> value -> Prop :=
| lo_int a b : (a < b)%Z -> lower (VInt a) (VInt b)
| lo_byte a b : (Byte.to_N a < Byte.to_N b)%N -> lower (VByte a) (VByte b)
| lo_shorter a c r : lower (VStr a) (VStr (a ++ c :: r))
| lo_differs a x r y r' : (Byte.to_N x < Byte.to_N y)%N -> lower (VStr (a ++ x :: r)) (VStr (a ++ y :: r'))
| lo_float x y : SFltb x y = true -> lower (VFloat x) (VFloat y)
| lo_nan y : lower (VFloat S754_nan) (VFloat y).

(** What the operators of the order say.  (That a value that is not a number is lower than itself
    is the finding of C19; it is not greater than itself.) *)
Definition says (op : binary_op) (a b : value) : Prop :=
  match op with
  | BLower => lower a b
  | BLowerEquals => ~ (lower b a /\ ~ lower a b)
  | BGreater => lower b a /\ ~ lower a b
  | BGreaterEquals => ~ lower a b
  | _ => False
  end.

(** The operations of IEEE 754 with 64 bits, rounding to nearest *)
Inductive ieee : binary_op -> spec_float -> spec_float -> spec_float -> Prop :=
| ie_plus x y : ieee BPlus x y (SFadd 53 1024 x y)
| ie_minus x y : ieee BMinus x y (SFsub 53 1024 x y)
| ie_times x y : ieee BTimes x y (SFmul 53 1024 x y)
| ie_div x y : ieee BDiv x y (SFdiv 53 1024 x y).

(** The float with sign [s] and the absolute value [k * 2^e] *)
Inductive has_value (s : bool) (k e : Z) : spec_float -> Prop :=
| hv_zero : k = 0%Z -> has_value s k e (S754_zero s)
| hv_finite m e' : (e' <= e)%Z -> Z.pos m = (k * 2 ^ (e - e'))%Z -> has_value s k e (S754_finite s m e').

(** The remainder of floats: exact, with the sign of the dividend *)
Inductive remainder : spec_float -> spec_float -> spec_float -> Prop :=
| re_nan_left y : remainder S754_nan y S754_nan
| re_nan_right x : remainder x S754_nan S754_nan
| re_infinity s y : remainder (S754_infinity s) y S754_nan
| re_by_zero x s : remainder x (S754_zero s) S754_nan
| re_zero s s' : remainder (S754_zero s) (S754_infinity s') (S754_zero s)
| re_zero_finite s s' m e : remainder (S754_zero s) (S754_finite s' m e) (S754_zero s)
| re_by_infinity s m e s' : remainder (S754_finite s m e) (S754_infinity s') (S754_finite s m e)
| re_finite s m e s' m' e' unit a b q k r :
    (* both as multiples of one power of two *)
    (unit <= e)%Z -> (unit <= e')%Z -> a = (Z.pos m * 2 ^ (e - unit))%Z -> b = (Z.pos m' * 2 ^ (e' - unit))%Z ->
    (0 <= q)%Z -> (0 <= k < b)%Z -> a = (q * b + k)%Z -> has_value s k unit r ->
    remainder (S754_finite s m e) (S754_finite s' m' e') r.

(** ** Integers out of range *)
Inductive reason (p : spos) : binary_op -> Z -> Z -> panic -> Prop :=
| rs_overflow op a b z : exact op a b z -> in_i64 z = false -> reason p op a b (PIntegerOverflow p)
| rs_division op a : op = BDiv \/ op = BMod -> reason p op a 0 (PDivisionByZero p).
