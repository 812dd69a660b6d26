(** Properties of what the operators take, compute and refuse: C85 to C87. *)
From Coq Require Import Strings.String Lia SpecFloat.
From Verif Require Import Base Lexer Ast Program Value StdLib Exec Runtime Demo SpecSig SpecRuntime SpecOps OpsProofs.

(** C85.  A wrong operand is refused: the panic has the operand, what it should have been, and its
    place.  The right operand is evaluated before the left one is refused, except by [and] and [or]. *)
Theorem C85_left : forall {W} (X : ext W) (O : os W) n u l op r p s a b s1 s2, logical op = false ->
  gives X O n u l s a s1 -> gives X O n u r s1 b s2 -> ~ fits (left_kind op) a ->
  panics X O (S n) u (XBinary l op r p) s (PTypeError a (k_name (left_kind op)) (at_ u (spot l))) s2.
Proof. exact @refused_left. Qed.
Print Assumptions C85_left.

Theorem C85_left_logical : forall {W} (X : ext W) (O : os W) n u l op r p s a s1, logical op = true ->
  gives X O n u l s a s1 -> ~ fits (left_kind op) a ->
  panics X O (S n) u (XBinary l op r p) s (PTypeError a (k_name (left_kind op)) (at_ u (spot l))) s1.
Proof. exact @refused_left_logical. Qed.
Print Assumptions C85_left_logical.

Theorem C85_right : forall {W} (X : ext W) (O : os W) n u l op r p s a b s1 s2,
  gives X O n u l s a s1 -> fits (left_kind op) a -> ~ decides op a -> gives X O n u r s1 b s2 -> ~ fits (right_kind op a) b ->
  panics X O (S n) u (XBinary l op r p) s (PTypeError b (k_name (right_kind op a)) (at_ u (spot r))) s2.
Proof. exact @refused_right. Qed.
Print Assumptions C85_right.

Theorem C85_unary : forall {W} (X : ext W) (O : os W) n u op e p s v s1, gives X O n u e s v s1 -> ~ fits (operand_kind op) v ->
  panics X O (S n) u (XUnary op e p) s (PTypeError v (k_name (operand_kind op)) (at_ u (spot e))) s1.
Proof. exact @refused_unary. Qed.
Print Assumptions C85_unary.

(** Operands that fit are not refused.  Only the arithmetic of integers can then panic. *)
Theorem C85_accepted : forall {W} (X : ext W) (O : os W) n u l op r p s a b s1 s2 q s3,
  gives X O n u l s a s1 -> gives X O n u r s1 b s2 -> fits (left_kind op) a -> fits (right_kind op a) b ->
  panics X O (S n) u (XBinary l op r p) s q s3 ->
  arithmetic op = true /\ (exists x y, a = VInt x /\ b = VInt y) /\ (q = PIntegerOverflow (at_ u p) \/ q = PDivisionByZero (at_ u p)).
Proof. exact @accepted. Qed.
Print Assumptions C85_accepted.

Definition at_column (c : N) : spos := mkspos (bs "main"%string) (mkpos 1 c).
Example C85_case :
  ~ fits (left_kind BPlus) VNil /\ fits (left_kind BLower) (VByte x61) /\ ~ fits (right_kind BLower (VByte x61)) (VStr []) /\
  demo 60 (bs "nil + std.print(""x"")"%string) = Some (bs "x"%string, inr (PTypeError VNil (bs "int or float"%string) (at_column 0))) /\
  demo 60 (bs "nil and std.print(""x"")"%string) = Some ([], inr (PTypeError VNil (bs "bool"%string) (at_column 0))) /\
  demo 60 (bs "'a' < ""b"""%string) = Some ([], inr (PTypeError (VStr (bs "b"%string)) (bs "char"%string) (at_column 6))) /\
  demo 60 (bs "1 + std.float(1)"%string) = Some ([], inr (PTypeError (VFloat (S754_finite false 4503599627370496 (-52))) (bs "int"%string) (at_column 13))) /\
  demo 60 (bs "let x = not 1"%string) = Some ([], inr (PTypeError (VInt 1) (bs "bool"%string) (at_column 12))).
Proof. split; [discriminate|]. split; [reflexivity|]. split; [discriminate|]. repeat split; vm_compute; reflexivity. Qed.

(** C86.  Comparisons say what the order says, [++] joins, and the arithmetic of floats is that of
    IEEE 754; the remainder is exact. *)
Theorem C86_order : forall {W} (X : ext W) (O : os W) n u l op r p s a b s1 s2 x, order op = true -> comparable a b ->
  gives X O n u l s a s1 -> gives X O n u r s1 b s2 -> (x = true <-> says op a b) ->
  gives X O (S n) u (XBinary l op r p) s (VBool x) s2.
Proof. exact @order_result. Qed.
Print Assumptions C86_order.

Theorem C86_concat : forall {W} (X : ext W) (O : os W) n u l r p s a b s1 s2,
  gives X O n u l s (VStr a) s1 -> gives X O n u r s1 (VStr b) s2 -> gives X O (S n) u (XBinary l BConcat r p) s (VStr (a ++ b)) s2.
Proof. exact @concat_result. Qed.
Print Assumptions C86_concat.

Theorem C86_floats : forall {W} (X : ext W) (O : os W) n u l op r p s x y z s1 s2, ieee op x y z ->
  gives X O n u l s (VFloat x) s1 -> gives X O n u r s1 (VFloat y) s2 -> gives X O (S n) u (XBinary l op r p) s (VFloat z) s2.
Proof. exact @float_result. Qed.
Print Assumptions C86_floats.

Theorem C86_remainder : forall {W} (X : ext W) (O : os W) n u l r p s x y s1 s2,
  valid_binary 53 1024 x = true -> valid_binary 53 1024 y = true ->
  gives X O n u l s (VFloat x) s1 -> gives X O n u r s1 (VFloat y) s2 ->
  exists z, gives X O (S n) u (XBinary l BMod r p) s (VFloat z) s2 /\ remainder x y z.
Proof. exact @float_remainder. Qed.
Print Assumptions C86_remainder.

Theorem C86_minus : forall {W} (X : ext W) (O : os W) n u e p s x s1,
  gives X O n u e s (VFloat x) s1 -> gives X O (S n) u (XUnary UMinus e p) s (VFloat (SFopp x)) s1.
Proof. exact @unary_float. Qed.
Print Assumptions C86_minus.

Theorem C86_not : forall {W} (X : ext W) (O : os W) n u e p s b s1,
  gives X O n u e s (VBool b) s1 -> gives X O (S n) u (XUnary UNot e p) s (VBool (negb b)) s1.
Proof. exact @unary_not. Qed.
Print Assumptions C86_not.

Example C86_case :
  says BLower (VStr (bs "ab"%string)) (VStr (bs "abc"%string)) /\ says BLower (VStr (bs "abz"%string)) (VStr (bs "ac"%string)) /\
  says BGreaterEquals (VInt 2) (VInt 2) /\
  demo 60 (bs "[""ab"" < ""abc"", ""abz"" < ""ac"", 2 >= 2, -1 > 1, ""x"" ++ ""y""][3]"%string) = Some ([], inl (VBool false)) /\
  valid_binary 53 1024 (S754_finite true 7881299347898368 (-50)) = true /\
  demo 60 (bs "std.float(0 - 7) % std.float(2)"%string) = Some ([], inl (VFloat (S754_finite true 4503599627370496 (-52)))) /\
  demo 60 (bs "std.float(1) / std.float(2)"%string) = Some ([], inl (VFloat (S754_finite false 4503599627370496 (-53)))).
Proof.
  split; [apply (lo_shorter (bs "ab"%string) x63 [])|]. split; [apply (lo_differs (bs "a"%string) x62 (bs "z"%string) x63 []); reflexivity|].
  split; [intros H; inversion H; lia|]. repeat split; vm_compute; reflexivity.
Qed.

(** C87.  The reason of a panic in the arithmetic of integers is the true one, but for one
    quotient. *)
Theorem C87_reason_partial : forall {W} (X : ext W) (O : os W) n u l op r p s a b s1 s2 q,
  arithmetic op = true -> ~ (op = BDiv /\ a = i64_min /\ b = (-1)%Z) -> in_i64 a = true -> in_i64 b = true ->
  gives X O n u l s (VInt a) s1 -> gives X O n u r s1 (VInt b) s2 -> reason (at_ u p) op a b q ->
  panics X O (S n) u (XBinary l op r p) s q s2.
Proof. exact @reasons. Qed.
Print Assumptions C87_reason_partial.

(** The quotient of the smallest integer and -1 is too large, but a division by zero is reported. *)
Theorem C87_quotient_refuted : exists n u l r p s a b s1 s2 q q',
  in_i64 a = true /\ in_i64 b = true /\
  gives demo_ext demo_os n u l s (VInt a) s1 /\ gives demo_ext demo_os n u r s1 (VInt b) s2 /\
  reason (at_ u p) BDiv a b q /\ panics demo_ext demo_os (S n) u (XBinary l BDiv r p) s q' s2 /\ q <> q'.
Proof.
  pose (here := mkuinfo 0 (bs "main"%string)). pose (zero := mkpos 1 1). pose (s := initial [] [] : state bytes).
  exists 1, here, (XLit (LInt i64_min) zero), (XLit (LInt (-1)) zero), zero, s, i64_min, (-1)%Z, s, s, (PIntegerOverflow (at_ here zero)), (PDivisionByZero (at_ here zero)).
  split; [reflexivity|]. split; [reflexivity|]. split; [do 2 eexists; reflexivity|]. split; [do 2 eexists; reflexivity|].
  split; [apply (rs_overflow _ _ _ _ (- i64_min)); [apply (ex_div _ _ _ 0); vm_compute; congruence|reflexivity]|].
  split; [reflexivity|discriminate].
Qed.
Print Assumptions C87_quotient_refuted.

Example C87_case :
  reason (at_column 20) BPlus 9223372036854775807 1 (PIntegerOverflow (at_column 20)) /\
  demo 30 (bs "9223372036854775807 + 1"%string) = Some ([], inr (PIntegerOverflow (at_column 20))) /\
  demo 30 (bs "1 % 0"%string) = Some ([], inr (PDivisionByZero (at_column 2))).
Proof. split; [apply (rs_overflow _ _ _ _ 9223372036854775808); [apply ex_plus|reflexivity]|]. split; vm_compute; reflexivity. Qed.
