(** Proofs about what the operators take, compute and refuse. *)
From Coq Require Import Strings.String Lia SpecFloat.
From Verif Require Import Base Lexer Ast Program Value Text StdLib Exec Runtime SpecText TextProofs SpecLib LibProofs SpecOrder OrderProofs
  DataProofs SpecSig ConvProofs SpecRuntime OperatorProofs SpecOps.

Local Open Scope Z_scope.

Section Ops.
Context {W : Type} (X : ext W) (O : os W).

(** ** The place of an operand *)
Lemma bind_val {A B} (m : M A) (k : A -> M B) s (b : B) (s' : state W) : bind m k s = Val b s' -> exists a s1, m s = Val a s1 /\ k a s1 = Val b s'.
Proof. unfold bind. destruct (m s) eqn:E; try discriminate. eauto. Qed.
Lemma expr_spot n u e s f p o s' : ev_expr (interp X O n) u e s = Val (f, p, o) s' -> p = at_ u (spot e).
Proof.
  destruct n as [|n]; [discriminate|].
  change (ev_expr (interp X O (S n)) u e) with (eval_expr X O (interp X O n) n u e).
  destruct e; cbn [eval_expr spot]; intros H;
    try (apply bind_val in H; destruct H as (a & s1 & _ & H); cbv [ret] in H; now inversion H).
  apply bind_val in H. destruct H as (((fo & op) & oo) & s1 & _ & H).
  destruct fo; try (cbv [ret] in H; now inversion H).
  apply bind_val in H. destruct H as (((ff & fp) & of) & s2 & _ & H).
  destruct ff; try (cbv [ret] in H; now inversion H).
  apply bind_val in H. destruct H as (v1 & s3 & _ & H). cbv [ret] in H. now inversion H.
Qed.
Lemma gives_at n u e s v s' : gives X O n u e s v s' -> exists o, ev_expr (interp X O n) u e s = Val (Reg v, at_ u (spot e), o) s'.
Proof. intros (p & o & H). pose proof (expr_spot _ _ _ _ _ _ _ _ H). subst. eauto. Qed.

(** ** Refusals *)
Lemma refused_left n u l op r p s a b s1 s2 : logical op = false ->
  gives X O n u l s a s1 -> gives X O n u r s1 b s2 -> ~ fits (left_kind op) a ->
  panics X O (S n) u (XBinary l op r p) s (PTypeError a (k_name (left_kind op)) (at_ u (spot l))) s2.
Proof.
  intros Lo L R N. destruct (gives_at _ _ _ _ _ _ L) as [lo L'], (gives_at _ _ _ _ _ _ R) as [ro R'].
  unfold panics. rewrite (binary_both X O n u l op r p s a b s1 s2 _ _ _ _) by (first [exact L' | exact R' | now intros ->]).
  unfold fits in N. destruct op; try discriminate; cbn [left_kind k_fits k_name a_number ordered a_string any_value] in N |- *;
    try (now destruct N); destruct a; try (now destruct N); reflexivity.
Qed.
Lemma refused_left_logical n u l op r p s a s1 : logical op = true -> gives X O n u l s a s1 -> ~ fits (left_kind op) a ->
  panics X O (S n) u (XBinary l op r p) s (PTypeError a (k_name (left_kind op)) (at_ u (spot l))) s1.
Proof.
  intros Lo L N. destruct (gives_at _ _ _ _ _ _ L) as [lo L']. unfold panics. rewrite binary_unfold. unfold eval_binary, bind. rewrite L'.
  unfold fits in N. destruct op; try discriminate; cbn [left_kind k_fits k_name a_bool] in N |- *; destruct a; try (now destruct N); reflexivity.
Qed.
Lemma refused_right n u l op r p s a b s1 s2 :
  gives X O n u l s a s1 -> fits (left_kind op) a -> ~ decides op a -> gives X O n u r s1 b s2 -> ~ fits (right_kind op a) b ->
  panics X O (S n) u (XBinary l op r p) s (PTypeError b (k_name (right_kind op a)) (at_ u (spot r))) s2.
Proof.
  intros L F D R N. destruct (gives_at _ _ _ _ _ _ L) as [lo L'], (gives_at _ _ _ _ _ _ R) as [ro R']. unfold panics, fits in *.
  destruct (logical op) eqn:Lo.
  - rewrite binary_unfold. unfold eval_binary, bind. rewrite L'. unfold decides in D.
    destruct op; try discriminate; cbn [left_kind right_kind k_fits k_name a_bool] in *; destruct a as [|[]| | | | | | | |]; try discriminate;
      try (exfalso; apply D; tauto); rewrite R'; destruct b; try (now destruct N); reflexivity.
  - rewrite (binary_both X O n u l op r p s a b s1 s2 _ _ _ _) by (first [exact L' | exact R' | now intros ->]).
    destruct op; try discriminate; cbn [left_kind right_kind k_fits k_name a_number ordered a_string any_value] in *;
      try (now destruct N); destruct a; try discriminate; cbn [k_fits k_name an_int a_float a_char a_string] in *;
      destruct b; try (now destruct N); reflexivity.
Qed.
Lemma unary_unfold n u op e p s :
  ev_expr (interp X O (S n)) u (XUnary op e p) s =
  bind (bind (ev_expr (interp X O n) u e) (fun '(f, ep, _) =>
       match f with Reg v => of_sum (unary_op_value op v ep) | f => ret f end)) (fun f => ret (f, at_ u p, VNil)) s.
Proof. reflexivity. Qed.
Lemma refused_unary n u op e p s v s1 : gives X O n u e s v s1 -> ~ fits (operand_kind op) v ->
  panics X O (S n) u (XUnary op e p) s (PTypeError v (k_name (operand_kind op)) (at_ u (spot e))) s1.
Proof.
  intros L N. destruct (gives_at _ _ _ _ _ _ L) as [lo L']. unfold panics, fits in *. rewrite unary_unfold. unfold bind. rewrite L'.
  destruct op; cbn [operand_kind k_fits k_name a_number a_bool any_value] in *; try (now destruct N); destruct v; try (now destruct N); reflexivity.
Qed.

(** Operands that fit are not refused. *)
Lemma accepted n u l op r p s a b s1 s2 q s3 :
  gives X O n u l s a s1 -> gives X O n u r s1 b s2 -> fits (left_kind op) a -> fits (right_kind op a) b ->
  panics X O (S n) u (XBinary l op r p) s q s3 ->
  arithmetic op = true /\ (exists x y, a = VInt x /\ b = VInt y) /\ (q = PIntegerOverflow (at_ u p) \/ q = PDivisionByZero (at_ u p)).
Proof.
  intros L R F G P. destruct (gives_at _ _ _ _ _ _ L) as [lo L'], (gives_at _ _ _ _ _ _ R) as [ro R']. unfold panics, fits in *.
  destruct (logical op) eqn:Lo.
  - rewrite binary_unfold in P. unfold eval_binary, bind in P. rewrite L' in P.
    destruct op; try discriminate; cbn [left_kind right_kind k_fits a_bool] in *; destruct a as [|[]| | | | | | | |]; try discriminate; rewrite ?R' in P;
      cbn [ret] in P; try discriminate; destruct b as [|[]| | | | | | | |]; try discriminate; cbn in P; discriminate.
  - rewrite (binary_both X O n u l op r p s a b s1 s2 _ _ _ _) in P by (first [exact L' | exact R' | now intros ->]).
    destruct op; try discriminate; cbn [left_kind right_kind k_fits a_number ordered a_string any_value] in *;
      try (destruct (eqv _ _ _ _ _); discriminate);
      destruct a; try discriminate; cbn [k_fits an_int a_float a_char a_string] in *; destruct b; try discriminate;
      try (split; [reflexivity|]; split; [eauto|]); cbn [arithmetic_op ord_op concat_op int_op] in P; unfold checked in P; try discriminate;
      repeat match type of P with context [if ?c then _ else _] => destruct c end; inversion P; subst; auto.
Qed.

(** ** Order *)
Lemma lower_below_iff a b : comparable a b -> (lower a b <-> below a b).
Proof.
  intros C. split.
  - intros []; cbn [below].
    + now apply Z.compare_lt_iff.
    + now apply N.compare_lt_iff.
    + induction a0 as [|x a0 IH]; [reflexivity|]. cbn [lexc app]. unfold bytec at 1. rewrite N.compare_refl. apply IH.
    + induction a0 as [|z a0 IH]; cbn [lexc app]; unfold bytec at 1; [now rewrite (proj2 (N.compare_lt_iff _ _) H)|]. rewrite N.compare_refl. apply IH.
    + unfold SFltb in H. unfold float_cmp. destruct (SFcompare x y) as [[]|]; congruence.
    + reflexivity.
  - destruct a, b; try contradiction; cbn [below]; intros B.
    + constructor. now apply N.compare_lt_iff.
    + constructor. now apply Z.compare_lt_iff.
    + unfold float_cmp in B. destruct (SFcompare f f0) as [c|] eqn:E.
      * constructor. unfold SFltb. rewrite E. now subst.
      * destruct f; try discriminate. apply lo_nan.
    + clear C. assert (H : exists q, (exists c r, s = q /\ s0 = q ++ c :: r) \/ exists x r y r', s = q ++ x :: r /\ s0 = q ++ y :: r' /\ (Byte.to_N x < Byte.to_N y)%N).
      { revert s0 B. induction s as [|x s IH]; intros [|y s0] B; cbn [lexc] in B; try discriminate.
        - exists []. left. exists y, s0. auto.
        - destruct (bytec x y) eqn:E; try discriminate.
          + destruct (IH _ B) as (q & [(c & r & -> & ->)|(x' & r & y' & r' & -> & -> & L)]).
            * apply N.compare_eq_iff, byte_N_inj in E. subst y. exists (x :: q). left. exists c, r. auto.
            * apply N.compare_eq_iff, byte_N_inj in E. subst y. exists (x :: q). right. exists x', r, y', r'. auto.
          + exists []. right. exists x, s, y, s0. split; [reflexivity|]. split; [reflexivity|]. now apply N.compare_lt_iff. }
      destruct H as (q & [(c & r & -> & ->)|(x' & r & y' & r' & -> & -> & L)]); now constructor.
Qed.
Lemma comparison_known a b lp rp : comparable a b -> exists c,
  (forall op, ord_op op a lp b rp = inl (VBool (ord_test op c))) /\ (c = Lt <-> lower a b) /\ (c = Gt <-> lower b a /\ ~ lower a b).
Proof.
  intros C. assert (C' : comparable b a) by (destruct a, b; try contradiction; exact I).
  destruct a, b; try contradiction; cbn [ord_op]; eexists; (split; [reflexivity|]); rewrite (lower_below_iff _ _ C), (lower_below_iff _ _ C'); cbn [below];
    rewrite ?bytes_cmp_spec.
  - split; [reflexivity|]. unfold bytec. rewrite (N.compare_antisym (Byte.to_N b0) (Byte.to_N b)). destruct (Byte.to_N b0 ?= Byte.to_N b)%N; cbn; intuition congruence.
  - split; [reflexivity|]. rewrite (Z.compare_antisym z z0). destruct (z ?= z0)%Z; cbn; intuition congruence.
  - split; [reflexivity|]. unfold float_cmp.
    destruct (is_nan f) eqn:N, (is_nan f0) eqn:N0.
    + destruct f, f0; try discriminate. cbn. intuition congruence.
    + destruct f; try discriminate. destruct f0; try discriminate; cbn; intuition congruence.
    + destruct f0; try discriminate. destruct f; try discriminate; cbn; intuition congruence.
    + destruct (SFcompare_nan f f0 N N0) as [c1 E1], (SFcompare_nan f0 f N0 N) as [c2 E2]. rewrite E1, E2.
      destruct (lawful_float f) as (_ & A & _). specialize (A f0). unfold floatc in A. rewrite E1, E2 in A. subst. destruct c1; cbn in *; intuition congruence.
  - split; [reflexivity|]. destruct (lawful_bytes s) as (_ & A & _). specialize (A s0). rewrite A. destruct (lexc bytec s s0); cbn; intuition congruence.
Qed.

Lemma order_result n u l op r p s a b s1 s2 x : order op = true -> comparable a b ->
  gives X O n u l s a s1 -> gives X O n u r s1 b s2 -> (x = true <-> says op a b) ->
  gives X O (S n) u (XBinary l op r p) s (VBool x) s2.
Proof.
  intros Op C (lp & lo & L) (rp & ro & R) S. unfold gives.
  rewrite (binary_both X O n u l op r p s a b s1 s2 lp lo rp ro) by (first [exact L | exact R | now intros ->]).
  destruct (comparison_known a b lp rp C) as (c & Ho & LT & GT). rewrite Ho.
  assert (E : ord_test op c = x).
  { destruct op; try discriminate; cbn [says] in S; rewrite <- ?LT, <- ?GT in S; destruct c, x; cbn; intuition congruence. }
  rewrite E. destruct op; try discriminate; eauto.
Qed.
(** ** Floats *)
Lemma float_result n u l op r p s x y z s1 s2 : ieee op x y z ->
  gives X O n u l s (VFloat x) s1 -> gives X O n u r s1 (VFloat y) s2 -> gives X O (S n) u (XBinary l op r p) s (VFloat z) s2.
Proof.
  intros I (lp & lo & L) (rp & ro & R). unfold gives.
  rewrite (binary_both X O n u l op r p s _ _ s1 s2 lp lo rp ro) by (first [exact L | exact R | destruct I; discriminate]).
  destruct I; cbn; eauto.
Qed.
Lemma concat_result n u l r p s a b s1 s2 :
  gives X O n u l s (VStr a) s1 -> gives X O n u r s1 (VStr b) s2 -> gives X O (S n) u (XBinary l BConcat r p) s (VStr (a ++ b)) s2.
Proof.
  intros (lp & lo & L) (rp & ro & R). unfold gives.
  rewrite (binary_both X O n u l BConcat r p s _ _ s1 s2 lp lo rp ro) by (first [exact L | exact R | discriminate]). cbn. eauto.
Qed.
Lemma unary_float n u e p s x s1 : gives X O n u e s (VFloat x) s1 -> gives X O (S n) u (XUnary UMinus e p) s (VFloat (SFopp x)) s1.
Proof. intros (q & o & E). unfold gives. rewrite unary_unfold. unfold bind. rewrite E. do 2 eexists. reflexivity. Qed.
Lemma unary_not n u e p s b s1 : gives X O n u e s (VBool b) s1 -> gives X O (S n) u (XUnary UNot e p) s (VBool (negb b)) s1.
Proof. intros (q & o & E). unfold gives. rewrite unary_unfold. unfold bind. rewrite E. do 2 eexists. reflexivity. Qed.

(** A number of at most 53 digits is a float. *)
Lemma round_exact' s m e : Z.pos (digits2_pos m) <= 53 -> e <= 971 -> e = Z.max (Z.pos (digits2_pos m) + e - 53) (-1074) ->
  binary_round_aux 53 1024 s (Z.pos m) e loc_Exact = S754_finite s m e.
Proof.
  intros D U L.
  assert (F : forall r, shr_fexp 53 1024 (Z.pos m) e loc_Exact = r -> r = (Build_shr_record (Z.pos m) false false, e)).
  { intros r <-. unfold shr_fexp, fexp, emin. cbn [Zdigits2]. replace (Z.max (Z.pos (digits2_pos m) + e - 53) (3 - 1024 - 53) - e) with 0 by lia. reflexivity. }
  unfold binary_round_aux. rewrite (F _ eq_refl). cbn [shr_m loc_of_shr_record round_nearest_even]. rewrite (F _ eq_refl). cbn [shr_m].
  replace (e <=? 1024 - 53) with true; [reflexivity|]. symmetry. apply Z.leb_le. lia.
Qed.
Lemma round_any s m e : Z.pos m < 2 ^ 53 -> -1074 <= e <= 971 -> exists k e', binary_round 53 1024 s m e = S754_finite s k e' /\ e' <= e /\ Z.pos k = Z.pos m * 2 ^ (e - e').
Proof.
  intros L B. apply digits_small in L. unfold binary_round, shl_align, fexp, emin.
  set (f := Z.max (Z.pos (digits2_pos m) + e - 53) (3 - 1024 - 53)). assert (f <= e) by lia.
  destruct (f - e) as [|d|d] eqn:E.
  - exists m, e. split; [apply round_exact'; lia|]. split; [lia|]. rewrite Z.sub_diag. cbn. lia.
  - lia.
  - exists (shift_pos d m), f. split; [apply round_exact'; rewrite ?shift_digits; lia|]. split; [lia|]. rewrite shift_value. f_equal. f_equal. lia.
Qed.
Lemma valid_bounds s m e : valid_binary 53 1024 (S754_finite s m e) = true -> Z.pos m < 2 ^ 53 /\ -1074 <= e <= 971.
Proof.
  cbn [valid_binary]. unfold bounded, canonical_mantissa, fexp, emin. intros H. apply andb_prop in H. destruct H as [A B].
  apply Zeq_bool_eq in A. apply Z.leb_le in B. pose proof (digits_bound m).
  assert (Z.pos (digits2_pos m) <= 53) by lia. assert (2 ^ Z.pos (digits2_pos m) <= 2 ^ 53) by (apply Z.pow_le_mono_r; lia). lia.
Qed.
Lemma remainder_frem x y : valid_binary 53 1024 x = true -> valid_binary 53 1024 y = true -> remainder x y (frem x y).
Proof.
  intros Vx Vy. destruct x as [s|s| |s m e], y as [s'|s'| |s' m' e']; try constructor. apply valid_bounds in Vx, Vy. cbn [frem].
  set (unit := Z.min e e'). set (a := Z.pos m * 2 ^ (e - unit)). set (b := Z.pos m' * 2 ^ (e' - unit)).
  assert (Pb : 0 < b) by (unfold b; assert (0 < 2 ^ (e' - unit)) by (apply Z.pow_pos_nonneg; lia); nia).
  assert (Pa : 0 < a) by (unfold a; assert (0 < 2 ^ (e - unit)) by (apply Z.pow_pos_nonneg; lia); nia).
  pose proof (Z.mod_pos_bound a b Pb) as MB. pose proof (Z.div_mod a b ltac:(lia)) as DM.
  assert (Small : a mod b < 2 ^ 53).
  { destruct (Z.le_gt_cases e e').
    - assert (a = Z.pos m) by (unfold a; replace (e - unit) with 0 by lia; cbn; lia). pose proof (Z.mod_le a b ltac:(lia) Pb). lia.
    - assert (b = Z.pos m') by (unfold b; replace (e' - unit) with 0 by lia; cbn; lia). lia. }
  apply (re_finite s m e s' m' e' unit a b (a / b) (a mod b)); try lia; try reflexivity.
  - apply Z.div_pos; lia.
  - destruct (a mod b) as [|k|k] eqn:K; [|..|lia].
    + destruct s; now constructor.
    + destruct s; cbn [Z.opp binary_normalize].
      all: match goal with |- context [binary_round _ _ ?s _ _] => destruct (round_any s k unit ltac:(lia) ltac:(lia)) as (k' & e1 & -> & L & V) end; now constructor.
Qed.
Lemma float_remainder n u l r p s x y s1 s2 : valid_binary 53 1024 x = true -> valid_binary 53 1024 y = true ->
  gives X O n u l s (VFloat x) s1 -> gives X O n u r s1 (VFloat y) s2 ->
  exists z, gives X O (S n) u (XBinary l BMod r p) s (VFloat z) s2 /\ remainder x y z.
Proof.
  intros Vx Vy (lp & lo & L) (rp & ro & R). exists (frem x y). split; [|now apply remainder_frem]. unfold gives.
  rewrite (binary_both X O n u l BMod r p s _ _ s1 s2 lp lo rp ro) by (first [exact L | exact R | discriminate]). cbn. eauto.
Qed.

(** ** Reasons *)
Lemma reasons n u l op r p s a b s1 s2 q : arithmetic op = true -> ~ (op = BDiv /\ a = i64_min /\ b = -1) ->
  in_i64 a = true -> in_i64 b = true ->
  gives X O n u l s (VInt a) s1 -> gives X O n u r s1 (VInt b) s2 -> reason (at_ u p) op a b q ->
  panics X O (S n) u (XBinary l op r p) s q s2.
Proof.
  intros A ND Ia Ib (lp & lo & L) (rp & ro & R) S. unfold panics.
  rewrite (binary_both X O n u l op r p s _ _ s1 s2 lp lo rp ro) by (first [exact L | exact R | now intros ->]).
  destruct S as [op a b z E I|op a D].
  - assert (Q' : forall z q, in_i64 z = false -> checked q z = inr q) by (intros z' q H; unfold checked; now rewrite H).
    destruct op; try discriminate; cbn [arithmetic_op int_op].
    1-3: inversion E; subst; now rewrite Q'.
    + exfalso. assert (N : b <> 0) by (intros ->; destruct (exact_zero _ _ _ E); congruence).
      rewrite (exact_unique _ _ _ _ _ E (exact_quot a b N)) in I.
      unfold in_i64, i64_min, i64_max in *. apply andb_prop in Ia. destruct Ia as [I1 I2]. apply Z.leb_le in I1, I2.
      pose proof (Z.quot_rem' a b) as QR. pose proof (Z.rem_bound_abs a b N).
      destruct (Z.eq_dec b (-1)) as [->|N1].
      * replace (Z.quot a (-1)) with (- a) in I; [|change (-1) with (- (1)); rewrite Z.quot_opp_r, Z.quot_1_r; lia].
        apply ND. repeat split. apply andb_false_iff in I. destruct I as [I|I]; apply Z.leb_gt in I; lia.
      * assert (Z.abs (Z.quot a b) <= Z.abs a) by (rewrite <- Z.quot_abs by exact N; apply Z.quot_le_upper_bound; nia).
        assert (Z.quot a b <> 9223372036854775808).
        { intros Eq. assert (a = -9223372036854775808) by lia. assert (Z.abs b = 1) by nia. assert (b = 1) by lia. subst b. rewrite Z.quot_1_r in Eq. lia. }
        apply andb_false_iff in I. destruct I as [I|I]; apply Z.leb_gt in I; lia.
    + exfalso. assert (N : b <> 0) by (intros ->; destruct (exact_zero _ _ _ E); congruence).
      rewrite (exact_unique _ _ _ _ _ E (exact_rem a b N)) in I. pose proof (Z.rem_bound_abs a b N).
      unfold in_i64, i64_min, i64_max in *. apply andb_prop in Ib. destruct Ib as [I1 I2]. apply Z.leb_le in I1, I2.
      apply andb_false_iff in I. destruct I as [I|I]; apply Z.leb_gt in I; lia.
  - destruct D; subst op; reflexivity.
Qed.
End Ops.
