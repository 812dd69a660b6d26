(** Proofs about operators, equality and dicts. *)
From Coq Require Import ZArith.Zquot Lia Strings.String Sorting.Permutation Sorting.Sorted.
From Verif Require Import Base Lexer Ast Program Value Text StdLib Exec Runtime SpecText TextProofs SpecLib LibProofs SpecOrder OrderProofs
  DataProofs SpecRuntime FuelProofs SpecShow ShowProofs.

Section Ops.
Context {W : Type} (X : ext W) (O : os W).

Lemma binary_unfold n u l op r p s :
  ev_expr (interp X O (S n)) u (XBinary l op r p) s
  = bind (eval_binary (interp X O n) n u l op r (at_ u p)) (fun f => ret (f, at_ u p, VNil)) s.
Proof. reflexivity. Qed.

(** The operators that evaluate both operands *)
Lemma binary_both n u l op r p s a b s1 s2 lp lo rp ro :
  op <> BAnd -> op <> BOr ->
  ev_expr (interp X O n) u l s = Val (Reg a, lp, lo) s1 -> ev_expr (interp X O n) u r s1 = Val (Reg b, rp, ro) s2 ->
  ev_expr (interp X O (S n)) u (XBinary l op r p) s =
  match op with
  | BPlus | BMinus | BTimes | BDiv | BMod =>
      match arithmetic_op op (at_ u p) a lp b rp with inl v => Val (Reg v, at_ u p, VNil) s2 | inr e => Pan e s2 end
  | BGreater | BGreaterEquals | BLower | BLowerEquals =>
      match ord_op op a lp b rp with inl v => Val (Reg v, at_ u p, VNil) s2 | inr e => Pan e s2 end
  | BEquals =>
      match eqv (st_heap s2) n false a b with Known e => Val (Reg (VBool e), at_ u p, VNil) s2 | Busy => Crash CBorrow | Deep => Fuel end
  | BNotEquals =>
      match eqv (st_heap s2) n false a b with Known e => Val (Reg (VBool (negb e)), at_ u p, VNil) s2 | Busy => Crash CBorrow | Deep => Fuel end
  | _ => match concat_op a lp b rp with inl v => Val (Reg v, at_ u p, VNil) s2 | inr e => Pan e s2 end
  end.
Proof.
  intros NA NO L R. rewrite binary_unfold. unfold eval_binary, bind at 1. unfold bind at 1. rewrite L.
  destruct op; try congruence; unfold bind at 1; rewrite R; unfold bind, of_sum, ret, throw, get, of_walk, crash_with;
    try (destruct (arithmetic_op _ _ _ _ _ _); reflexivity); try (destruct (ord_op _ _ _ _ _); reflexivity);
    try (destruct (concat_op _ _ _ _); reflexivity); destruct (eqv _ _ _ _ _); reflexivity.
Qed.

Lemma division a b q r : a = (b * q + r)%Z -> (Z.abs r < Z.abs b)%Z -> (0 <= r * a)%Z -> q = Z.quot a b /\ r = Z.rem a b.
Proof.
  intros E B S. apply Zquot_mod_unique_full; [|exact E]. unfold Remainder.
  destruct (Z_lt_le_dec a 0) as [N|N]; [right|].
  - split; [lia|]. assert (r <= 0)%Z by nia. lia.
  - destruct (Z.eq_dec a 0) as [->|Na].
    + assert (Z.abs r = Z.abs b * Z.abs q)%Z by (rewrite <- Z.abs_mul; lia).
      assert (Z.abs q = 0)%Z by nia. assert (r = 0)%Z by nia. left. lia.
    + left. split; [lia|]. assert (0 <= r)%Z by nia. lia.
Qed.
Lemma exact_unique op a b z z' : exact op a b z -> exact op a b z' -> z = z'.
Proof.
  intros E E'. destruct E; inversion E'; subst; try reflexivity.
  - destruct (division _ _ _ _ eq_refl H0 H1) as [-> _].
    match goal with H : (b * q + r = b * _ + _)%Z |- _ => destruct (division _ _ _ _ H) as [-> _]; auto end.
  - destruct (division _ _ _ _ eq_refl H0 H1) as [_ ->].
    match goal with H : (b * q + r = b * _ + _)%Z |- _ => destruct (division _ _ _ _ H) as [_ ->]; auto end.
Qed.
Lemma exact_quot a b : b <> 0%Z -> exact BDiv a b (Z.quot a b).
Proof.
  intros N. apply ex_div with (Z.rem a b).
  - apply Z.quot_rem'.
  - apply Z.rem_bound_abs. exact N.
  - apply Z.rem_sign_mul. exact N.
Qed.
Lemma exact_rem a b : b <> 0%Z -> exact BMod a b (Z.rem a b).
Proof.
  intros N. apply ex_mod with (Z.quot a b).
  - apply Z.quot_rem'.
  - apply Z.rem_bound_abs. exact N.
  - apply Z.rem_sign_mul. exact N.
Qed.
Lemma exact_zero op a z : exact op a 0 z -> op <> BDiv /\ op <> BMod.
Proof. intros E. inversion E; subst; split; try discriminate; intros _; lia. Qed.

Lemma arithmetic_exact n u l op r p s a b s1 s2 :
  arithmetic op = true -> in_i64 a = true -> in_i64 b = true -> gives X O n u l s (VInt a) s1 -> gives X O n u r s1 (VInt b) s2 ->
  (forall z, exact op a b z -> in_i64 z = true -> ~ (op = BMod /\ a = i64_min /\ b = (-1)%Z) ->
     gives X O (S n) u (XBinary l op r p) s (VInt z) s2) /\
  ((forall z, exact op a b z -> in_i64 z = false) -> exists q, panics X O (S n) u (XBinary l op r p) s q s2).
Proof.
  intros A Ia Ib (lp & lo & L) (rp & ro & R). unfold gives, panics.
  rewrite (binary_both n u l op r p s _ _ s1 s2 lp lo rp ro) by (first [exact L | exact R | now intros ->]).
  assert (Q : forall z q, in_i64 z = true -> checked q z = inl (VInt z)) by (intros z q H; unfold checked; now rewrite H).
  assert (Q' : forall z q, in_i64 z = false -> checked q z = inr q) by (intros z q H; unfold checked; now rewrite H).
  destruct op; try discriminate; cbn [arithmetic_op int_op]; split.
  - intros z E I _. inversion E; subst. rewrite Q by exact I. eauto.
  - intros H. rewrite Q' by (apply H; constructor). eauto.
  - intros z E I _. inversion E; subst. rewrite Q by exact I. eauto.
  - intros H. rewrite Q' by (apply H; constructor). eauto.
  - intros z E I _. inversion E; subst. rewrite Q by exact I. eauto.
  - intros H. rewrite Q' by (apply H; constructor). eauto.
  - intros z E I _. destruct (Z.eqb_spec b 0) as [->|N]; [destruct (exact_zero _ _ _ E); congruence|].
    rewrite (exact_unique _ _ _ _ _ E (exact_quot a b N)) in *. rewrite Q by exact I. eauto.
  - intros H. destruct (Z.eqb_spec b 0) as [->|N]; [eauto|]. rewrite Q' by (apply H; now apply exact_quot). eauto.
  - intros z E I NM. destruct (Z.eqb_spec b 0) as [->|N]; [destruct (exact_zero _ _ _ E); congruence|].
    rewrite (exact_unique _ _ _ _ _ E (exact_rem a b N)) in *.
    replace (in_i64 (Z.quot a b)) with true; [eauto|]. symmetry.
    pose proof (Z.quot_rem' a b) as QR. unfold in_i64, i64_min, i64_max in *.
    apply andb_true_iff in Ia. destruct Ia as [I1 I2]. apply Z.leb_le in I1, I2.
    destruct (Z.eq_dec b (-1)) as [->|N1].
    + replace (Z.quot a (-1)) with (- a)%Z; [|change (-1)%Z with (- (1))%Z; rewrite Z.quot_opp_r, Z.quot_1_r; lia].
      assert (a <> -9223372036854775808)%Z by (intros ->; apply NM; auto).
      apply andb_true_iff. split; apply Z.leb_le; lia.
    + assert (Z.abs (Z.quot a b) <= Z.abs a)%Z.
      { rewrite <- Z.quot_abs by exact N. apply Z.quot_le_upper_bound; nia. }
      assert (Z.quot a b <> 9223372036854775808)%Z.
      { intros Eq. assert (b * Z.quot a b + Z.rem a b = a)%Z by lia. pose proof (Z.rem_bound_abs a b N).
        assert (a = -9223372036854775808)%Z by lia. assert (Z.abs b = 1)%Z by nia. assert (b = 1)%Z by lia. subst b.
        rewrite Z.quot_1_r in Eq. lia. }
      apply andb_true_iff. split; apply Z.leb_le; lia.
  - intros H. destruct (Z.eqb_spec b 0) as [->|N]; [eauto|].
    destruct (in_i64 (Z.quot a b)) eqn:I; [|eauto]. exfalso.
    assert (in_i64 (Z.rem a b) = false) as K by (apply H; now apply exact_rem).
    pose proof (Z.rem_bound_abs a b N). unfold in_i64, i64_min, i64_max in *.
    apply andb_true_iff in Ib. destruct Ib as [I1 I2]. apply Z.leb_le in I1, I2.
    apply andb_false_iff in K. destruct K as [K|K]; apply Z.leb_gt in K; lia.
Qed.
End Ops.

Section More.
Context {W : Type} (X : ext W) (O : os W).

(** ** Negation *)
Lemma negation n u e p s z s1 : gives X O n u e s (VInt z) s1 -> in_i64 z = true -> z <> i64_min ->
  gives X O (S n) u (XUnary UMinus e p) s (VInt (- z)) s1.
Proof.
  intros (q & o & E) R N. exists (at_ u p), VNil.
  change (ev_expr (interp X O (S n)) u (XUnary UMinus e p) s) with
    (bind (bind (ev_expr (interp X O n) u e) (fun '(f, ep, _) =>
       match f with Reg v => of_sum (unary_op_value UMinus v ep) | f => ret f end)) (fun f => ret (f, at_ u p, VNil)) s).
  unfold bind. rewrite E. cbn [unary_op_value of_sum ret]. rewrite wrap64_id; [reflexivity|].
  unfold in_i64, i64_min, i64_max in *. apply andb_true_iff in R. destruct R as [A B]. apply Z.leb_le in A, B.
  apply andb_true_iff. split; apply Z.leb_le; lia.
Qed.

(** ** Order *)
Lemma comparable_ord a b lp rp : comparable a b -> exists c,
  (forall op, ord_op op a lp b rp = inl (VBool (ord_test op c))) /\
  (forall h n, eqv h (S n) false a b = Known (match c with Eq => true | _ => false end)).
Proof.
  destruct a, b; try contradiction; intros _; cbn [ord_op eqv].
  - eexists. split; [reflexivity|]. intros _ _. f_equal. destruct (N.compare_spec (Byte.to_N b0) (Byte.to_N b)) as [E|L|L].
    + apply byte_N_inj in E. subst. apply byte_eqb_eq. reflexivity.
    + destruct (byte_eqb b0 b) eqn:E; [|reflexivity]. apply byte_eqb_eq in E. subst. lia.
    + destruct (byte_eqb b0 b) eqn:E; [|reflexivity]. apply byte_eqb_eq in E. subst. lia.
  - eexists. split; [reflexivity|]. intros _ _. f_equal. destruct (Z.compare_spec z z0) as [E|L|L].
    + subst. apply Z.eqb_refl.
    + apply Z.eqb_neq. lia.
    + apply Z.eqb_neq. lia.
  - eexists. split; [reflexivity|]. intros _ _. f_equal. unfold float_eqb, SFeqb, float_cmp.
    destruct (SFcompare f f0) as [[]|]; try reflexivity. now destruct (is_nan f).
  - eexists. split; [reflexivity|]. intros _ _. f_equal. rewrite bytes_cmp_spec. destruct (lexc bytec s s0) eqn:E.
    + apply lexc_bytec_eq in E. now apply bytes_eqb_eq.
    + destruct (bytes_eqb s s0) eqn:B; [|reflexivity]. apply bytes_eqb_eq, lexc_bytec_eq in B. congruence.
    + destruct (bytes_eqb s s0) eqn:B; [|reflexivity]. apply bytes_eqb_eq, lexc_bytec_eq in B. congruence.
Qed.

Lemma trichotomy n u l r p s a b s1 s2 : comparable a b ->
  gives X O (S n) u l s a s1 -> gives X O (S n) u r s1 b s2 -> exists lt eq gt,
    gives X O (S (S n)) u (XBinary l BLower r p) s (VBool lt) s2 /\
    gives X O (S (S n)) u (XBinary l BEquals r p) s (VBool eq) s2 /\
    gives X O (S (S n)) u (XBinary l BGreater r p) s (VBool gt) s2 /\
    exactly_one lt eq gt /\
    gives X O (S (S n)) u (XBinary l BLowerEquals r p) s (VBool (lt || eq)) s2 /\
    gives X O (S (S n)) u (XBinary l BGreaterEquals r p) s (VBool (gt || eq)) s2 /\
    gives X O (S (S n)) u (XBinary l BNotEquals r p) s (VBool (negb eq)) s2.
Proof.
  intros C (lp & lo & L) (rp & ro & R).
  destruct (comparable_ord a b lp rp C) as (c & Ho & He).
  exists (match c with Lt => true | _ => false end), (match c with Eq => true | _ => false end), (match c with Gt => true | _ => false end).
  unfold gives. rewrite !(binary_both X O (S n) u l _ r p s _ _ s1 s2 lp lo rp ro) by (first [exact L | exact R | discriminate]).
  rewrite !Ho, He. repeat split; destruct c; cbn; eauto.
Qed.

Lemma lower_cmp n u l r p s a b s1 s2 x : comparable a b ->
  gives X O n u l s a s1 -> gives X O n u r s1 b s2 -> gives X O (S n) u (XBinary l BLower r p) s (VBool x) s2 ->
  exists c, (forall lp rp, ord_op BLower a lp b rp = inl (VBool (ord_test BLower c))) /\ x = ord_test BLower c.
Proof.
  intros C (lp & lo & L) (rp & ro & R) (q & o & H).
  destruct (comparable_ord a b lp rp C) as (c & Ho & _). exists c.
  rewrite (binary_both X O n u l _ r p s _ _ s1 s2 lp lo rp ro), Ho in H by (first [exact L | exact R | discriminate]).
  split; [|congruence]. intros lp' rp'. rewrite <- (Ho BLower). destruct a, b; try contradiction; reflexivity.
Qed.

Definition below (a b : value) : Prop :=
  match a, b with
  | VInt x, VInt y => (x ?= y)%Z = Lt
  | VByte x, VByte y => bytec x y = Lt
  | VStr x, VStr y => lexc bytec x y = Lt
  | VFloat x, VFloat y => float_cmp x y = Lt
  | _, _ => False
  end.
Lemma below_ord a b lp rp : comparable a b -> (ord_op BLower a lp b rp = inl (VBool true) <-> below a b).
Proof.
  destruct a, b; try contradiction; intros _; cbn [ord_op below]; rewrite ?bytes_cmp_spec;
    repeat match goal with |- context [(Byte.to_N ?a ?= Byte.to_N ?b)%N] => change (Byte.to_N a ?= Byte.to_N b)%N with (bytec a b) end;
    match goal with |- context [ord_test BLower ?c] => destruct c end; cbn; split; congruence.
Qed.
Lemma below_trans a b c : below a b -> below b c -> below a c.
Proof.
  destruct a, b; try contradiction; destruct c; try contradiction; cbn [below]; intros P Q.
  - destruct (lawful_byte b0) as (_ & _ & _ & T). apply (T b); congruence.
  - destruct (lawful_Z z) as (_ & _ & _ & T). apply (T z0); congruence.
  - unfold float_cmp in *. destruct (is_nan f) eqn:N.
    + destruct f; try discriminate. reflexivity.
    + destruct (is_nan f0) eqn:N0; [destruct f0; try discriminate; destruct f as [|[]| |[]]; discriminate|].
      destruct (is_nan f1) eqn:N1; [destruct f1; try discriminate; destruct f0 as [|[]| |[]]; discriminate|].
      destruct (SFcompare_nan f f0 N N0) as [c1 E1], (SFcompare_nan f0 f1 N0 N1) as [c2 E2], (SFcompare_nan f f1 N N1) as [c3 E3].
      rewrite E1 in P. rewrite E2 in Q. rewrite E3. subst.
      destruct (lawful_float f) as (_ & _ & _ & T). specialize (T f0 f1). unfold floatc in T. rewrite E1, E2, E3 in T. apply T; congruence.
  - destruct (lawful_bytes s) as (_ & _ & _ & T). apply (T s0); congruence.
Qed.
Lemma below_comparable a b : below a b -> comparable a b.
Proof. destruct a, b; cbn; tauto. Qed.

Lemma lower_below n u l r p s a b s1 s2 x : 
  gives X O n u l s a s1 -> gives X O n u r s1 b s2 -> gives X O (S n) u (XBinary l BLower r p) s (VBool x) s2 ->
  comparable a b /\ (x = true <-> below a b).
Proof.
  intros L R H. assert (C : comparable a b).
  { destruct L as (lp & lo & L), R as (rp & ro & R), H as (q & o & H).
    rewrite (binary_both X O n u l _ r p s _ _ s1 s2 lp lo rp ro) in H by (first [exact L | exact R | discriminate]).
    destruct a, b; cbn in H; try discriminate; exact I. }
  split; [exact C|]. destruct (lower_cmp n u l r p s a b s1 s2 x C L R H) as (c & Ho & ->).
  rewrite <- (below_ord a b (mkspos [] (mkpos 0 0)) (mkspos [] (mkpos 0 0)) C), Ho. split; congruence.
Qed.
Lemma below_lower n u l r p s a b s1 s2 : below a b ->
  gives X O n u l s a s1 -> gives X O n u r s1 b s2 -> gives X O (S n) u (XBinary l BLower r p) s (VBool true) s2.
Proof.
  intros B (lp & lo & L) (rp & ro & R). unfold gives.
  rewrite (binary_both X O n u l _ r p s _ _ s1 s2 lp lo rp ro) by (first [exact L | exact R | discriminate]).
  rewrite (proj2 (below_ord a b lp rp (below_comparable _ _ B)) B). eauto.
Qed.

Lemma lower_transitive n u l m r p a b c s s1 s2 s' s1' s2' t t1 t2 :
  gives X O n u l s a s1 -> gives X O n u m s1 b s2 -> gives X O (S n) u (XBinary l BLower m p) s (VBool true) s2 ->
  gives X O n u m s' b s1' -> gives X O n u r s1' c s2' -> gives X O (S n) u (XBinary m BLower r p) s' (VBool true) s2' ->
  gives X O n u l t a t1 -> gives X O n u r t1 c t2 -> gives X O (S n) u (XBinary l BLower r p) t (VBool true) t2.
Proof.
  intros A1 A2 A B1 B2 B C1 C2. apply (below_lower n u l r p t a c t1 t2); auto.
  apply below_trans with b.
  - now apply (lower_below n u l m p s a b s1 s2 true A1 A2 A).
  - now apply (lower_below n u m r p s' b c s1' s2' true B1 B2 B).
Qed.

(** ** Conjunction and disjunction *)
Lemma logic_short n u l op r p s s1 b : gives X O n u l s (VBool b) s1 -> op = (if b then BOr else BAnd) ->
  gives X O (S n) u (XBinary l op r p) s (VBool b) s1.
Proof.
  intros (lp & lo & L) ->. unfold gives. rewrite binary_unfold. unfold eval_binary, bind. rewrite L. destruct b; cbn; unfold ret; eauto.
Qed.
Lemma logic_right n u l op r p s s1 b : gives X O n u l s (VBool b) s1 -> op = (if b then BAnd else BOr) ->
  (forall c s2, gives X O n u r s1 (VBool c) s2 -> gives X O (S n) u (XBinary l op r p) s (VBool c) s2) /\
  (forall q s2, panics X O n u r s1 q s2 -> panics X O (S n) u (XBinary l op r p) s q s2) /\
  (forall v s2, gives X O n u r s1 v s2 -> ~ is_boolean v ->
     exists q, panics X O (S n) u (XBinary l op r p) s (PTypeError v (bs "bool"%string) q) s2).
Proof.
  intros (lp & lo & L) ->. unfold gives, panics. rewrite binary_unfold. unfold eval_binary, bind. rewrite L. repeat split.
  - intros c s2 (rp & ro & R). destruct b; cbn; rewrite R; cbn; unfold ret; eauto.
  - intros q s2 R. destruct b; cbn; rewrite R; cbn; unfold ret; eauto.
  - intros v s2 (rp & ro & R) N. exists rp. destruct b; cbn; rewrite R; destruct v; try reflexivity; destruct N; eexists; reflexivity.
Qed.
Lemma logic_left n u l op r p s : op = BAnd \/ op = BOr ->
  (forall v s1, gives X O n u l s v s1 -> ~ is_boolean v -> exists q, panics X O (S n) u (XBinary l op r p) s (PTypeError v (bs "bool"%string) q) s1) /\
  (forall q s1, panics X O n u l s q s1 -> panics X O (S n) u (XBinary l op r p) s q s1).
Proof.
  intros Op. unfold gives, panics. rewrite binary_unfold. unfold eval_binary, bind. split.
  - intros v s1 (lp & lo & L) N. exists lp. rewrite L. destruct Op; subst op; destruct v; try reflexivity; destruct N; eexists; reflexivity.
  - intros q s1 ->. reflexivity.
Qed.

(** ** Catching *)
Lemma catch_unfold n obj g start p s : skipn start (st_args s) = [VFun g] ->
  ev_call (interp X O (S n)) obj (FRust (NStd SCatch)) start p s
  = truncated start (catch X n (ev_call (interp X O n) VNil g (start + 1) p)) s.
Proof.
  intros A. change (ev_call (interp X O (S n)) obj (FRust (NStd SCatch)) start p s) with
    (truncated start (native_body X false (interp X O n) n (NStd SCatch) (skipn start (st_args s)) start p) s).
  now rewrite A.
Qed.
Lemma catch_call n obj g start p s : skipn start (st_args s) = [VFun g] ->
  (forall v s', ev_call (interp X O n) VNil g (start + 1) p s = Val v s' ->
     ev_call (interp X O (S n)) obj (FRust (NStd SCatch)) start p s = Val v (set_args s' (firstn start (st_args s')))) /\
  (forall q s', ev_call (interp X O n) VNil g (start + 1) p s = Pan q s' ->
     (ev_call (interp X O (S n)) obj (FRust (NStd SCatch)) start p s = Fuel \/
      exists t, message X (st_heap s') q t /\
        ev_call (interp X O (S n)) obj (FRust (NStd SCatch)) start p s
        = Val (VErr (bs "caught panic: "%string ++ t) (VStr (bs "panic"%string))) (set_args s' (firstn start (st_args s')))) /\
     (some_order X -> messageable X (st_heap s') q -> exists m t, n <= m /\ message X (st_heap s') q t /\
        ev_call (interp X O (S m)) obj (FRust (NStd SCatch)) start p s
        = Val (VErr (bs "caught panic: "%string ++ t) (VStr (bs "panic"%string))) (set_args s' (firstn start (st_args s'))))) /\
  (forall q s', ev_call (interp X O (S n)) obj (FRust (NStd SCatch)) start p s <> Pan q s').
Proof.
  intros A. rewrite (catch_unfold n obj g start p s A). unfold truncated, catch. split; [|split].
  - intros v s' ->. reflexivity.
  - intros q s' E. rewrite E. split.
    + pose proof (panic_text_not_busy X n (st_heap s') q) as NB.
      destruct (panic_text X n (st_heap s') q) as [t| |] eqn:Q; [right|congruence|now left].
      exists t. split; [eapply panic_text_message, Q|reflexivity].
    + intros HO HM. destruct (messageable_message X _ _ HO HM) as [t T]. destruct (message_panic_text X _ _ _ T) as [k K].
      exists (max n k), t. split; [lia|]. split; [exact T|]. rewrite (catch_unfold (max n k) obj g start p s A). unfold truncated, catch.
      destruct (el_call _ _ (run_le X O true false n (max n k) ltac:(lia)) VNil g (start + 1) p s) as [F|F]; unfold interp in *; [congruence|].
      rewrite <- F, E, (panic_text_more X (st_heap s') q k (max n k) t); [reflexivity|lia|exact K].
  - intros q s'. destruct (ev_call _ _ _ _ _ _); try discriminate. destruct (panic_text _ _ _ _); discriminate.
Qed.

(** The message of a panic with an array that contains itself never ends. *)
Lemma catch_endless n obj g start p s a r q s' : skipn start (st_args s) = [VFun g] ->
  ev_call (interp X O n) VNil g (start + 1) p s = Pan (PUser (VArr a) q) s' -> arr_get (st_heap s') a = VArr a :: r ->
  forall m, ev_call (interp X O m) obj (FRust (NStd SCatch)) start p s = Fuel.
Proof.
  intros A E C [|m]; [reflexivity|]. rewrite (catch_unfold m obj g start p s A). unfold truncated, catch.
  assert (T : panic_text X m (st_heap s') (PUser (VArr a) q) = Deep) by (unfold panic_text; now rewrite (self_shown X _ _ _ C)).
  destruct (Nat.le_ge_cases m n) as [L|L].
  - destruct (el_call _ _ (run_le X O true false m n L) VNil g (start + 1) p s) as [F|F]; unfold interp in *; rewrite F; [reflexivity|].
    now rewrite E, T.
  - destruct (el_call _ _ (run_le X O true false n m L) VNil g (start + 1) p s) as [F|F]; unfold interp in *; [congruence|].
    now rewrite <- F, E, T.
Qed.

(** ** Equality ends *)
Lemma eqv_mono h : forall n m bits a b r, n <= m -> eqv h n bits a b = Known r -> eqv h m bits a b = Known r.
Proof.
  assert (FE : forall f g key d r, (forall x y r, f x y = Known r -> g x y = Known r) -> find_entry f key d = Known r -> find_entry g key d = Known r).
  { intros f g key d r H. induction d as [|[x v] d IH]; [auto|]. cbn [find_entry]. destruct (f key x) as [e| |] eqn:Q; cbn [wbind]; try discriminate.
    rewrite (H _ _ _ Q). cbn [wbind]. destruct e; auto. }
  assert (A2 : forall A (f g : A -> A -> walk bool) l l' r, (forall x y r, f x y = Known r -> g x y = Known r) -> all2 f l l' = Known r -> all2 g l l' = Known r).
  { intros A f g l. induction l as [|x l IH]; intros [|y l'] r H; auto. cbn [all2]. destruct (f x y) as [e| |] eqn:Q; cbn [wbind]; try discriminate.
    rewrite (H _ _ _ Q). cbn [wbind]. destruct e; auto. }
  induction n as [|n IH]; intros m bits a b r L E; [discriminate|]. destruct m as [|m]; [lia|].
  assert (IH' : forall bits x y r, eqv h n bits x y = Known r -> eqv h m bits x y = Known r) by (intros; apply IH; [lia|assumption]).
  cbn [eqv] in *. destruct a, b; auto.
  - destruct (Nat.eqb _ _); auto. eapply A2; [|exact E]. auto.
  - destruct (Nat.eqb _ _); auto. revert E. generalize (dict_entries h l). intros d. revert r.
    induction d as [|[key v] d IHd]; intros r E; auto.
    destruct (find_entry (eqv h n true) key (dict_entries h l0)) as [x| |] eqn:Q; cbn [wbind] in E; try discriminate.
    rewrite (FE _ (eqv h m true) _ _ _ (IH' true) Q). cbn [wbind]. destruct x as [x|]; auto.
    destruct (eqv h n bits v x) as [e| |] eqn:Q'; cbn [wbind] in E; try discriminate. rewrite (IH' _ _ _ _ Q'). cbn [wbind].
    destruct e; auto.
  - destruct f, f0; auto. destruct (Nat.eqb _ _ && _ && _); auto. eapply A2; [|exact E]. cbn beta.
    intros x y r' Q. destruct (eqv h n bits (cell_get h (fst x)) (cell_get h (fst y))) as [e| |] eqn:Q'; cbn [wbind] in Q; try discriminate.
    rewrite (IH' _ _ _ _ Q'). exact Q.
  - destruct (bytes_eqb _ _); auto.
Qed.

Lemma eqv_total h a : grounded h a -> exists n, forall bits b, exists r, eqv h n bits a b = Known r.
Proof.
  assert (Mono : forall n m a, n <= m -> (forall bits b, exists r, eqv h n bits a b = Known r) -> forall bits b, exists r, eqv h m bits a b = Known r).
  { intros n m x L H bits b. destruct (H bits b) as [r E]. exists r. now apply (eqv_mono h n). }
  assert (FE : forall n key d, (forall b, exists r, eqv h n true key b = Known r) -> exists r, find_entry (eqv h n true) key d = Known r).
  { intros n key d H. induction d as [|[x v] d IH]; [eexists; reflexivity|]. cbn [find_entry]. destruct (H x) as [r ->]. cbn [wbind].
    destruct r; [eauto|exact IH]. }
  induction 1 as [l _ IH|l _ IHk _ IHv|d c _ IH|u params fi b0 c p _ IH|f|v Hv].
  - destruct (enough (fun n x => forall bits b, exists r, eqv h n bits x b = Known r) (arr_get h l)) as [n Hn]; [intros; eapply Mono; eauto|exact IH|].
    exists (S n). intros bits b. cbn [eqv]. destruct b; eauto. destruct (Nat.eqb _ _); eauto.
    revert Hn. generalize (arr_get h l), (arr_get h l0). intros r. induction r as [|x r IHr]; intros [|y r'] Hn; cbn [all2]; eauto.
    destruct (Hn x (or_introl eq_refl) bits y) as [e ->]. cbn [wbind]. destruct e; eauto. apply IHr. intros; apply Hn; now right.
  - destruct (enough (fun n (e : value * value) => (forall bits b, exists r, eqv h n bits (fst e) b = Known r) /\
        (forall bits b, exists r, eqv h n bits (snd e) b = Known r)) (dict_entries h l)) as [n Hn].
    + intros i j x L [H1 H2]. split; eapply Mono; eauto.
    + intros [k v] I. destruct (IHk k v I) as [i Hi], (IHv k v I) as [j Hj]. exists (i + j). cbn [fst snd].
      split; [apply (Mono i)|apply (Mono j)]; auto; lia.
    + exists (S n). intros bits b. cbn [eqv]. destruct b; eauto. destruct (Nat.eqb _ _); eauto.
      revert Hn. generalize (dict_entries h l). intros d Hn. induction d as [|[k v] d IHd]; eauto.
      destruct (Hn (k, v) (or_introl eq_refl)) as [Hk Hv]. cbn [fst snd] in *.
      destruct (FE n k (dict_entries h l0) (Hk true)) as [r ->]. cbn [wbind]. destruct r as [w|]; eauto.
      destruct (Hv bits w) as [e ->]. cbn [wbind]. destruct e; eauto. apply IHd. intros; apply Hn; now right.
  - destruct IH as [n Hn]. exists (S n). intros bits b. cbn [eqv]. destruct b; eauto. destruct (bytes_eqb _ _); eauto.
  - destruct (enough (fun n (x : loc * slot) => forall bits b, exists r, eqv h n bits (cell_get h (fst x)) b = Known r) c) as [n Hn].
    + intros; eapply Mono; eauto.
    + intros [x ix] I. exact (IH x ix I).
    + exists (S n). intros bits b. cbn [eqv]. destruct b; eauto. destruct f; eauto. destruct (Nat.eqb _ _ && _ && _); eauto.
      revert Hn. generalize context. clear. induction c as [|x c IHc]; intros [|y c'] Hn; cbn [all2]; eauto.
      destruct (Hn x (or_introl eq_refl) bits (cell_get h (fst y))) as [e ->]. cbn [wbind]. destruct (e && _); eauto.
      apply IHc. intros; apply Hn; now right.
  - exists 1. intros bits b. cbn [eqv]. destruct b; eauto. destruct f0; eauto.
  - exists 1. intros bits b. cbn [eqv]. destruct v; try contradiction; destruct b; eauto.
Qed.

Lemma self_array h l : arr_get h l = [VArr l] -> forall n bits, eqv h n bits (VArr l) (VArr l) = Deep.
Proof.
  intros E. induction n as [|n IH]; intros bits; [reflexivity|]. cbn [eqv]. rewrite E. cbn [length Nat.eqb all2]. now rewrite IH.
Qed.
End More.
