(** Proofs about conversions between integers and floats. *)
From Coq Require Import Strings.String Lia SpecFloat.
From Verif Require Import Base Lexer Ast Program Value Text StdLib SpecSig.
Local Open Scope Z_scope.

Lemma max_left e : 0 <= e -> Z.max 0 e = e. Proof. lia. Qed.
Lemma whole_part_fun m e t u : whole_part m e t -> whole_part m e u -> t = u.
Proof.
  intros (A & B & C) (A' & B' & C'). assert (P : 0 < 2 ^ Z.max 0 (- e)) by (apply Z.pow_pos_nonneg; lia).
  assert (t < u + 1) by nia. assert (u < t + 1) by nia. lia.
Qed.
Lemma whole_part_trunc m e : whole_part m e (if 0 <=? e then Z.pos m * 2 ^ e else Z.pos m / 2 ^ (- e)).
Proof.
  unfold whole_part. destruct (Z.leb_spec 0 e).
  - assert (0 < 2 ^ e) by (apply Z.pow_pos_nonneg; lia). replace (Z.max 0 e) with e by lia. replace (Z.max 0 (- e)) with 0 by lia. cbn [Z.pow]. nia.
  - assert (P : 0 < 2 ^ (- e)) by (apply Z.pow_pos_nonneg; lia). replace (Z.max 0 e) with 0 by lia. replace (Z.max 0 (- e)) with (- e) by lia.
    rewrite Z.pow_0_r, Z.mul_1_r. pose proof (Z.div_mod (Z.pos m) (2 ^ (- e))). pose proof (Z.mod_pos_bound (Z.pos m) (2 ^ (- e)) P).
    split; [apply Z.div_pos; lia|]. nia.
Qed.
Lemma clamp_max z : Z.max i64_min (Z.min i64_max z) = clamped z.
Proof. unfold clamped. assert (i64_min < i64_max) by reflexivity. destruct (Z.ltb_spec z i64_min); [lia|]. destruct (Z.ltb_spec i64_max z); lia. Qed.
Lemma int_truncated f z : truncated f z <-> z = int_of_float f.
Proof.
  split.
  - intros []; try reflexivity; cbn [int_of_float]; rewrite clamp_max; f_equal; try f_equal; eapply whole_part_fun; try eassumption; apply whole_part_trunc.
  - intros ->. destruct f as [s|[]| |s m e]; try constructor. cbn [int_of_float]. rewrite clamp_max. destruct s; constructor; apply whole_part_trunc.
Qed.

(** ** Small integers are exact *)
Lemma digits_bound m : 2 ^ (Z.pos (digits2_pos m) - 1) <= Z.pos m < 2 ^ Z.pos (digits2_pos m).
Proof.
  induction m as [m IH|m IH|]; cbn [digits2_pos]; [| |cbn; lia].
  all: rewrite Pos2Z.inj_succ; replace (Z.succ (Z.pos (digits2_pos m)) - 1) with (Z.succ (Z.pos (digits2_pos m) - 1)) by lia; rewrite !Z.pow_succ_r by lia; lia.
Qed.
Lemma digits_small m : Z.pos m < 2 ^ 53 -> Z.pos (digits2_pos m) <= 53.
Proof. intros L. destruct (Z.le_gt_cases (Z.pos (digits2_pos m)) 53) as [H|H]; [exact H|]. pose proof (digits_bound m). assert (2 ^ 53 <= 2 ^ (Z.pos (digits2_pos m) - 1)) by (apply Z.pow_le_mono_r; lia). lia. Qed.
Lemma shift_value n m : Z.pos (shift_pos n m) = Z.pos m * 2 ^ Z.pos n.
Proof.
  unfold shift_pos. induction n as [|n IH] using Pos.peano_ind; [cbn; lia|]. rewrite Pos.iter_succ, Pos2Z.inj_xO, IH, Pos2Z.inj_succ, Z.pow_succ_r by lia. lia.
Qed.
Lemma shift_digits n m : Z.pos (digits2_pos (shift_pos n m)) = Z.pos (digits2_pos m) + Z.pos n.
Proof.
  unfold shift_pos. induction n as [|n IH] using Pos.peano_ind; [cbn; lia|]. rewrite Pos.iter_succ. cbn [digits2_pos]. lia.
Qed.
Lemma round_exact s m e : Z.pos (digits2_pos m) = 53 -> -1074 <= e -> e <= 971 ->
  binary_round_aux 53 1024 s (Z.pos m) e loc_Exact = S754_finite s m e.
Proof.
  intros D L U.
  assert (F : forall r, shr_fexp 53 1024 (Z.pos m) e loc_Exact = r -> r = (Build_shr_record (Z.pos m) false false, e)).
  { intros r <-. unfold shr_fexp, fexp, emin. cbn [Zdigits2]. rewrite D. replace (Z.max (53 + e - 53) (3 - 1024 - 53) - e) with 0 by lia. reflexivity. }
  unfold binary_round_aux. rewrite (F _ eq_refl). cbn [shr_m loc_of_shr_record round_nearest_even]. rewrite (F _ eq_refl). cbn [shr_m].
  replace (e <=? 1024 - 53) with true; [reflexivity|]. symmetry. apply Z.leb_le. lia.
Qed.
Lemma round_small s m : Z.pos m < 2 ^ 53 -> exists k e, binary_round 53 1024 s m 0 = S754_finite s k e /\ e <= 0 /\ Z.pos k = Z.pos m * 2 ^ (- e).
Proof.
  intros L. apply digits_small in L. unfold binary_round, shl_align, fexp, emin.
  rewrite Z.add_0_r. replace (Z.max (Z.pos (digits2_pos m) - 53) (3 - 1024 - 53)) with (Z.pos (digits2_pos m) - 53) by lia. rewrite Z.sub_0_r.
  destruct (Z.pos (digits2_pos m) - 53) as [|d|d] eqn:E.
  - exists m, 0. split; [apply round_exact; lia|]. cbn. lia.
  - lia.
  - exists (shift_pos d m), (Z.neg d). split; [apply round_exact; [rewrite shift_digits; lia| |]; lia|]. split; [lia|]. rewrite shift_value. reflexivity.
Qed.
Lemma float_small z : Z.abs z <= 2 ^ 53 -> same_number z (float_of_int z).
Proof.
  intros L. destruct (Z.eq_dec (Z.abs z) (2 ^ 53)) as [E|N].
  - assert (H : z = 2 ^ 53 \/ z = - 2 ^ 53) by lia. destruct H as [-> | ->]; vm_compute; constructor; reflexivity.
  - assert (L' : Z.abs z < 2 ^ 53) by lia. clear L N. destruct z as [|m|m]; [now constructor| |]; cbn [Z.abs] in L'; unfold float_of_int, binary_normalize.
    + destruct (round_small false m L') as (k & e & -> & E & V). constructor; [|lia]. replace (Z.max 0 e) with 0 by lia. replace (Z.max 0 (- e)) with (- e) by lia. cbn [Z.abs]. lia.
    + destruct (round_small true m L') as (k & e & -> & E & V). constructor; [|lia]. replace (Z.max 0 e) with 0 by lia. replace (Z.max 0 (- e)) with (- e) by lia. cbn [Z.abs]. lia.
Qed.
Lemma same_number_back z f : in_i64 z = true -> same_number z f -> int_of_float f = z.
Proof.
  intros I H. symmetry. apply int_truncated. destruct H as [s ->|s m e E S]; [constructor|].
  assert (P : 0 < 2 ^ Z.max 0 (- e)) by (apply Z.pow_pos_nonneg; lia).
  assert (WP : whole_part m e (Z.abs z)) by (unfold whole_part; nia).
  assert (C : clamped z = z).
  { unfold in_i64 in I. apply andb_prop in I. destruct I as [A B]. apply Z.leb_le in A, B. unfold clamped. destruct (Z.ltb_spec z i64_min); [lia|]. destruct (Z.ltb_spec i64_max z); lia. }
  destruct s.
  - rewrite <- C. replace (clamped z) with (clamped (- Z.abs z)) by (f_equal; lia). now constructor.
  - rewrite <- C. replace (clamped z) with (clamped (Z.abs z)) by (f_equal; lia). now constructor.
Qed.
