(** Proofs about what hexadecimal and base64 texts stand for, and splitting at nothing. *)
From Coq Require Import Strings.String.
From Verif Require Import Base Lexer Ast Program Value Text StdLib SpecText SpecCode TextProofs LibProofs.

(** ** Hexadecimal *)
Lemma hex_value_stands c n : hex_value c = Some n -> hex_stands c (N.to_nat n) /\ (n < 16)%N.
Proof. destruct c; cbn; intros H; try discriminate; injection H as <-; cbv [hex_stands]; (split; [|reflexivity]); ((left; reflexivity) || (right; reflexivity)). Qed.
Lemma stands_hex_value c i : hex_stands c i -> hex_value c = Some (N.of_nat i) /\ i < 16.
Proof.
  intros [H|H]; do 16 (destruct i as [|i]; [injection H as <-; split; [reflexivity|lia]|]); destruct i; discriminate.
Qed.
Lemma to_N_of n : (n < 256)%N -> Byte.to_N (byte_of n) = n.
Proof.
  intros H. unfold byte_of. destruct (Byte.of_N n) as [b|] eqn:E.
  - now apply Byte.to_of_N.
  - apply Byte.of_N_None_iff in E. lia.
Qed.
Lemma of_N_to n c : Byte.to_N c = n -> byte_of n = c.
Proof. intros <-. apply byte_of_N. Qed.
Lemma hex_decodes_go k : forall t s, length t <= k -> hex_decode t = Some s <-> hex_of t s.
Proof.
  induction k as [|k IH]; intros t s L.
  - destruct t; [|cbn in L; lia]. split; [intros E; injection E as <-; constructor|intros H; now inversion H].
  - destruct t as [|a [|b t]].
    + split; [intros E; injection E as <-; constructor|intros H; now inversion H].
    + split; [discriminate|intros H; inversion H].
    + cbn [hex_decode]. split.
      * destruct (hex_value a) as [x|] eqn:A; [|discriminate]. destruct (hex_value b) as [y|] eqn:B; [|discriminate].
        destruct (hex_decode t) as [r|] eqn:D; [|discriminate]. intros E. assert (E' : byte_of (16 * x + y) :: r = s) by congruence. subst s. clear E.
        apply hex_value_stands in A. apply hex_value_stands in B. destruct A as [A A'], B as [B B'].
        apply (hx_byte _ _ (N.to_nat x) (N.to_nat y)); auto; [|refine (proj1 (IH t r _) D); cbn in L; lia]. rewrite to_N_of by lia. rewrite Nnat.Nat2N.inj_add, Nnat.Nat2N.inj_mul, !Nnat.N2Nat.id. reflexivity.
      * intros H. inversion H as [|? ? i j c ? r A B V R]; subst. apply stands_hex_value in A. apply stands_hex_value in B. destruct A as [A _], B as [B _].
        rewrite A, B. rewrite (proj2 (IH t r ltac:(cbn in L; lia)) R). f_equal. f_equal. apply of_N_to. rewrite V, Nnat.Nat2N.inj_add, Nnat.Nat2N.inj_mul. reflexivity.
Qed.
Lemma hex_decodes t s : hex_decode t = Some s <-> hex_of t s.
Proof. apply (hex_decodes_go (length t)). lia. Qed.

(** ** Base64 *)
Lemma b64_digit_value c n : b64_value c = Some n -> b64_digit n = c /\ (n < 64)%N.
Proof. destruct c; cbn; intros H; try discriminate; injection H as <-; split; reflexivity. Qed.
Lemma b64_digit_alphabet n : (n < 64)%N -> b64_digit n = nth (N.to_nat n) alphabet x00.
Proof.
  intros H. assert (E : exists k, k < 64 /\ n = N.of_nat k) by (exists (N.to_nat n); lia).
  destruct E as (k & Hk & ->). clear H. rewrite Nnat.Nat2N.id. do 64 (destruct k as [|k]; [reflexivity|]). lia.
Qed.

Lemma bits_split j : forall k n m, (m < 2 ^ N.of_nat k)%N -> bits (j + k) (n * 2 ^ N.of_nat k + m) = bits j n ++ bits k m.
Proof.
  assert (low : forall k n m, (m < 2 ^ N.of_nat k)%N -> forall i, i <= k -> bits i (n * 2 ^ N.of_nat k + m) = bits i m).
  { intros k n m Hm. induction i as [|i IH]; intros L; [reflexivity|]. cbn [bits]. rewrite IH by lia. f_equal.
    rewrite <- (N.mod_pow2_bits_low (n * 2 ^ N.of_nat k + m) (N.of_nat k)) by lia. rewrite N.add_comm, N.mod_add by (apply N.pow_nonzero; lia). now rewrite N.mod_small. }
  intros k n m Hm. induction j as [|j IH]; cbn [Nat.add bits app]; [now apply low|]. rewrite IH. f_equal.
  rewrite Nnat.Nat2N.inj_add, <- (N.div_pow2_bits _ (N.of_nat k) (N.of_nat j)). f_equal. rewrite N.div_add_l by (apply N.pow_nonzero; lia). rewrite N.div_small by exact Hm. lia.
Qed.
Lemma bits_zero k : bits k 0 = repeat false k.
Proof. induction k; [reflexivity|]. cbn [bits repeat]. now rewrite IHk, N.bits_0. Qed.
Lemma bits_length k n : length (bits k n) = k.
Proof. induction k; [reflexivity|]. cbn. now rewrite IHk. Qed.
Lemma bits_injective k : forall n m, (n < 2 ^ N.of_nat k)%N -> (m < 2 ^ N.of_nat k)%N -> bits k n = bits k m -> n = m.
Proof.
  intros n m Hn Hm E. apply N.bits_inj. intros i.
  assert (G : forall j, j < k -> N.testbit n (N.of_nat j) = N.testbit m (N.of_nat j)).
  { clear Hn Hm i. induction k as [|k IH]; intros j L; [lia|]. cbn [bits] in E. injection E as E1 E2. destruct (Nat.eq_dec j k) as [->|]; [exact E1|]. apply IH; [exact E2|lia]. }
  destruct (N.lt_ge_cases i (N.of_nat k)) as [L|L].
  - replace i with (N.of_nat (N.to_nat i)) by lia. apply G. lia.
  - assert (B : forall x, (x < 2 ^ N.of_nat k)%N -> N.testbit x i = false).
    { intros x Hx. destruct (N.eq_dec x 0) as [->|NZ]; [apply N.bits_0|]. apply N.bits_above_log2. apply N.log2_lt_pow2 in Hx; lia. }
    now rewrite !B.
Qed.

Definition six (n : N) : list bool := bits 6 n.
Definition eight (c : byte) : list bool := bits 8 (Byte.to_N c).
Local Ltac bound c := pose proof (Byte.to_N_bounded c).
Lemma group3 a b c :
  let x := Byte.to_N a in let y := Byte.to_N b in let z := Byte.to_N c in
  bits 6 (x / 4) ++ bits 6 (x mod 4 * 16 + y / 16) ++ bits 6 (y mod 16 * 4 + z / 64) ++ bits 6 (z mod 64) =
  bits 8 x ++ bits 8 y ++ bits 8 z.
Proof.
  cbv zeta. bound a; bound b; bound c. set (x := Byte.to_N a) in *. set (y := Byte.to_N b) in *. set (z := Byte.to_N c) in *. clearbody x y z.
  assert (x mod 4 < 4)%N by (apply N.mod_lt; lia). assert (y / 16 < 16)%N by (apply N.div_lt_upper_bound; lia).
  assert (y mod 16 < 16)%N by (apply N.mod_lt; lia). assert (z / 64 < 4)%N by (apply N.div_lt_upper_bound; lia). assert (z mod 64 < 64)%N by (apply N.mod_lt; lia).
  assert (X : bits 8 x = bits 6 (x / 4) ++ bits 2 (x mod 4)).
  { rewrite <- (bits_split 6 2) by (cbn; lia). f_equal. pose proof (N.div_mod x 4). cbn [N.of_nat Pos.of_succ_nat N.pow Pos.pow Pos.iter Pos.mul]. cbn. lia. }
  assert (Y : bits 8 y = bits 4 (y / 16) ++ bits 4 (y mod 16)).
  { rewrite <- (bits_split 4 4) by (cbn; lia). f_equal. pose proof (N.div_mod y 16). cbn. lia. }
  assert (Z : bits 8 z = bits 2 (z / 64) ++ bits 6 (z mod 64)).
  { rewrite <- (bits_split 2 6) by (cbn; lia). f_equal. pose proof (N.div_mod z 64). cbn. lia. }
  assert (E1 : bits 6 (x mod 4 * 16 + y / 16) = bits 2 (x mod 4) ++ bits 4 (y / 16)) by (apply (bits_split 2 4); cbn; lia).
  assert (E2 : bits 6 (y mod 16 * 4 + z / 64) = bits 4 (y mod 16) ++ bits 2 (z / 64)) by (apply (bits_split 4 2); cbn; lia).
  rewrite X, Y, Z, E1, E2, <- !app_assoc. reflexivity.
Qed.

Lemma encodes_go k : forall s, length s <= k -> base64_of (b64_encode s) s.
Proof.
  assert (D : forall a b, let x := Byte.to_N a in let y := Byte.to_N b in
    (x / 4 < 64 /\ x mod 4 * 16 + y / 16 < 64 /\ y mod 16 * 4 + x / 64 < 64 /\ x mod 64 < 64)%N).
  { intros a b. cbv zeta. bound a; bound b. set (x := Byte.to_N a) in *. set (y := Byte.to_N b) in *. clearbody x y.
    assert (x mod 4 < 4)%N by (apply N.mod_lt; lia). assert (y / 16 < 16)%N by (apply N.div_lt_upper_bound; lia).
    assert (y mod 16 < 16)%N by (apply N.mod_lt; lia). assert (x / 64 < 4)%N by (apply N.div_lt_upper_bound; lia). assert (x mod 64 < 64)%N by (apply N.mod_lt; lia).
    assert (x / 4 < 64)%N by (apply N.div_lt_upper_bound; lia). lia. }
  induction k as [|k IH]; intros s L.
  - destruct s; [|cbn in L; lia]. exists [], 0. split; [reflexivity|]. split; [constructor|]. split; [reflexivity|]. split; [lia|]. now exists 0.
  - destruct s as [|a [|b [|c s]]].
    + exists [], 0. split; [reflexivity|]. split; [constructor|]. split; [reflexivity|]. split; [lia|]. now exists 0.
    + destruct (D a x00) as (D1 & D2 & _). cbv zeta in D1, D2. replace (Byte.to_N x00 / 16)%N with 0%N in D2 by reflexivity. rewrite N.add_0_r in D2.
      exists [N.to_nat (Byte.to_N a / 4); N.to_nat (Byte.to_N a mod 4 * 16)], 2. cbn [b64_encode map app repeat].
      rewrite !b64_digit_alphabet by assumption. split; [reflexivity|]. split; [repeat (apply Forall_cons; [lia|]); apply Forall_nil|]. split; [|split; [lia|now exists 1]].
      cbn [flat_map]. rewrite !Nnat.N2Nat.id, !app_nil_r. pose proof (group3 a x00 x00) as G. cbv zeta in G.
      replace (Byte.to_N x00) with 0%N in G by reflexivity. change (0 / 16)%N with 0%N in G. change (0 / 64)%N with 0%N in G. change (0 mod 16 * 4 + 0)%N with 0%N in G. change (0 mod 64)%N with 0%N in G. rewrite N.add_0_r in G.
      rewrite !bits_zero in G. rewrite app_assoc in G. change (repeat false 6 ++ repeat false 6) with (repeat false 12) in G.
      change (repeat false 8 ++ repeat false 8) with (repeat false 4 ++ repeat false 12) in G. rewrite app_assoc in G. apply app_inv_tail in G. exact G.
    + destruct (D a b) as (D1 & D2 & _). destruct (D x00 b) as (_ & _ & D3 & _). cbv zeta in D1, D2, D3. replace (Byte.to_N x00 / 64)%N with 0%N in D3 by reflexivity. rewrite N.add_0_r in D3.
      exists [N.to_nat (Byte.to_N a / 4); N.to_nat (Byte.to_N a mod 4 * 16 + Byte.to_N b / 16); N.to_nat (Byte.to_N b mod 16 * 4)], 1. cbn [b64_encode map app repeat].
      rewrite !b64_digit_alphabet by assumption. split; [reflexivity|]. split; [repeat (apply Forall_cons; [lia|]); apply Forall_nil|]. split; [|split; [lia|now exists 1]].
      cbn [flat_map]. rewrite !Nnat.N2Nat.id, !app_nil_r. pose proof (group3 a b x00) as G. cbv zeta in G.
      replace (Byte.to_N x00) with 0%N in G by reflexivity. change (0 / 64)%N with 0%N in G. change (0 mod 64)%N with 0%N in G. rewrite N.add_0_r in G. rewrite !bits_zero in G.
      change (repeat false 8) with (repeat false 2 ++ repeat false 6) in G. rewrite !app_assoc in G. apply app_inv_tail in G. rewrite <- !app_assoc in *. exact G.
    + destruct (D a b) as (D1 & D2 & _). destruct (D c b) as (_ & _ & D3 & D4). cbv zeta in D1, D2, D3, D4.
      destruct (IH s) as (ds & pad & E & F & B & P & n & Len); [cbn in L; lia|].
      exists (N.to_nat (Byte.to_N a / 4) :: N.to_nat (Byte.to_N a mod 4 * 16 + Byte.to_N b / 16) :: N.to_nat (Byte.to_N b mod 16 * 4 + Byte.to_N c / 64) :: N.to_nat (Byte.to_N c mod 64) :: ds), pad.
      cbn [b64_encode map app]. rewrite !b64_digit_alphabet by assumption. rewrite <- E. split; [reflexivity|]. split; [repeat (apply Forall_cons; [lia|]); exact F|]. split; [|split; [exact P|exists (S n); cbn [length]; lia]].
      cbn [flat_map]. rewrite !Nnat.N2Nat.id, B. pose proof (group3 a b c) as G. cbv zeta in G. rewrite !app_assoc in *. now rewrite G.
Qed.
Lemma encodes s : base64_of (b64_encode s) s.
Proof. apply (encodes_go (length s)). lia. Qed.

Lemma flat_length {A B} (f : A -> list B) k : (forall a, length (f a) = k) -> forall l, length (flat_map f l) = k * length l.
Proof. intros H. induction l as [|a l IH]; cbn; [lia|]. rewrite app_length, H, IH. lia. Qed.
Lemma six_injective : forall l l', Forall (fun d => d < 64) l -> Forall (fun d => d < 64) l' ->
  flat_map (fun d => bits 6 (N.of_nat d)) l = flat_map (fun d => bits 6 (N.of_nat d)) l' -> l = l'.
Proof.
  induction l as [|d l IH]; intros [|d' l'] F F' E; [reflexivity|discriminate|discriminate|].
  inversion F as [|? ? D F1]; inversion F' as [|? ? D' F1']; subst. cbn [flat_map] in E.
  assert (H : bits 6 (N.of_nat d) = bits 6 (N.of_nat d') /\ flat_map (fun d => bits 6 (N.of_nat d)) l = flat_map (fun d => bits 6 (N.of_nat d)) l').
  { apply (f_equal (firstn 6)) in E as E1. apply (f_equal (skipn 6)) in E as E2. split; [exact E1|exact E2]. }
  destruct H as [H H']. apply bits_injective in H; [|cbn; lia|cbn; lia]. f_equal; [lia|auto].
Qed.
Lemma encoding_unique t t' s : base64_of t s -> base64_of t' s -> t = t'.
Proof.
  intros (ds & pad & -> & F & B & P & k & L) (ds' & pad' & -> & F' & B' & P' & k' & L').
  apply (f_equal (@length bool)) in B as N. apply (f_equal (@length bool)) in B' as N'.
  rewrite app_length, repeat_length, (flat_length _ 6), (flat_length _ 8) in N, N' by (intros; apply bits_length).
  rewrite app_length, map_length, repeat_length in L, L'. assert (pad = pad') by lia. subst pad'.
  rewrite <- B' in B. apply six_injective in B; auto. now subst.
Qed.
Lemma encodes_iff t s : base64_of t s <-> t = b64_encode s.
Proof. split; [intros H; exact (encoding_unique _ _ _ H (encodes s))|intros ->; apply encodes]. Qed.

(** Decoding takes what encoding gives, without some of the padding. *)
Lemma digit_not_pad n : (n < 64)%N -> b64_digit n <> x3d.
Proof. intros H E. destruct (b64_value_digit n H) as [_ P]. rewrite E in P. discriminate. Qed.
Lemma decode_group a b c t r : b64_decode t = Some r ->
  b64_decode (b64_digit (Byte.to_N a / 4) :: b64_digit (Byte.to_N a mod 4 * 16 + Byte.to_N b / 16) :: b64_digit (Byte.to_N b mod 16 * 4 + Byte.to_N c / 64) :: b64_digit (Byte.to_N c mod 64) :: t)
  = Some (a :: b :: c :: r).
Proof.
  intros E. pose proof (b64_round [a; b; c]) as R. cbn [b64_encode b64_decode] in R |- *. rewrite E.
  bound a; bound b; bound c.
  assert (D3 : (Byte.to_N b mod 16 * 4 + Byte.to_N c / 64 < 64)%N).
  { assert (Byte.to_N b mod 16 < 16)%N by (apply N.mod_lt; lia). assert (Byte.to_N c / 64 < 4)%N by (apply N.div_lt_upper_bound; lia). lia. }
  assert (D4 : (Byte.to_N c mod 64 < 64)%N) by (apply N.mod_lt; lia).
  destruct (b64_value_digit _ D3) as [V3 P3]. destruct (b64_value_digit _ D4) as [V4 P4]. rewrite P3, P4 in R |- *.
  destruct (b64_value (b64_digit (Byte.to_N a / 4))), (b64_value (b64_digit (Byte.to_N a mod 4 * 16 + Byte.to_N b / 16))); try discriminate.
  rewrite V3, V4 in R |- *. injection R as -> -> ->. reflexivity.
Qed.
Lemma decode_last1 a b v w : b64_value a = Some v -> b64_value b = Some w -> forall s,
  (b64_decode [a; b] = Some s <-> b64_decode [a; b; x3d; x3d] = Some s) /\ (b64_decode [a; b; x3d] = Some s <-> b64_decode [a; b; x3d; x3d] = Some s).
Proof. intros A B s. cbn. rewrite A, B. tauto. Qed.
Lemma decode_last2 a b c : is_pad c = false -> b64_decode [a; b; c] = b64_decode [a; b; c; x3d].
Proof. intros C. cbn [b64_decode]. rewrite C. change (is_pad x3d) with true. cbn. destruct (b64_value a), (b64_value b), (b64_value c); reflexivity. Qed.

Lemma decode_complete_go n : forall s t k, length s <= n -> b64_encode s = t ++ repeat x3d k -> b64_decode t = Some s.
Proof.
  induction n as [|n IH]; intros s t k L E.
  - destruct s; [|cbn in L; lia]. destruct t; [reflexivity|discriminate].
  - destruct s as [|a [|b [|c s]]].
    + destruct t; [reflexivity|discriminate].
    + pose proof (b64_round [a]) as R. cbn [b64_encode] in E, R. bound a.
      assert (D1 : (Byte.to_N a / 4 < 64)%N) by (apply N.div_lt_upper_bound; lia).
      assert (D2 : (Byte.to_N a mod 4 * 16 < 64)%N) by (assert (Byte.to_N a mod 4 < 4)%N by (apply N.mod_lt; lia); lia).
      destruct (b64_value_digit _ D1) as [V1 P1]. destruct (b64_value_digit _ D2) as [V2 P2]. destruct (decode_last1 _ _ _ _ V1 V2 [a]) as [Q1 Q2].
      destruct t as [|t1 [|t2 [|t3 [|t4 [|t5 t]]]]]; cbn [app] in E.
      * destruct k; [discriminate|]. cbn [repeat] in E. injection E as E _. now apply digit_not_pad in E.
      * injection E as <- E. destruct k; [discriminate|]. cbn [repeat] in E. injection E as E _. now apply digit_not_pad in E.
      * injection E as <- <- E. now apply Q1.
      * injection E as <- <- <- E. now apply Q2.
      * injection E as <- <- <- <- E. exact R.
      * discriminate.
    + pose proof (b64_round [a; b]) as R. cbn [b64_encode] in E, R. bound a; bound b.
      assert (D1 : (Byte.to_N a / 4 < 64)%N) by (apply N.div_lt_upper_bound; lia).
      assert (D2 : (Byte.to_N a mod 4 * 16 + Byte.to_N b / 16 < 64)%N).
      { assert (Byte.to_N a mod 4 < 4)%N by (apply N.mod_lt; lia). assert (Byte.to_N b / 16 < 16)%N by (apply N.div_lt_upper_bound; lia). lia. }
      assert (D3 : (Byte.to_N b mod 16 * 4 < 64)%N) by (assert (Byte.to_N b mod 16 < 16)%N by (apply N.mod_lt; lia); lia).
      destruct (b64_value_digit _ D3) as [_ P3].
      destruct t as [|t1 [|t2 [|t3 [|t4 [|t5 t]]]]]; cbn [app] in E.
      * destruct k; [discriminate|]. cbn [repeat] in E. injection E as E _. now apply digit_not_pad in E.
      * injection E as <- E. destruct k; [discriminate|]. cbn [repeat] in E. injection E as E _. now apply digit_not_pad in E.
      * injection E as <- <- E. destruct k; [discriminate|]. cbn [repeat] in E. injection E as E _. now apply digit_not_pad in E.
      * injection E as <- <- <- E. now rewrite decode_last2.
      * injection E as <- <- <- <- E. exact R.
      * discriminate.
    + cbn [b64_encode] in E. bound a; bound b; bound c.
      assert (D1 : (Byte.to_N a / 4 < 64)%N) by (apply N.div_lt_upper_bound; lia).
      assert (D2 : (Byte.to_N a mod 4 * 16 + Byte.to_N b / 16 < 64)%N).
      { assert (Byte.to_N a mod 4 < 4)%N by (apply N.mod_lt; lia). assert (Byte.to_N b / 16 < 16)%N by (apply N.div_lt_upper_bound; lia). lia. }
      assert (D3 : (Byte.to_N b mod 16 * 4 + Byte.to_N c / 64 < 64)%N).
      { assert (Byte.to_N b mod 16 < 16)%N by (apply N.mod_lt; lia). assert (Byte.to_N c / 64 < 4)%N by (apply N.div_lt_upper_bound; lia). lia. }
      assert (D4 : (Byte.to_N c mod 64 < 64)%N) by (apply N.mod_lt; lia).
      destruct t as [|t1 [|t2 [|t3 [|t4 t]]]]; cbn [app] in E.
      * destruct k; [discriminate|]. cbn [repeat] in E. injection E as E _. now apply digit_not_pad in E.
      * injection E as <- E. destruct k; [discriminate|]. cbn [repeat] in E. injection E as E _. now apply digit_not_pad in E.
      * injection E as <- <- E. destruct k; [discriminate|]. cbn [repeat] in E. injection E as E _. now apply digit_not_pad in E.
      * injection E as <- <- <- E. destruct k; [discriminate|]. cbn [repeat] in E. injection E as E _. now apply digit_not_pad in E.
      * injection E as <- <- <- <- E. apply decode_group. apply (IH s t k); [cbn in L; lia|exact E].
Qed.

Lemma group_back x y : (x < 64)%N -> (y < 64)%N ->
  let n := (x * 4 + y / 16)%N in (n < 256 /\ n / 4 = x /\ n mod 4 = y / 16)%N.
Proof.
  intros X Y n. subst n. assert (y / 16 < 4)%N by (apply N.div_lt_upper_bound; lia). split; [lia|]. split.
  - rewrite N.div_add_l, N.div_small; lia.
  - rewrite N.add_comm, N.mod_add, N.mod_small; lia.
Qed.
Lemma group_back2 y z : (y < 64)%N -> (z < 64)%N ->
  let n := (y mod 16 * 16 + z / 4)%N in (n < 256 /\ n / 16 = y mod 16 /\ n mod 16 = z / 4)%N.
Proof.
  intros X Y n. subst n. assert (z / 4 < 16)%N by (apply N.div_lt_upper_bound; lia). assert (y mod 16 < 16)%N by (apply N.mod_lt; lia). split; [lia|]. split.
  - rewrite N.div_add_l, N.div_small; lia.
  - rewrite N.add_comm, N.mod_add, N.mod_small; lia.
Qed.
Lemma group_back3 z u : (z < 64)%N -> (u < 64)%N ->
  let n := (z mod 4 * 64 + u)%N in (n < 256 /\ n / 64 = z mod 4 /\ n mod 64 = u)%N.
Proof.
  intros X Y n. subst n. assert (z mod 4 < 4)%N by (apply N.mod_lt; lia). split; [lia|]. split.
  - rewrite N.div_add_l, N.div_small; lia.
  - rewrite N.add_comm, N.mod_add, N.mod_small; lia.
Qed.
Lemma last1_back a b x y : b64_value a = Some x -> b64_value b = Some y -> (y mod 16 = 0)%N ->
  b64_encode [byte_of (x * 4 + y / 16)] = [a; b; x3d; x3d].
Proof.
  intros A B Z. apply b64_digit_value in A. apply b64_digit_value in B. destruct A as [A X], B as [B Y]. destruct (group_back x y X Y) as (L & D & M).
  cbn [b64_encode]. rewrite to_N_of by exact L. rewrite D, M. replace (y / 16 * 16)%N with y by (pose proof (N.div_mod y 16); lia). now rewrite A, B.
Qed.
Lemma last2_back a b c x y z : b64_value a = Some x -> b64_value b = Some y -> b64_value c = Some z -> (z mod 4 = 0)%N ->
  b64_encode [byte_of (x * 4 + y / 16); byte_of (y mod 16 * 16 + z / 4)] = [a; b; c; x3d].
Proof.
  intros A B C Q. apply b64_digit_value in A. apply b64_digit_value in B. apply b64_digit_value in C. destruct A as [A X], B as [B Y], C as [C Z].
  destruct (group_back x y X Y) as (L & D & M). destruct (group_back2 y z Y Z) as (L2 & D2 & M2).
  cbn [b64_encode]. rewrite !to_N_of by assumption. rewrite D, M, D2, M2. replace (y / 16 * 16 + y mod 16)%N with y by (pose proof (N.div_mod y 16); lia).
  replace (z / 4 * 4)%N with z by (pose proof (N.div_mod z 4); lia). now rewrite A, B, C.
Qed.
Lemma decode_sound_go n : forall t s, length t <= n -> b64_decode t = Some s -> exists k, b64_encode s = t ++ repeat x3d k.
Proof.
  induction n as [|n IH]; intros t s L E.
  - destruct t; [|cbn in L; lia]. injection E as <-. now exists 0.
  - destruct t as [|a [|b [|c [|d t]]]].
    + injection E as <-. now exists 0.
    + discriminate.
    + cbn [b64_decode] in E. destruct (b64_value a) as [x|] eqn:A; [|discriminate]. destruct (b64_value b) as [y|] eqn:B; [|discriminate].
      destruct (y mod 16 =? 0)%N eqn:Q; [|discriminate]. injection E as <-. exists 2. apply N.eqb_eq in Q. now apply last1_back.
    + cbn [b64_decode] in E. destruct (is_pad c) eqn:P.
      * apply byte_eqb_eq in P. subst c. destruct (b64_value a) as [x|] eqn:A; [|discriminate]. destruct (b64_value b) as [y|] eqn:B; [|discriminate].
        destruct (y mod 16 =? 0)%N eqn:Q; [|discriminate]. injection E as <-. exists 1. apply N.eqb_eq in Q. now apply last1_back.
      * destruct (b64_value a) as [x|] eqn:A; [|discriminate]. destruct (b64_value b) as [y|] eqn:B; [|discriminate]. destruct (b64_value c) as [z|] eqn:C; [|discriminate].
        destruct (z mod 4 =? 0)%N eqn:Q; [|discriminate]. injection E as <-. exists 1. apply N.eqb_eq in Q. now apply last2_back.
    + cbn [b64_decode] in E. destruct (is_pad c) eqn:P.
      * destruct (is_pad d) eqn:P'; [|discriminate]. apply byte_eqb_eq in P, P'. subst c d. destruct t; [|discriminate].
        destruct (b64_value a) as [x|] eqn:A; [|discriminate]. destruct (b64_value b) as [y|] eqn:B; [|discriminate].
        destruct (y mod 16 =? 0)%N eqn:Q; [|discriminate]. injection E as <-. exists 0. apply N.eqb_eq in Q. now apply last1_back.
      * destruct (is_pad d) eqn:P'.
        -- apply byte_eqb_eq in P'. subst d. destruct t; [|discriminate].
           destruct (b64_value a) as [x|] eqn:A; [|discriminate]. destruct (b64_value b) as [y|] eqn:B; [|discriminate]. destruct (b64_value c) as [z|] eqn:C; [|discriminate].
           destruct (z mod 4 =? 0)%N eqn:Q; [|discriminate]. injection E as <-. exists 0. apply N.eqb_eq in Q. now apply last2_back.
        -- destruct (b64_value a) as [x|] eqn:A; [|discriminate]. destruct (b64_value b) as [y|] eqn:B; [|discriminate]. destruct (b64_value c) as [z|] eqn:C; [|discriminate].
           destruct (b64_value d) as [u|] eqn:D; [|discriminate]. destruct (b64_decode t) as [r|] eqn:R; [|discriminate]. injection E as <-.
           destruct (IH t r) as [k K]; [cbn in L; lia|exact R|]. exists k.
           apply b64_digit_value in A. apply b64_digit_value in B. apply b64_digit_value in C. apply b64_digit_value in D. destruct A as [A X], B as [B Y], C as [C Z], D as [D U].
           destruct (group_back x y X Y) as (L1 & D1 & M1). destruct (group_back2 y z Y Z) as (L2 & D2 & M2). destruct (group_back3 z u Z U) as (L3 & D3 & M3).
           cbn [b64_encode app]. rewrite !to_N_of by assumption. rewrite D1, M1, D2, M2, D3, M3, K.
           replace (y / 16 * 16 + y mod 16)%N with y by (pose proof (N.div_mod y 16); lia).
           replace (z / 4 * 4 + z mod 4)%N with z by (pose proof (N.div_mod z 4); lia). now rewrite A, B, C, D.
Qed.
Lemma b64_decodes t s : b64_decode t = Some s <-> exists k, base64_of (t ++ repeat x3d k) s.
Proof.
  split.
  - intros E. apply (decode_sound_go (length t)) in E; [|lia]. destruct E as [k E]. exists k. apply encodes_iff. auto.
  - intros [k H]. apply encodes_iff in H. apply (decode_complete_go (length s) s t k); auto.
Qed.

Section Code.
Context {W : Type} (X : ext W).
Lemma hex_decode_std t n args p h w :
  (forall s, hex_of t s -> std_call X n args SHexDecode [VStr t] p h w = Val (VStr s) (h, w)) /\
  ((forall s, ~ hex_of t s) -> exists e, std_call X n args SHexDecode [VStr t] p h w = Val (VErr e (VStr t)) (h, w)).
Proof.
  cbn [std_call]. split.
  - intros s H. apply hex_decodes in H. now rewrite H.
  - intros H. destruct (hex_decode t) as [s|] eqn:E; [apply hex_decodes in E; now apply H in E|]. eexists. reflexivity.
Qed.
Lemma base64_encode_std s n args p h w :
  exists t, std_call X n args SBase64Encode [VStr s] p h w = Val (VStr t) (h, w) /\ base64_of t s.
Proof. exists (b64_encode s). split; [reflexivity|apply encodes]. Qed.
Lemma base64_decode_std t n args p h w :
  (forall s k, base64_of (t ++ repeat x3d k) s -> std_call X n args SBase64Decode [VStr t] p h w = Val (VStr s) (h, w)) /\
  ((forall s k, ~ base64_of (t ++ repeat x3d k) s) -> exists e, std_call X n args SBase64Decode [VStr t] p h w = Val (VErr e (VStr t)) (h, w)).
Proof.
  cbn [std_call]. split.
  - intros s k H. assert (E : b64_decode t = Some s) by (apply b64_decodes; eauto). now rewrite E.
  - intros H. destruct (b64_decode t) as [s|] eqn:E; [apply b64_decodes in E; destruct E as [k E]; now apply H in E|]. eexists. reflexivity.
Qed.
Lemma split_empty_std s n args p h w :
  exists l h', std_call X n args SSplit [VStr s; VStr []] p h w = Val (VArr l) (h', w) /\
    arr_get h' l = VStr [] :: map (fun c => VStr [c]) s ++ [VStr []].
Proof.
  eexists _, _. split; [reflexivity|]. unfold arr_get. cbn [h_arrs]. rewrite nth_app_last. cbn [split_str map]. now rewrite map_app, map_map.
Qed.
Lemma exit_std z n args p h w :
  std_call X n args SExit [VInt z] p h w =
  if ((0 <=? z) && (z <=? 255))%Z then Exit z (h, w) else Pan (PValueError (VInt z) (bs "valid exit code") p) (h, w).
Proof. reflexivity. Qed.
Lemma exit_law z n args p h w :
  ((0 <= z < 256)%Z -> std_call X n args SExit [VInt z] p h w = Exit z (h, w) /\ (z mod 256 = z)%Z) /\
  (~ (0 <= z < 256)%Z -> exists t, std_call X n args SExit [VInt z] p h w = Pan (PValueError (VInt z) t p) (h, w)).
Proof.
  rewrite exit_std. split.
  - intros R. split; [|now apply Z.mod_small]. replace ((0 <=? z) && (z <=? 255))%Z with true by (symmetry; apply andb_true_iff; split; apply Z.leb_le; lia). reflexivity.
  - intros R. replace ((0 <=? z) && (z <=? 255))%Z with false; [eauto|]. symmetry. apply andb_false_iff. rewrite !Z.leb_gt. lia.
Qed.
End Code.
