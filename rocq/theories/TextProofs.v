(** Proofs about the text functions. *)
From Verif Require Import Base Text SpecText.

(** ** Hexadecimal *)
Lemma hex_step c s : hex_decode (hex_encode (c :: s)) = option_map (cons c) (hex_decode (hex_encode s)).
Proof.
  cbn [hex_encode hex_decode]. destruct (hex_decode (hex_encode s)) as [r|]; destruct c; reflexivity.
Qed.

Lemma hex_round s : hex_decode (hex_encode s) = Some s.
Proof. induction s as [|c s IH]; [reflexivity|]. now rewrite hex_step, IH. Qed.

Lemma hex_digits c :
  exists i j, hex_digit (Byte.to_N c / 16) = nth i lower_hex x00 /\ hex_digit (Byte.to_N c mod 16) = nth j lower_hex x00 /\
    i < 16 /\ j < 16 /\ Byte.to_N c = N.of_nat (16 * i + j).
Proof.
  exists (N.to_nat (Byte.to_N c / 16)), (N.to_nat (Byte.to_N c mod 16)).
  destruct c; vm_compute; repeat split; lia.
Qed.

Lemma hex_shape s : exists ds, hex_encode s = flat_map (fun ij => [nth (fst ij) lower_hex x00; nth (snd ij) lower_hex x00]) ds /\
  Forall2 (fun c ij => fst ij < 16 /\ snd ij < 16 /\ Byte.to_N c = N.of_nat (16 * fst ij + snd ij)) s ds.
Proof.
  induction s as [|c s (ds & E & F)]; [exists []; split; constructor|].
  destruct (hex_digits c) as (i & j & Hi & Hj & Bi & Bj & V).
  exists ((i, j) :: ds). split; [|constructor; auto]. cbn [hex_encode flat_map fst snd app]. now rewrite Hi, Hj, E.
Qed.

(** ** Base64 *)
Lemma b64_value_digit n : (n < 64)%N -> b64_value (b64_digit n) = Some n /\ is_pad (b64_digit n) = false.
Proof.
  intros H. assert (E : exists k, k < 64 /\ n = N.of_nat k) by (exists (N.to_nat n); lia).
  destruct E as (k & Hk & ->). clear H.
  do 64 (destruct k as [|k]; [vm_compute; auto|]). lia.
Qed.

Local Ltac bound c := pose proof (Byte.to_N_bounded c).

Lemma byte_of_N c : byte_of (Byte.to_N c) = c.
Proof. destruct c; reflexivity. Qed.

Lemma b64_round_go k : forall s, length s <= k -> b64_decode (b64_encode s) = Some s.
Proof.
  induction k as [|k IH]; intros s L.
  - destruct s; [reflexivity|cbn in L; lia].
  - destruct s as [|a [|b [|c s]]]; [reflexivity| | |].
    + destruct a; vm_compute; reflexivity.
    + cbn [b64_encode b64_decode]. bound a; bound b.
      set (x := Byte.to_N a) in *. set (y := Byte.to_N b) in *.
      assert (x / 4 < 64)%N by (apply N.div_lt_upper_bound; lia).
      assert (x mod 4 < 4)%N by (apply N.mod_lt; lia).
      assert (y / 16 < 16)%N by (apply N.div_lt_upper_bound; lia).
      assert (y mod 16 < 16)%N by (apply N.mod_lt; lia).
      destruct (b64_value_digit (x / 4)) as [V1 P1]; [lia|].
      destruct (b64_value_digit (x mod 4 * 16 + y / 16)) as [V2 P2]; [lia|].
      destruct (b64_value_digit (y mod 16 * 4)) as [V3 P3]; [lia|].
      rewrite V1, V2, V3, P3. replace (is_pad x3d) with true by reflexivity.
      rewrite N.mod_mul by lia. cbn [N.eqb].
      assert (D1 : ((x mod 4 * 16 + y / 16) / 16 = x mod 4)%N).
      { rewrite N.div_add_l by lia. rewrite (N.div_small (y / 16)) by lia. lia. }
      assert (D2 : ((x mod 4 * 16 + y / 16) mod 16 = y / 16)%N).
      { rewrite N.add_comm, N.mod_add by lia. apply N.mod_small. lia. }
      rewrite D1, D2, N.div_mul by lia.
      replace (x / 4 * 4 + x mod 4)%N with x by (pose proof (N.div_mod x 4); lia).
      replace (y / 16 * 16 + y mod 16)%N with y by (pose proof (N.div_mod y 16); lia).
      subst x y. now rewrite !byte_of_N.
    + cbn [b64_encode b64_decode]. bound a; bound b; bound c.
      set (x := Byte.to_N a) in *. set (y := Byte.to_N b) in *. set (z := Byte.to_N c) in *.
      assert (x / 4 < 64)%N by (apply N.div_lt_upper_bound; lia).
      assert (x mod 4 < 4)%N by (apply N.mod_lt; lia).
      assert (y / 16 < 16)%N by (apply N.div_lt_upper_bound; lia).
      assert (y mod 16 < 16)%N by (apply N.mod_lt; lia).
      assert (z / 64 < 4)%N by (apply N.div_lt_upper_bound; lia).
      assert (z mod 64 < 64)%N by (apply N.mod_lt; lia).
      destruct (b64_value_digit (x / 4)) as [V1 P1]; [lia|].
      destruct (b64_value_digit (x mod 4 * 16 + y / 16)) as [V2 P2]; [lia|].
      destruct (b64_value_digit (y mod 16 * 4 + z / 64)) as [V3 P3]; [lia|].
      destruct (b64_value_digit (z mod 64)) as [V4 P4]; [lia|].
      rewrite V1, V2, V3, V4, P3, P4. rewrite IH by (cbn in L; lia).
      assert (D1 : ((x mod 4 * 16 + y / 16) / 16 = x mod 4)%N).
      { rewrite N.div_add_l by lia. rewrite (N.div_small (y / 16)) by lia. lia. }
      assert (D2 : ((x mod 4 * 16 + y / 16) mod 16 = y / 16)%N).
      { rewrite N.add_comm, N.mod_add by lia. apply N.mod_small. lia. }
      assert (D3 : ((y mod 16 * 4 + z / 64) / 4 = y mod 16)%N).
      { rewrite N.div_add_l by lia. rewrite (N.div_small (z / 64)) by lia. lia. }
      assert (D4 : ((y mod 16 * 4 + z / 64) mod 4 = z / 64)%N).
      { rewrite N.add_comm, N.mod_add by lia. apply N.mod_small. lia. }
      rewrite D1, D2, D3, D4.
      replace (x / 4 * 4 + x mod 4)%N with x by (pose proof (N.div_mod x 4); lia).
      replace (y / 16 * 16 + y mod 16)%N with y by (pose proof (N.div_mod y 16); lia).
      replace (z / 64 * 64 + z mod 64)%N with z by (pose proof (N.div_mod z 64); lia).
      subst x y z. now rewrite !byte_of_N.
Qed.

Lemma b64_round s : b64_decode (b64_encode s) = Some s.
Proof. exact (b64_round_go (length s) s (le_n _)). Qed.

Lemma b64_injective s t : b64_encode s = b64_encode t -> s = t.
Proof. intros E. pose proof (b64_round s) as A. rewrite E, b64_round in A. congruence. Qed.

Lemma b64_length_go k : forall s, length s <= k -> length (b64_encode s) = 4 * ((length s + 2) / 3).
Proof.
  induction k as [|k IH]; intros s L.
  - destruct s; [reflexivity|cbn in L; lia].
  - destruct s as [|a [|b [|c s]]]; [reflexivity|reflexivity|reflexivity|].
    cbn [b64_encode length]. rewrite IH by (cbn in L; lia).
    replace (S (S (S (length s))) + 2) with ((length s + 2) + 1 * 3) by lia.
    rewrite Nat.div_add by lia. lia.
Qed.
Lemma b64_length s : length (b64_encode s) = 4 * ((length s + 2) / 3).
Proof. exact (b64_length_go (length s) s (le_n _)). Qed.

(** ** Searching *)
Lemma byte_eqb_eq a b : byte_eqb a b = true <-> a = b.
Proof. split; [apply Byte.byte_dec_bl|apply Byte.byte_dec_lb]. Qed.

Lemma bytes_eqb_eq a : forall b, bytes_eqb a b = true <-> a = b.
Proof.
  induction a as [|x a IH]; destruct b as [|y b]; cbn [bytes_eqb]; try (split; congruence).
  rewrite andb_true_iff, byte_eqb_eq, IH. split; [intros [-> ->]; reflexivity|]. intros E. now injection E.
Qed.

Lemma prefix_of_spec p : forall s, prefix_of p s = true <-> exists b, s = p ++ b.
Proof.
  induction p as [|x p IH]; intros s; cbn [prefix_of].
  - split; [intros _; now exists s|reflexivity].
  - destruct s as [|y s]; [split; [discriminate|intros [b E]; discriminate]|].
    rewrite andb_true_iff, byte_eqb_eq, IH. split.
    + intros [-> [b ->]]. now exists b.
    + intros [b E]. injection E as -> ->. eauto.
Qed.

Lemma find_some p : forall s i, find p s = Some i ->
  exists a b, s = a ++ p ++ b /\ length a = i /\ first_occurrence p a b.
Proof.
  induction s as [|c s IH]; intros i; cbn [find].
  - destruct (prefix_of p []) eqn:P; [|discriminate]. intros E. injection E as <-.
    apply prefix_of_spec in P. destruct P as [b ->]. exists [], b. repeat split; auto. intros j _. cbn. lia.
  - destruct (prefix_of p (c :: s)) eqn:P.
    + intros E. injection E as <-. apply prefix_of_spec in P. destruct P as [b ->]. exists [], b. repeat split; auto.
      intros j _. cbn. lia.
    + destruct (find p s) as [k|] eqn:F; [|discriminate]. cbn. intros E. injection E as <-.
      destruct (IH k eq_refl) as (a & b & -> & L & N). exists (c :: a), b. cbn. repeat split; auto.
      intros j (u & v & E & Lu). destruct u as [|c' u].
      * cbn in E. cbn in P. exfalso. assert (prefix_of p (c :: a ++ p ++ b) = true) as P'; [|congruence].
        apply prefix_of_spec. eauto.
      * cbn in E. injection E as _ E. cbn in Lu. subst j. cbn. apply le_n_S. apply N. exists u, v. auto.
Qed.

Lemma find_none p : forall s, find p s = None -> ~ occurs p s.
Proof.
  induction s as [|c s IH]; cbn [find].
  - destruct (prefix_of p []) eqn:P; [discriminate|]. intros _ (i & a & b & E & _).
    destruct a; [|discriminate]. cbn in E. assert (prefix_of p [] = true); [|congruence].
    apply prefix_of_spec. eauto.
  - destruct (prefix_of p (c :: s)) eqn:P; [discriminate|].
    destruct (find p s) as [k|] eqn:F; [discriminate|]. intros _ (i & a & b & E & _). destruct a as [|c' a].
    + cbn in E. assert (prefix_of p (c :: s) = true); [|congruence]. apply prefix_of_spec. eauto.
    + cbn in E. injection E as _ ->. apply (IH eq_refl). exists (length a), a, b. auto.
Qed.

Lemma skip_occurrence (a p b : bytes) : skipn (length a + length p) (a ++ p ++ b) = b.
Proof. rewrite app_assoc, <- app_length. rewrite skipn_app, skipn_all, Nat.sub_diag. reflexivity. Qed.

Lemma firstn_here (a b : bytes) : firstn (length a) (a ++ b) = a.
Proof. rewrite firstn_app, Nat.sub_diag, firstn_all. cbn. apply app_nil_r. Qed.

Lemma split_go_pieces p : p <> [] -> forall n s, length s <= n -> pieces p s (split_go n p s).
Proof.
  intros NE. induction n as [|n IH]; intros s L; cbn [split_go].
  - apply pieces_last. intros (i & a & b & E & _). destruct s; [|cbn in L; lia].
    destruct a; [|discriminate]. destruct p; [congruence|discriminate].
  - destruct (find p s) as [i|] eqn:F.
    + apply find_some in F. destruct F as (a & b & -> & <- & N).
      rewrite firstn_here, skip_occurrence. apply pieces_more; [exact N|]. apply IH.
      rewrite !app_length in L. destruct p; [congruence|]. cbn in L. lia.
    + apply pieces_last, find_none, F.
Qed.

Lemma pieces_unique p s l : pieces p s l -> forall l', pieces p s l' -> l = l'.
Proof.
  induction 1 as [s N|a b r Fa P IH]; intros l' P'; inversion P' as [? N'|a' b' r' Fa' Pb E]; subst.
  - reflexivity.
  - destruct N. exists (length a'), a', b'. auto.
  - destruct N'. exists (length a), a, b. auto.
  - assert (L : length a = length a').
    { apply Nat.le_antisymm.
      - apply Fa. exists a', b'. auto.
      - apply Fa'. exists a, b. auto. }
    assert (EE : a = a' /\ b = b').
    { pose proof (f_equal (firstn (length a)) E) as E1. rewrite firstn_here in E1. rewrite L, firstn_here in E1.
      subst a'. split; [reflexivity|]. now apply app_inv_head, app_inv_head in E. }
    destruct EE as [<- <-]. f_equal. apply IH. exact Pb.
Qed.

Lemma pieces_nonempty p s l : pieces p s l -> l <> [].
Proof. destruct 1; discriminate. Qed.

Lemma pieces_join p s l : pieces p s l -> join p l = s.
Proof.
  induction 1 as [s N|a b r Fa P IH]; [reflexivity|].
  cbn [join]. destruct r as [|x r]; [destruct (pieces_nonempty _ _ _ P eq_refl)|]. now rewrite IH.
Qed.

Lemma occurs_prefix (p a b : bytes) : p <> [] -> occurs p a -> exists i, occurs_at p (a ++ p ++ b) i /\ i < length a.
Proof.
  intros NE (i & u & v & -> & L). exists i. split.
  - exists u, (v ++ p ++ b). split; [|exact L]. now rewrite <- !app_assoc.
  - rewrite !app_length. destruct p; [congruence|]. cbn. lia.
Qed.

Lemma pieces_free p s l : p <> [] -> pieces p s l -> Forall (fun x => ~ occurs p x) l.
Proof.
  intros NE. induction 1 as [s N|a b r Fa P IH]; constructor; auto.
  intros O. destruct (occurs_prefix p a b NE O) as (i & Oi & Li). specialize (Fa i Oi). lia.
Qed.

Lemma split_pieces s p : p <> [] -> pieces p s (split_str s p).
Proof. intros NE. unfold split_str. destruct p as [|c p]; [congruence|]. now apply split_go_pieces. Qed.

Lemma replace_go_join p r : p <> [] -> forall n s, length s <= n -> replace_go n p r s = join r (split_go n p s).
Proof.
  intros NE. induction n as [|n IH]; intros s L; cbn [split_go replace_go]; [reflexivity|].
  destruct (find p s) as [i|] eqn:F; [|reflexivity].
  apply find_some in F. destruct F as (a & b & -> & <- & N). rewrite firstn_here, skip_occurrence.
  assert (Lb : length b <= n) by (rewrite !app_length in L; destruct p; [congruence|]; cbn in L; lia).
  rewrite IH by exact Lb. cbn [join]. pose proof (split_go_pieces p NE n b Lb) as P.
  destruct (split_go n p b) as [|x l]; [destruct (pieces_nonempty _ _ _ P eq_refl)|]. reflexivity.
Qed.

Lemma replace_join s p r : p <> [] -> replace_str s p r = join r (split_str s p).
Proof. intros NE. unfold replace_str, split_str. destruct p as [|c p]; [congruence|]. now apply replace_go_join. Qed.

Lemma replace_empty s r : replace_str s [] r = r ++ flat_map (fun c => c :: r) s.
Proof. reflexivity. Qed.

Lemma replace_absent s p r : ~ occurs p s -> replace_str s p r = s.
Proof.
  intros N. assert (NE : p <> []). { intros ->. apply N. exists 0, [], s. auto. }
  rewrite replace_join by exact NE.
  rewrite (pieces_unique p s (split_str s p) (split_pieces s p NE) [s]); [reflexivity|]. now apply pieces_last.
Qed.

Lemma flat_map_cons_nil (s : bytes) : flat_map (fun c => [c]) s = s.
Proof. induction s as [|c s IH]; [reflexivity|]. cbn. now rewrite IH. Qed.

Lemma replace_same s p : replace_str s p p = s.
Proof.
  destruct p as [|c p].
  - cbn [replace_str app]. apply flat_map_cons_nil.
  - rewrite replace_join by discriminate. apply pieces_join, split_pieces. discriminate.
Qed.

(** ** Substrings *)
Lemma skipn_skipn {A} i : forall j (l : list A), skipn i (skipn j l) = skipn (j + i) l.
Proof. induction j as [|j IH]; intros l; [reflexivity|]. destruct l as [|x l]; cbn [skipn]; [apply skipn_nil|apply IH]. Qed.

Lemma substr_spec s start len :
  (Z.of_nat (length s) <= i64_max)%Z -> in_i64 start = true -> in_i64 len = true ->
  (forall t, substr s start len = Some t <->
     exists a b, s = a ++ t ++ b /\ Z.of_nat (length a) = start /\ Z.of_nat (length t) = len).
Proof.
  unfold in_i64, i64_min, i64_max. intros Ls Hs Hl t.
  unfold substr, usize. set (M := 18446744073709551616%Z).
  split.
  - destruct ((start mod M <=? (start mod M + len mod M) mod M)%Z && ((start mod M + len mod M) mod M <=? Z.of_nat (length s))%Z) eqn:C;
      [|discriminate].
    apply andb_true_iff in C. destruct C as [C1 C2]. apply Z.leb_le in C1, C2.
    assert (start mod M = start)%Z as E1.
    { destruct (Z_lt_le_dec start 0) as [N|N]; [|apply Z.mod_small; lia].
      assert (start mod M = start + M)%Z as E by (symmetry; apply Z.mod_unique with (-1)%Z; lia). lia. }
    assert (0 <= start)%Z by (pose proof (Z.mod_pos_bound start M); lia).
    assert (0 <= len)%Z.
    { destruct (Z_lt_le_dec len 0) as [N|N]; [|exact N]. exfalso.
      assert (len mod M = len + M)%Z as E by (symmetry; apply Z.mod_unique with (-1)%Z; lia).
      rewrite E1, E in C1, C2.
      destruct (Z_lt_le_dec (start + len) 0) as [N'|N'].
      - rewrite Z.mod_small in C2 by lia. lia.
      - assert ((start + (len + M)) mod M = start + len)%Z as E' by (symmetry; apply Z.mod_unique with 1%Z; lia). lia. }
    assert (len mod M = len)%Z as E2 by (apply Z.mod_small; lia).
    rewrite E1, E2 in *.
    assert (((start + len) mod M = start + len)%Z) as E3 by (apply Z.mod_small; lia).
    rewrite E3 in *. intros E. injection E as <-.
    exists (firstn (Z.to_nat start) s), (skipn (Z.to_nat (start + len)) s).
    replace (start + len - start)%Z with len by lia.
    assert (A : length (skipn (Z.to_nat start) s) = length s - Z.to_nat start) by apply skipn_length.
    split; [|split].
    + rewrite Z2Nat.inj_add by lia. rewrite <- skipn_skipn. now rewrite !firstn_skipn.
    + rewrite firstn_length. lia.
    + rewrite firstn_length, A. lia.
  - intros (a & b & -> & La & Lt). rewrite !app_length in *.
    assert (start mod M = start)%Z as E1 by (apply Z.mod_small; lia).
    assert (len mod M = len)%Z as E2 by (apply Z.mod_small; lia).
    rewrite E1, E2. assert (((start + len) mod M = start + len)%Z) as E3 by (apply Z.mod_small; lia).
    rewrite E3. replace ((start <=? start + len)%Z) with true by (symmetry; apply Z.leb_le; lia).
    replace ((start + len <=? Z.of_nat (length a + (length t + length b)))%Z) with true by (symmetry; apply Z.leb_le; lia).
    cbn [andb]. f_equal. replace (start + len - start)%Z with len by lia.
    rewrite <- La, <- Lt, !Nat2Z.id. rewrite skipn_app, skipn_all, Nat.sub_diag. cbn. apply firstn_here.
Qed.

(** ** Integers *)
Lemma digits_val_app a b : digits_val (a ++ b) = fold_left (fun acc c => acc * 10 + digit_val c)%Z b (digits_val a).
Proof. unfold digits_val. apply fold_left_app. Qed.

Lemma fold_digits ds : forall z, fold_left (fun acc c => acc * 10 + digit_val c)%Z ds z
  = (z * 10 ^ Z.of_nat (length ds) + digits_val ds)%Z.
Proof.
  induction ds as [|d ds IH]; intros z; cbn [fold_left length].
  - unfold digits_val. cbn. lia.
  - unfold digits_val. cbn [fold_left]. rewrite IH. rewrite (IH (0 * 10 + digit_val d)%Z).
    rewrite Nat2Z.inj_succ, Z.pow_succ_r by lia. ring.
Qed.

Lemma digit_byte r : (r < 10)%N -> is_ascii_digit (byte_of (48 + r)) = true /\ digit_val (byte_of (48 + r)) = Z.of_N r.
Proof.
  intros H. assert (E : exists k, k < 10 /\ r = N.of_nat k) by (exists (N.to_nat r); lia).
  destruct E as (k & Hk & ->). clear H.
  do 10 (destruct k as [|k]; [vm_compute; auto|]). lia.
Qed.

Lemma digits_go_spec n : forall x acc, (x < 2 ^ N.of_nat n)%N -> 0 < n ->
  exists ds, digits_go n x acc = ds ++ acc /\ ds <> [] /\ forallb is_ascii_digit ds = true /\ digits_val ds = Z.of_N x.
Proof.
  induction n as [|n IH]; intros x acc B P; [lia|]. cbn [digits_go].
  assert (R : (x mod 10 < 10)%N) by (apply N.mod_lt; lia).
  destruct (digit_byte _ R) as [D V]. pose proof (N.div_mod x 10) as DM.
  destruct (x / 10 =? 0)%N eqn:Z0.
  - apply N.eqb_eq in Z0. exists [byte_of (48 + x mod 10)]. cbn [app forallb]. rewrite D.
    repeat split; try discriminate. unfold digits_val. cbn [fold_left]. rewrite V. lia.
  - apply N.eqb_neq in Z0.
    assert (Bn : (x / 10 < 2 ^ N.of_nat n)%N).
    { apply N.div_lt_upper_bound; [lia|]. rewrite Nat2N.inj_succ, N.pow_succ_r' in B. lia. }
    assert (Pn : 0 < n). { destruct n; [|lia]. cbn in Bn. lia. }
    destruct (IH (x / 10)%N (byte_of (48 + x mod 10) :: acc) Bn Pn) as (ds & E & NE & A & Vd).
    exists (ds ++ [byte_of (48 + x mod 10)]). rewrite E, <- app_assoc. repeat split.
    + destruct ds; discriminate.
    + rewrite forallb_app, A. cbn [forallb]. now rewrite D.
    + rewrite digits_val_app. cbn [fold_left]. rewrite Vd, V. lia.
Qed.

Lemma digits_of_spec x : digits_of x <> [] /\ forallb is_ascii_digit (digits_of x) = true /\ digits_val (digits_of x) = Z.of_N x.
Proof.
  unfold digits_of. destruct (digits_go_spec (S (N.size_nat x)) x []) as (ds & E & R); [|lia|rewrite E, app_nil_r; exact R].
  assert (x < 2 ^ N.of_nat (N.size_nat x))%N.
  { replace (N.of_nat (N.size_nat x)) with (N.size x).
    - destruct x as [|x]; [reflexivity|]. apply N.size_gt.
    - destruct x as [|x]; [reflexivity|]. cbn. induction x; cbn; lia || rewrite ?IHx; try lia. }
  rewrite Nat2N.inj_succ, N.pow_succ_r'. lia.
Qed.

Lemma int_round z : in_i64 z = true -> parse_int (int_text z) = Some z.
Proof.
  intros R. unfold int_text. destruct (z <? 0)%Z eqn:S.
  - apply Z.ltb_lt in S. destruct (digits_of_spec (Z.to_N (- z))) as (NE & A & V).
    cbn [parse_int]. unfold all_digits. destruct (digits_of (Z.to_N (- z))) as [|d ds] eqn:E; [congruence|].
    rewrite A, V, Z2N.id by lia. replace (- - z)%Z with z by lia. unfold in_range. now rewrite R.
  - apply Z.ltb_ge in S. destruct (digits_of_spec (Z.to_N z)) as (NE & A & V).
    destruct (digits_of (Z.to_N z)) as [|d ds] eqn:E; [congruence|].
    assert (Nd : d <> x2d /\ d <> x2b).
    { cbn in A. apply andb_true_iff in A. destruct A as [A _]. split; intros ->; discriminate. }
    assert (parse_int (d :: ds) = if all_digits (d :: ds) then in_range (digits_val (d :: ds)) else None) as ->.
    { destruct Nd. destruct d; try reflexivity; congruence. }
    unfold all_digits. rewrite A, V, Z2N.id by lia. unfold in_range. now rewrite R.
Qed.

Lemma int_text_ok z : in_i64 z = true -> forall t, int_text z = t -> parse_int t = Some z.
Proof. intros R t <-. now apply int_round. Qed.
