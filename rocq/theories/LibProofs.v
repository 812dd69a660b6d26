(** Proofs about the standard library. *)
From Coq Require Import Strings.String Sorting.Permutation.
From Verif Require Import Base Lexer Ast Program Value Text StdLib SpecText TextProofs SpecLib.

(** ** Lists *)
Lemma list_set_length {A} (l : list A) : forall n x, length (list_set l n x) = length l.
Proof. induction l as [|y l IH]; intros [|n] x; cbn; auto. Qed.

Lemma nth_list_set {A} (l : list A) : forall n x d, n < length l -> nth n (list_set l n x) d = x.
Proof. induction l as [|y l IH]; intros [|n] x d H; cbn in *; try lia; auto. apply IH. lia. Qed.

Lemma nth_error_list_set {A} (l : list A) : forall n x, n < length l -> nth_error (list_set l n x) n = Some x.
Proof. induction l as [|y l IH]; intros [|n] x H; cbn in *; try lia; auto. apply IH. lia. Qed.

Lemma nth_error_list_set_other {A} (l : list A) : forall n m x, n <> m -> nth_error (list_set l n x) m = nth_error l m.
Proof. induction l as [|y l IH]; intros [|n] [|m] x H; cbn; auto; try congruence. Qed.

Lemma list_set_set {A} (l : list A) : forall n x y, list_set (list_set l n x) n y = list_set l n y.
Proof. induction l as [|z l IH]; intros [|n] x y; cbn; auto. now rewrite IH. Qed.

Lemma list_set_same {A} (l : list A) : forall n d, list_set l n (nth n l d) = l.
Proof. induction l as [|z l IH]; intros [|n] d; cbn; auto. now rewrite IH. Qed.

Lemma nth_app_last {A} (l : list A) x d : nth (length l) (l ++ [x]) d = x.
Proof. rewrite app_nth2 by lia. now rewrite Nat.sub_diag. Qed.

Lemma nth_error_app_l {A} (l : list A) x n : n < length l -> nth_error (l ++ [x]) n = nth_error l n.
Proof. apply nth_error_app1. Qed.

Section Lib.
Context {W : Type} (X : ext W).

(** ** Iterators *)
Lemma iteration_spec next h (w : W) :
  exists d, iteration next h w =
    Val (VDict d) (mkheap (h_cells h) (h_arrs h) (h_dicts h ++ [iteration_dict next]) (h_iters h), w) /\
    d = length (h_dicts h).
Proof. exists (length (h_dicts h)). split; [|reflexivity]. unfold iteration, new_dict. now destruct next. Qed.

Lemma dict_entries_last h d c a i : dict_entries (mkheap c a (h_dicts h ++ [d]) i) (length (h_dicts h)) = d.
Proof. unfold dict_entries. cbn [h_dicts]. apply nth_app_last. Qed.

Lemma iter_get_nth h st s : nth_error (h_iters h) st = Some s -> iter_get h st = s.
Proof. intros E. unfold iter_get. now apply nth_error_nth with (d := ISInt 0) in E. Qed.

(** The iterator of a string *)
Lemma string_iterator s st : forall k i h, nth_error (h_iters h) st = Some (ISInt (Z.of_nat i)) ->
  yields X itself (NIterStr s st) st k h (map VByte (skipn i s)).
Proof.
  induction k as [|k IH]; intros i h E; cbn [yields]; [exact I|].
  intros h1 w n args p Eh. rewrite E in Eh. cbn [native_call iter_call].
  rewrite (iter_get_nth _ _ _ Eh). unfold nth_z. replace (Z.of_nat i <? 0)%Z with false by (symmetry; apply Z.ltb_ge; lia).
  rewrite Nat2Z.id. assert (Lt : st < length (h_iters h1)) by (apply nth_error_Some; congruence).
  destruct (nth_error s i) as [b|] eqn:N.
  - assert (S : skipn i s = b :: skipn (S i) s).
    { clear -N. revert i N. induction s as [|c s IH]; intros [|i] N; try discriminate; cbn in *; [congruence|].
      now apply IH. }
    destruct (iteration_spec (Some (VByte b)) (iter_set h1 st (ISInt (Z.of_nat i + 1))) w) as (d & R & Dd).
    exists d. eexists. split; [exact R|]. rewrite S. cbn [map List.tl]. split.
    + exists (VByte b). subst d. split; [apply dict_entries_last|reflexivity].
    + apply IH. cbn [h_iters iter_set]. rewrite nth_error_list_set by exact Lt. f_equal. f_equal. lia.
  - apply nth_error_None in N. rewrite skipn_all2 by exact N.
    destruct (iteration_spec None h1 w) as (d & R & Dd).
    exists d. eexists. split; [exact R|]. cbn [map List.tl]. split.
    + subst d. apply dict_entries_last.
    + specialize (IH i (mkheap (h_cells h1) (h_arrs h1) (h_dicts h1 ++ [iteration_dict None]) (h_iters h1)) Eh).
      now rewrite skipn_all2 in IH by exact N.
Qed.

Lemma std_iter_string s n args p h w k :
  exists st h', std_call X n args SIter [VStr s] p h w = Val (VFun (FRust (NIterStr s st))) (h', w) /\
    yields X itself (NIterStr s st) st k h' (map VByte s).
Proof.
  eexists _, _. split; [reflexivity|].
  apply (string_iterator s (length (h_iters h)) k 0). cbn [h_iters]. rewrite nth_error_app2, Nat.sub_diag by lia. reflexivity.
Qed.

(** The iterator of a dict: it takes the entries from the end. *)
Lemma dict_iterator st : forall k es h, nth_error (h_iters h) st = Some (ISEntries es) ->
  yields X as_entry (NIterDict st) st k h (rev es).
Proof.
  induction k as [|k IH]; intros es h E; cbn [yields]; [exact I|].
  intros h1 w n args p Eh. rewrite E in Eh. cbn [native_call iter_call].
  rewrite (iter_get_nth _ _ _ Eh). assert (Lt : st < length (h_iters h1)) by (apply nth_error_Some; congruence).
  destruct (rev es) as [|[key v] r] eqn:R.
  - destruct (iteration_spec None h1 w) as (d & Q & Dd).
    exists d. eexists. split; [exact Q|]. cbn [List.tl]. split.
    + subst d. apply dict_entries_last.
    + specialize (IH es (mkheap (h_cells h1) (h_arrs h1) (h_dicts h1 ++ [iteration_dict None]) (h_iters h1)) Eh).
      now rewrite R in IH.
  - cbn [new_dict]. set (h2 := iter_set h1 st (ISEntries (rev r))).
    set (e := [(VStr (bs "key"), key); (VStr (bs "value"), v)]).
    destruct (iteration_spec (Some (VDict (length (h_dicts h2))))
               (mkheap (h_cells h2) (h_arrs h2) (h_dicts h2 ++ [e]) (h_iters h2)) w) as (d & Q & Dd).
    exists d. eexists. split; [exact Q|]. cbn [List.tl]. split.
    + exists (VDict (length (h_dicts h2))). subst d. split; [apply dict_entries_last|].
      exists (length (h_dicts h2)). split; [reflexivity|]. unfold dict_entries. cbn [h_dicts].
      rewrite app_nth1 by (rewrite app_length; cbn; lia). apply nth_app_last.
    + rewrite <- (rev_involutive r). apply IH. cbn [h_iters iter_set h2].
      now rewrite nth_error_list_set by exact Lt.
Qed.

Lemma std_iter_dict l n args p h w k : some_order X ->
  exists st h' es, std_call X n args SIter [VDict l] p h w = Val (VFun (FRust (NIterDict st))) (h', w) /\
    Permutation es (dict_entries h l) /\ yields X as_entry (NIterDict st) st k h' es.
Proof.
  intros O. eexists _, _, (rev (x_order X (dict_entries h l))). split; [reflexivity|]. split.
  - rewrite <- Permutation_rev. apply O.
  - apply dict_iterator. cbn [h_iters]. rewrite nth_error_app2, Nat.sub_diag by lia. reflexivity.
Qed.

(** Integer ranges *)
Lemma wrap64_id z : in_i64 z = true -> wrap64 z = z.
Proof.
  unfold in_i64, wrap64. intros H. apply andb_true_iff in H. destruct H as [A B]. apply Z.leb_le in A, B.
  unfold i64_min, i64_max in *. rewrite Z.mod_small by lia. lia.
Qed.

Lemma progression_more k from to step : (length (progression k from to step) < k) ->
  forall j, k <= j -> progression j from to step = progression k from to step.
Proof.
  revert from. induction k as [|k IH]; intros from L j Lj; [cbn in L; lia|].
  destruct j as [|j]; [lia|]. cbn [progression] in *. destruct (before step to from); [|reflexivity].
  cbn [length] in L. f_equal. apply IH; lia.
Qed.

Lemma range_iterator st to step : step <> 0%Z -> forall k m from h,
  nth_error (h_iters h) st = Some (ISInt from) ->
  length (progression m from to step) < m ->
  (forall z, In z (progression m from to step) -> in_i64 (z + step) = true) ->
  yields X itself (NRangeInt st to step) st k h (map VInt (progression m from to step)).
Proof.
  intros NZ. induction k as [|k IH]; intros m from h E L R; cbn [yields]; [exact I|].
  intros h1 w n args p Eh. rewrite E in Eh. cbn [native_call iter_call].
  rewrite (iter_get_nth _ _ _ Eh). assert (Lt : st < length (h_iters h1)) by (apply nth_error_Some; congruence).
  destruct m as [|m]; [cbn in L; lia|].
  assert (B : (if (0 <? step)%Z then (to <=? from)%Z else (from <=? to)%Z) = negb (before step to from)).
  { unfold before. destruct (0 <? step)%Z; apply Z.leb_antisym. }
  rewrite B. cbn [progression] in *. destruct (before step to from) eqn:Bf; cbn [negb].
  - destruct (iteration_spec (Some (VInt from)) (iter_set h1 st (ISInt (wrap64 (from + step)))) w) as (d & Q & Dd).
    exists d. eexists. split; [exact Q|]. cbn [map List.tl]. split.
    + exists (VInt from). subst d. split; [apply dict_entries_last|reflexivity].
    + apply IH.
      * cbn [h_iters iter_set]. rewrite nth_error_list_set by exact Lt. now rewrite wrap64_id by (apply R; now left).
      * cbn in L. lia.
      * intros z Hz. apply R. now right.
  - destruct (iteration_spec None h1 w) as (d & Q & Dd).
    exists d. eexists. split; [exact Q|]. cbn [map List.tl]. split.
    + subst d. apply dict_entries_last.
    + change (@nil value) with (map VInt []).
      replace (@nil Z) with (progression 1 from to step) by (cbn; now rewrite Bf).
      apply IH; [exact Eh| |]; cbn; rewrite Bf; cbn; [lia|tauto].
Qed.

Lemma std_range from to step n args p h w k m : step <> 0%Z ->
  length (progression m from to step) < m ->
  (forall z, In z (progression m from to step) -> in_i64 (z + step) = true) ->
  exists st h', std_call X n args SRange [VInt from; VInt to; VInt step] p h w
      = Val (VFun (FRust (NRangeInt st to step))) (h', w) /\
    yields X itself (NRangeInt st to step) st k h' (map VInt (progression m from to step)).
Proof.
  intros NZ L R. eexists _, _. split; [reflexivity|]. apply range_iterator; auto.
  cbn [h_iters]. rewrite nth_error_app2, Nat.sub_diag by lia. reflexivity.
Qed.

(** Float ranges *)
Lemma cmp_below x y : match float_cmp x y with Lt => true | _ => false end = float_below x y.
Proof. unfold float_cmp, float_below, SFltb. destruct x as [[]|[]| |[]], y as [[]|[]| |[]]; cbn; try reflexivity; destruct (e ?= e0)%Z; try reflexivity; destruct (Pcompare m m0 Eq); reflexivity. Qed.
Lemma cmp_above x y : match float_cmp x y with Gt => true | _ => false end = float_above x y.
Proof.
  unfold float_cmp, float_above, SFltb. destruct x as [[]|[]| |[]], y as [[]|[]| |[]]; cbn; try reflexivity;
    rewrite (Z.compare_antisym e e0); destruct (e ?= e0)%Z; try reflexivity; cbn;
    change (Pcompare m0 m Eq) with (Pos.compare_cont (CompOpp Eq) m0 m); rewrite <- (Pos.compare_cont_antisym m m0 Eq); destruct (Pos.compare_cont Eq m m0); reflexivity.
Qed.
Lemma float_iterator st to step : forall k from h,
  nth_error (h_iters h) st = Some (ISFloat from) ->
  yields X itself (NRangeFloat st to step) st k h (map VFloat (float_progression k from to step)).
Proof.
  induction k as [|k IH]; intros from h E; cbn [yields]; [exact I|].
  intros h1 w n args p Eh. rewrite E in Eh. cbn [native_call iter_call].
  rewrite (iter_get_nth _ _ _ Eh). assert (Lt : st < length (h_iters h1)) by (apply nth_error_Some; congruence).
  rewrite !cmp_above, cmp_below.
  replace (if float_above step (S754_zero false) then negb (float_below from to) else negb (float_above from to)) with (negb (float_before step to from))
    by (unfold float_before; destruct (float_above step (S754_zero false)); reflexivity).
  cbn [float_progression]. destruct (float_before step to from) eqn:Bf; cbn [negb].
  - destruct (iteration_spec (Some (VFloat from)) (iter_set h1 st (ISFloat (fadd from step))) w) as (d & Q & Dd).
    exists d. eexists. split; [exact Q|]. cbn [map List.tl]. split.
    + exists (VFloat from). subst d. split; [apply dict_entries_last|reflexivity].
    + apply IH. cbn [h_iters iter_set]. now rewrite nth_error_list_set by exact Lt.
  - destruct (iteration_spec None h1 w) as (d & Q & Dd).
    exists d. eexists. split; [exact Q|]. cbn [map List.tl]. split.
    + subst d. apply dict_entries_last.
    + replace (@nil value) with (map VFloat (float_progression k from to step)) by (destruct k; cbn; [reflexivity|now rewrite Bf]).
      apply IH. exact Eh.
Qed.
Lemma float_range_std a b c from to step : promoted a from -> promoted b to -> promoted c step ->
  ~ (is_integer a /\ is_integer b /\ is_integer c) ->
  forall n args p h w k, exists st h',
    std_call X n args SRange [a; b; c] p h w = Val (VFun (FRust (NRangeFloat st to step))) (h', w) /\
    yields X itself (NRangeFloat st to step) st k h' (map VFloat (float_progression k from to step)).
Proof.
  intros A B C N n args p h w k.
  assert (exists h', std_call X n args SRange [a; b; c] p h w = Val (VFun (FRust (NRangeFloat (length (h_iters h)) to step))) (h', w) /\
    nth_error (h_iters h') (length (h_iters h)) = Some (ISFloat from)) as (h' & E & I).
  { destruct a; try contradiction; destruct b; try contradiction; destruct c; try contradiction; cbn in A, B, C; subst;
      try (destruct N; repeat split; eexists; reflexivity);
      (eexists; split; [reflexivity|]; cbn [h_iters]; rewrite nth_error_app2, Nat.sub_diag by lia; reflexivity). }
  exists (length (h_iters h)), h'. split; [exact E|]. now apply float_iterator.
Qed.

(** With enough elements asked for, a progression ends. *)
Lemma progression_ends from to step : step <> 0%Z -> exists m, length (progression m from to step) < m.
Proof.
  intros NZ. set (d := if (0 <? step)%Z then (to - from)%Z else (from - to)%Z).
  exists (S (Z.to_nat d)). assert (G : forall m f, (Z.to_nat (if (0 <? step)%Z then (to - f)%Z else (f - to)%Z) < m) ->
    length (progression m f to step) < m).
  { induction m as [|m IH]; intros f H; [lia|]. cbn [progression]. unfold before.
    destruct (0 <? step)%Z eqn:S.
    - apply Z.ltb_lt in S. destruct (f <? to)%Z eqn:C; [|cbn; lia]. apply Z.ltb_lt in C. cbn [length].
      apply le_n_S. apply IH. lia.
    - apply Z.ltb_ge in S. destruct (to <? f)%Z eqn:C; [|cbn; lia]. apply Z.ltb_lt in C. cbn [length].
      apply le_n_S. apply IH. lia. }
  apply G. fold d. lia.
Qed.

Lemma zero_step from to : (to < from)%Z -> in_i64 from = true -> forall k st h,
  nth_error (h_iters h) st = Some (ISInt from) ->
  yields X itself (NRangeInt st to 0) st k h (repeat (VInt from) k).
Proof.
  intros G Rg. induction k as [|k IH]; intros st h E; cbn [yields]; [exact I|].
  intros h1 w n args p Eh. rewrite E in Eh. cbn [native_call iter_call].
  rewrite (iter_get_nth _ _ _ Eh). assert (Lt : st < length (h_iters h1)) by (apply nth_error_Some; congruence).
  cbn [Z.ltb Z.compare]. replace (from <=? to)%Z with false by (symmetry; apply Z.leb_gt; lia).
  destruct (iteration_spec (Some (VInt from)) (iter_set h1 st (ISInt (wrap64 (from + 0)))) w) as (d & Q & Dd).
  exists d. eexists. split; [exact Q|]. cbn [repeat List.tl]. split.
  - exists (VInt from). subst d. split; [apply dict_entries_last|reflexivity].
  - apply IH. cbn [h_iters iter_set]. rewrite nth_error_list_set by exact Lt. now rewrite Z.add_0_r, wrap64_id.
Qed.

(** ** Errors inside values *)
Lemma any_true {A} (f : A -> walk bool) l : any f l = Known true -> exists x, In x l /\ f x = Known true.
Proof.
  induction l as [|x l IH]; cbn; [discriminate|]. destruct (f x) as [[]| |] eqn:F; cbn; try discriminate.
  - intros _. exists x. auto.
  - intros H. destruct (IH H) as (y & Iy & Fy). exists y. auto.
Qed.
Lemma any_false {A} (f : A -> walk bool) l : any f l = Known false -> forall x, In x l -> f x = Known false.
Proof.
  induction l as [|x l IH]; cbn; [contradiction|]. destruct (f x) as [[]| |] eqn:F; cbn; try discriminate.
  intros H y [->|I]; auto.
Qed.
Lemma any_known {A} (f : A -> walk bool) l : (forall x, In x l -> exists b, f x = Known b) -> exists b, any f l = Known b.
Proof.
  induction l as [|x l IH]; intros H; cbn; [eauto|]. destruct (H x (or_introl eq_refl)) as [b ->]. cbn.
  destruct b; [eauto|]. apply IH. intros y Iy. apply H. now right.
Qed.

Lemma has_error_sound : some_order X -> forall n h v b, has_error X n h v = Known b -> (b = true <-> holds_error h v).
Proof.
  intros O. induction n as [|n IH]; intros h v b; cbn [has_error]; [discriminate|].
  destruct v; try (intros E; injection E as <-; split; [discriminate|intros K; inversion K]).
  - intros E. destruct b.
    + apply any_true in E. destruct E as (x & Ix & Ex). split; [|reflexivity]. intros _.
      apply he_item with x; [exact Ix|]. now apply (IH h x true Ex).
    + split; [discriminate|]. intros K. inversion K as [|? y Iy Hy| |]; subst.
      apply (any_false _ _ E) in Iy. now apply (IH h y false Iy).
  - intros E. destruct b.
    + apply any_true in E. destruct E as ([k x] & Ix & Ex). split; [|reflexivity]. intros _.
      apply (Permutation_in _ (O _)) in Ix. cbn [fst snd] in Ex.
      destruct (has_error X n h k) as [[]| |] eqn:Ek; cbn in Ex; try discriminate.
      * apply he_key with k x; [exact Ix|]. now apply (IH h k true Ek).
      * apply he_value with k x; [exact Ix|]. now apply (IH h x true Ex).
    + split; [discriminate|]. intros K.
      assert (G : forall k x, In (k, x) (dict_entries h l) -> ~ holds_error h k /\ ~ holds_error h x).
      { intros k x I. apply (Permutation_in _ (Permutation_sym (O _))) in I. apply (any_false _ _ E) in I. cbn [fst snd] in I.
        destruct (has_error X n h k) as [[]| |] eqn:Ek; cbn in I; try discriminate.
        split; intros Q; [apply (IH h k false Ek) in Q|apply (IH h x false I) in Q]; discriminate. }
      inversion K as [| |? k x I Hk|? k x I Hx]; subst; now apply G in I.
  - intros E. injection E as <-. split; [constructor|reflexivity].
Qed.

Lemma has_error_mono n h : forall v b, has_error X n h v = Known b -> has_error X (S n) h v = Known b.
Proof.
  induction n as [|n IH]; intros v b E; [discriminate|]. change (has_error X (S (S n)) h v) with
    (match v with
      | VErr _ _ => Known true
      | VArr l => any (has_error X (S n) h) (arr_get h l)
      | VDict l => any (fun e : value * value => wbind (has_error X (S n) h (fst e)) (fun r =>
                     if r then Known true else has_error X (S n) h (snd e))) (x_order X (dict_entries h l))
      | _ => Known false end).
  cbn [has_error] in E. destruct v; auto.
  - revert b E. induction (arr_get h l) as [|x r IHr]; intros b E; [exact E|]. cbn [any] in *.
    destruct (has_error X n h x) as [c| |] eqn:F; cbn [wbind] in E; try discriminate.
    rewrite (IH _ _ F). cbn [wbind]. destruct c; auto.
  - revert b E. induction (x_order X (dict_entries h l)) as [|[k x] r IHr]; intros b E; [exact E|]. cbn [any fst snd] in *.
    destruct (has_error X n h k) as [c| |] eqn:F; cbn [wbind] in E; try discriminate.
    rewrite (IH _ _ F). cbn [wbind]. destruct c; [exact E|].
    destruct (has_error X n h x) as [c| |] eqn:F'; cbn [wbind] in E; try discriminate.
    rewrite (IH _ _ F'). cbn [wbind]. destruct c; [exact E|]. now apply IHr.
Qed.

Lemma has_error_more n m h v b : n <= m -> has_error X n h v = Known b -> has_error X m h v = Known b.
Proof. induction 1 as [|m L IH]; auto. intros E. apply has_error_mono. auto. Qed.

(** Enough fuel for all elements of a list *)
Lemma enough {A} (P : nat -> A -> Prop) (l : list A) :
  (forall n m x, n <= m -> P n x -> P m x) -> (forall x, In x l -> exists n, P n x) -> exists n, forall x, In x l -> P n x.
Proof.
  intros M. induction l as [|x l IH]; intros H; [exists 0; contradiction|].
  destruct IH as [n Hn]; [intros y I; apply H; now right|]. destruct (H x (or_introl eq_refl)) as [m Hm].
  exists (n + m). intros y [<-|I]; [apply (M m); auto with arith|apply (M n); auto with arith].
Qed.

Lemma has_error_total h v : some_order X -> acyclic h v -> exists n b, has_error X n h v = Known b.
Proof.
  intros O A. enough (exists n, exists b, has_error X n h v = Known b) as [n [b E]] by eauto.
  induction A as [l _ IH|l _ IHk _ IHv|v NA ND].
  - destruct (enough (fun n x => exists b, has_error X n h x = Known b) (arr_get h l)) as [n Hn].
    + intros i j x L [b E]. exists b. now apply (has_error_more i).
    + exact IH.
    + exists (S n). cbn [has_error]. apply any_known. exact Hn.
  - destruct (enough (fun n (e : value * value) => (exists b, has_error X n h (fst e) = Known b) /\ exists b, has_error X n h (snd e) = Known b)
                (dict_entries h l)) as [n Hn].
    + intros i j x L [[b E] [c F]]. split; [exists b|exists c]; now apply (has_error_more i).
    + intros [k x] I. destruct (IHk k x I) as [n Hn], (IHv k x I) as [m Hm]. exists (n + m). cbn [fst snd]. split.
      * destruct Hn as [b E]. exists b. apply (has_error_more n); auto with arith.
      * destruct Hm as [b E]. exists b. apply (has_error_more m); auto with arith.
    + exists (S n). cbn [has_error]. apply any_known. intros e I. apply (Permutation_in _ (O _)) in I.
      destruct (Hn e I) as [[b E] [c F]]. rewrite E. cbn [wbind]. destruct b; [eauto|]. eauto.
  - exists 1. cbn [has_error]. destruct v; eauto; [destruct (NA l eq_refl)|destruct (ND l eq_refl)].
Qed.

(** ** Types *)
Lemma type_name_display v : type_display (get_type v) = type_name v.
Proof. now destruct v. Qed.

Lemma type_parse_name t ty : type_parse t = Some ty -> t = type_display ty.
Proof.
  unfold type_parse. repeat (match goal with |- context [bytes_eqb t ?x] => destruct (bytes_eqb t x) eqn:?B; [|clear B] end;
    [apply bytes_eqb_eq in B; subst t; intros E; injection E as <-; reflexivity|]). discriminate.
Qed.
Lemma type_parse_display ty : type_parse (type_display ty) = Some ty.
Proof. now destruct ty. Qed.
Lemma type_parse_none t : type_parse t = None -> ~ In t type_names.
Proof.
  intros E I. cbn [type_names In] in I.
  decompose [or] I; try contradiction; subst t; vm_compute in E; discriminate.
Qed.
Lemma type_parse_in t : In t type_names -> exists ty, type_parse t = Some ty.
Proof. intros I. destruct (type_parse t) eqn:E; [eauto|]. now apply type_parse_none in E. Qed.

Lemma typecheck_same v n args p h w : std_call X n args STypecheck [v; VStr (type_name v)] p h w = Val v (h, w).
Proof.
  unfold std_call, typecheck. rewrite <- type_name_display, type_parse_display, Nat.eqb_refl. reflexivity.
Qed.

Lemma rank_inj a b : type_rank a = type_rank b -> a = b.
Proof. destruct a, b; cbn; congruence. Qed.

Lemma typecheck_other v t n args p h w : In t type_names -> t <> type_name v ->
  std_call X n args STypecheck [v; VStr t] p h w = Pan (PTypeError v t p) (h, w).
Proof.
  intros I N. destruct (type_parse_in t I) as [ty E]. unfold std_call, typecheck. rewrite E.
  apply type_parse_name in E. destruct (Nat.eqb (type_rank (get_type v)) (type_rank ty)) eqn:R.
  - apply Nat.eqb_eq, rank_inj in R. subst ty. rewrite type_name_display in E. congruence.
  - now subst t.
Qed.

Lemma typecheck_unknown v t n args p h w : ~ In t type_names ->
  std_call X n args STypecheck [v; VStr t] p h w = Pan (PValueError (VStr t) (bs "valid type") p) (h, w).
Proof.
  intros N. unfold std_call, typecheck. destruct (type_parse t) as [ty|] eqn:E; [|reflexivity].
  apply type_parse_name in E. destruct N. subst t. destruct ty; cbn [type_display type_names In]; tauto.
Qed.

(** ** Arrays *)
Lemma push_pop l v n n' args args' p q h w w' : l < length (h_arrs h) ->
  exists h', std_call X n args SPush [VArr l; v] p h w = Val VNil (h', w) /\
    arr_get h' l = arr_get h l ++ [v] /\ std_call X n' args' SPop [VArr l] q h' w' = Val v (h, w').
Proof.
  intros L. eexists. split; [reflexivity|].
  assert (G : forall a, arr_get (arr_set h l a) l = a).
  { intros a. unfold arr_get, arr_set. cbn [h_arrs]. now apply nth_list_set. }
  split; [apply G|]. cbn [std_call]. rewrite G, rev_app_distr. cbn [rev app]. rewrite rev_involutive.
  f_equal. f_equal. unfold arr_set. cbn [h_cells h_arrs h_dicts h_iters]. rewrite list_set_set.
  unfold arr_get. rewrite list_set_same. now destruct h.
Qed.

Lemma pop_empty l n args p h w : arr_get h l = [] ->
  std_call X n args SPop [VArr l] p h w = Pan (PEmptyCollection p) (h, w).
Proof. intros E. cbn [std_call]. now rewrite E. Qed.

(** ** Joining *)
Lemma join_first st handle p h w n args : nth_error (h_iters h) st = Some (ISJoin (Some handle)) ->
  native_call X n args (NJoin st) [] p h w =
  match x_join X handle (iter_set h st (ISJoin None)) w with
  | (inl (v, h'), w') => Val v (h', w')
  | (inr e, w') => Pan e (iter_set h st (ISJoin None), w')
  end.
Proof. intros E. cbn [native_call join_call]. unfold join_call. now rewrite (iter_get_nth _ _ _ E). Qed.

Lemma join_again st p h w n args vs : nth_error (h_iters h) st = Some (ISJoin None) ->
  native_call X n args (NJoin st) vs p h w = Pan (PInvalidJoin p) (h, w).
Proof. intros E. cbn [native_call]. unfold join_call. now rewrite (iter_get_nth _ _ _ E). Qed.
End Lib.

Section Statements.
Context {W : Type} (X : ext W).

Lemma hex_std s n args p h w :
  exists t, std_call X n args SHexEncode [VStr s] p h w = Val (VStr t) (h, w) /\
    std_call X n args SHexDecode [VStr t] p h w = Val (VStr s) (h, w) /\
    exists ds, t = flat_map (fun ij => [nth (fst ij) lower_hex x00; nth (snd ij) lower_hex x00]) ds /\
      Forall2 (fun c ij => fst ij < 16 /\ snd ij < 16 /\ Byte.to_N c = N.of_nat (16 * fst ij + snd ij)) s ds.
Proof.
  exists (hex_encode s). split; [reflexivity|]. split; [cbn [std_call]; now rewrite hex_round|]. apply hex_shape.
Qed.

Lemma base64_std s n args p h w :
  exists t, std_call X n args SBase64Encode [VStr s] p h w = Val (VStr t) (h, w) /\
    std_call X n args SBase64Decode [VStr t] p h w = Val (VStr s) (h, w) /\
    length t = 4 * ((length s + 2) / 3).
Proof.
  exists (b64_encode s). split; [reflexivity|]. split; [cbn [std_call]; now rewrite b64_round|]. apply b64_length.
Qed.

Lemma base64_distinct s s' n args p h w t t' h1 h2 w1 w2 :
  std_call X n args SBase64Encode [VStr s] p h w = Val t (h1, w1) ->
  std_call X n args SBase64Encode [VStr s'] p h w = Val t' (h2, w2) -> s <> s' -> t <> t'.
Proof.
  cbn [std_call]. intros E E'. injection E as <- <- <-. injection E' as <- <- <-. intros N Q. injection Q as Q.
  now apply N, b64_injective.
Qed.

Lemma split_std s pat n args p h w : pat <> [] ->
  exists l h' parts, std_call X n args SSplit [VStr s; VStr pat] p h w = Val (VArr l) (h', w) /\
    arr_get h' l = map VStr parts /\ join pat parts = s /\ Forall (fun x => ~ occurs pat x) parts /\ pieces pat s parts.
Proof.
  intros NE. eexists _, _, (split_str s pat). split; [reflexivity|].
  assert (P := split_pieces s pat NE). repeat split.
  - unfold arr_get. cbn [h_arrs]. apply nth_app_last.
  - now apply pieces_join.
  - now apply (pieces_free pat s).
  - exact P.
Qed.

Lemma replace_std s pat r n args p h w :
  exists t, std_call X n args SReplace [VStr s; VStr pat; VStr r] p h w = Val (VStr t) (h, w) /\
    (pat <> [] -> exists parts, pieces pat s parts /\ t = join r parts) /\
    (pat = [] -> t = r ++ flat_map (fun c => c :: r) s) /\
    (~ occurs pat s -> t = s) /\ (r = pat -> t = s).
Proof.
  exists (replace_str s pat r). split; [reflexivity|]. repeat split.
  - intros NE. exists (split_str s pat). split; [now apply split_pieces|now apply replace_join].
  - intros ->. apply replace_empty.
  - apply replace_absent.
  - intros ->. apply replace_same.
Qed.

Lemma substr_std s start len n args p h w :
  (Z.of_nat (length s) <= i64_max)%Z -> in_i64 start = true -> in_i64 len = true ->
  (exists a t b, s = a ++ t ++ b /\ Z.of_nat (length a) = start /\ Z.of_nat (length t) = len /\
     std_call X n args SSubstr [VStr s; VInt start; VInt len] p h w = Val (VStr t) (h, w)) \/
  ((~ exists a t b, s = a ++ t ++ b /\ Z.of_nat (length a) = start /\ Z.of_nat (length t) = len) /\
   std_call X n args SSubstr [VStr s; VInt start; VInt len] p h w = Val VNil (h, w)).
Proof.
  intros L S Ln. cbn [std_call]. pose proof (substr_spec s start len L S Ln) as E.
  destruct (substr s start len) as [t|] eqn:Q.
  - left. destruct (proj1 (E t) eq_refl) as (a & b & Es & La & Lt). exists a, t, b. auto.
  - right. split; [|reflexivity]. intros (a & t & b & R). specialize (proj2 (E t)). intros K.
    assert (None = Some t) by (apply K; exists a, b; exact R). discriminate.
Qed.

Lemma int_std z n args p h w : in_i64 z = true ->
  exists t, std_call X (S n) args SToString [VInt z] p h w = Val (VStr t) (h, w) /\
    std_call X (S n) args SInt [VStr t] p h w = Val (VInt z) (h, w).
Proof.
  intros R. exists (int_text z). split; [reflexivity|]. cbn [std_call]. now rewrite int_round.
Qed.

Lemma has_error_std v args p h w : some_order X -> acyclic h v ->
  exists n, forall m, n <= m -> exists b,
    std_call X m args SHasError [v] p h w = Val (VBool b) (h, w) /\ (b = true <-> holds_error h v).
Proof.
  intros O A. destruct (has_error_total X h v O A) as (n & b & E). exists n. intros m L. exists b.
  pose proof (has_error_more X n m h v b L E) as E'. split.
  - cbn [std_call]. now rewrite E'.
  - now apply (has_error_sound X O m h v b).
Qed.

Lemma range_std from to step : step <> 0%Z ->
  (forall m z, In z (progression m from to step) -> in_i64 (z + step) = true) ->
  exists m, length (progression m from to step) < m /\
  forall n args p h w k, exists st h',
    std_call X n args SRange [VInt from; VInt to; VInt step] p h w
      = Val (VFun (FRust (NRangeInt st to step))) (h', w) /\
    yields X itself (NRangeInt st to step) st k h' (map VInt (progression m from to step)).
Proof.
  intros NZ R. destruct (progression_ends from to step NZ) as [m L]. exists m. split; [exact L|].
  intros. apply std_range; auto. apply R.
Qed.

Lemma range_zero from to : (to < from)%Z -> in_i64 from = true -> forall n args p h w k,
  exists st h', std_call X n args SRange [VInt from; VInt to; VInt 0] p h w
      = Val (VFun (FRust (NRangeInt st to 0))) (h', w) /\
    yields X itself (NRangeInt st to 0) st k h' (repeat (VInt from) k).
Proof.
  intros L R n args p h w k. eexists _, _. split; [reflexivity|]. apply zero_step; auto.
  cbn [h_iters]. rewrite nth_error_app2, Nat.sub_diag by lia. reflexivity.
Qed.
End Statements.

(** ** Integers as text *)
Lemma nth_digit i : i < 10 -> is_ascii_digit (nth i (bs "0123456789") x00) = true /\ digit_val (nth i (bs "0123456789") x00) = Z.of_nat i.
Proof. intros H. do 10 (destruct i as [|i]; [vm_compute; auto|]). lia. Qed.
Lemma digit_nth c : is_ascii_digit c = true -> exists i, i < 10 /\ c = nth i (bs "0123456789") x00.
Proof.
  destruct c; intros E; vm_compute in E; try discriminate E;
    [exists 0|exists 1|exists 2|exists 3|exists 4|exists 5|exists 6|exists 7|exists 8|exists 9]; (split; [lia|reflexivity]).
Qed.
Lemma spells_digits z t : spells z t <-> all_digits t = true /\ z = digits_val t.
Proof.
  assert (all_digits t = true <-> t <> [] /\ forallb is_ascii_digit t = true) as D.
  { unfold all_digits. destruct t; [split; [discriminate|intros [N _]; congruence]|]. split; [intros E; split; [discriminate|exact E]|tauto]. }
  rewrite D. clear D. split.
  - induction 1 as [i L|z t i L H [[IN IF] IV]]; destruct (nth_digit i L) as [F V].
    + split; [split; [discriminate|]|]; [cbn [forallb]; now rewrite F|]. unfold digits_val. cbn [fold_left]. rewrite V. lia.
    + split; [split|]; [destruct t; discriminate|rewrite forallb_app, IF; cbn [forallb]; now rewrite F|].
      rewrite digits_val_app. cbn [fold_left]. rewrite V. lia.
  - revert z. induction t as [|c t IH] using rev_ind; intros z [[N F] ->]; [congruence|].
    rewrite forallb_app in F. apply andb_true_iff in F. destruct F as [F G]. cbn [forallb] in G. rewrite andb_true_r in G.
    destruct (digit_nth c G) as (i & L & ->). destruct (nth_digit i L) as [_ V].
    rewrite digits_val_app. cbn [fold_left]. rewrite V. destruct t as [|d t].
    + cbn [app]. replace (digits_val [] * 10 + Z.of_nat i)%Z with (Z.of_nat i) by (unfold digits_val; cbn [fold_left]; lia). now constructor.
    + replace (digits_val (d :: t) * 10 + Z.of_nat i)%Z with (10 * digits_val (d :: t) + Z.of_nat i)%Z by lia.
      apply sp_more; [exact L|]. apply IH. repeat split; [discriminate|exact F].
Qed.
Lemma not_digits s : all_digits s = true -> s <> [] /\ (forall t, s <> x2d :: t) /\ (forall t, s <> x2b :: t).
Proof.
  destruct s as [|c s]; [discriminate|]. intros E. split; [discriminate|]. unfold all_digits in E. cbn [forallb] in E.
  apply andb_true_iff in E. destruct E as [E _]. split; intros t [= -> ->]; vm_compute in E; discriminate.
Qed.
Lemma parse_writes s z : parse_int s = Some z <-> writes z s /\ in_i64 z = true.
Proof.
  assert (forall z', in_range z' = Some z <-> z' = z /\ in_i64 z = true) as R.
  { intros z'. unfold in_range. destruct (in_i64 z') eqn:E; split; try discriminate; [intros [= ->]; auto|intros [-> _]; auto|intros [-> F]; congruence]. }
  assert (forall t, (if all_digits t then in_range (digits_val t) else None) = Some z <-> spells z t /\ in_i64 z = true) as P.
  { intros t. rewrite spells_digits. destruct (all_digits t); [rewrite R|]; intuition congruence. }
  assert (forall t, (if all_digits t then in_range (- digits_val t) else None) = Some z <-> (exists z', z = (- z')%Z /\ spells z' t) /\ in_i64 z = true) as M.
  { intros t. destruct (all_digits t) eqn:E.
    - rewrite R. split.
      + intros [<- I]. split; [|exact I]. exists (digits_val t). split; [reflexivity|]. now apply spells_digits.
      + intros [(z' & -> & S) I]. apply spells_digits in S. destruct S as [_ ->]. auto.
    - split; [discriminate|]. intros [(z' & _ & S) _]. apply spells_digits in S. destruct S. congruence. }
  assert (parse_int s = Some z <-> (exists t, s = x2d :: t /\ (exists z', z = (- z')%Z /\ spells z' t) /\ in_i64 z = true) \/
    (exists t, s = x2b :: t /\ spells z t /\ in_i64 z = true) \/ (spells z s /\ in_i64 z = true)) as Q.
  { assert (forall t, spells z t -> (forall u, t <> x2d :: u) /\ (forall u, t <> x2b :: u)) as Nd.
    { intros t S. apply spells_digits in S. destruct S as [S _]. apply not_digits in S. tauto. }
    unfold parse_int. destruct s as [|c s].
    - rewrite P. split; [auto|]. intros [(t & [=] & _)|[(t & [=] & _)|H]]. exact H.
    - destruct (Byte.byte_eq_dec c x2d) as [->|N1]; [|destruct (Byte.byte_eq_dec c x2b) as [->|N2]].
      + rewrite M. split; [intros H; left; exists s; auto|].
        intros [(t & [= <-] & H)|[(t & [=] & _)|[H _]]]; [exact H|]. apply Nd in H. now destruct (proj1 H s).
      + rewrite P. split; [intros H; right; left; exists s; tauto|].
        intros [(t & [=] & _)|[(t & [= <-] & H)|[H _]]]; [exact H|]. apply Nd in H. now destruct (proj2 H s).
      + transitivity ((if all_digits (c :: s) then in_range (digits_val (c :: s)) else None) = Some z); [destruct c; try reflexivity; congruence|].
        rewrite P. split; [auto|]. intros [(t & [= -> _] & _)|[(t & [= -> _] & _)|H]]; [congruence|congruence|exact H]. }
  rewrite Q. split.
  - intros [(t & -> & (z' & -> & S) & I)|[(t & -> & S & I)|[S I]]]; split; auto using wr_plain, wr_plus, wr_minus.
  - intros [H I]. destruct H as [z t S|z t S|z t S]; [auto|right; left; eauto|left; eauto 8].
Qed.

Lemma int_reads {W} (X : ext W) s n args p h w :
  (forall z, std_call X n args SInt [VStr s] p h w = Val (VInt z) (h, w) <-> writes z s /\ in_i64 z = true) /\
  ((forall z, writes z s -> in_i64 z = false) ->
   std_call X n args SInt [VStr s] p h w = Pan (PValueError (VStr s) (bs "valid integer") p) (h, w)).
Proof.
  cbn [std_call]. split.
  - intros z. rewrite <- parse_writes. destruct (parse_int s) as [z'|]; split; try discriminate; [intros [= ->]|intros [= ->]]; reflexivity.
  - intros N. destruct (parse_int s) as [z|] eqn:E; [|reflexivity]. apply parse_writes in E. destruct E as [E I]. rewrite (N _ E) in I. discriminate.
Qed.
