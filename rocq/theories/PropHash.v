(** Hashing of values, and the tables behind the dicts *)
From Coq Require Import Strings.String.
From Verif Require Import Base Lexer Ast Program Value StdLib Exec Runtime SpecOrder SpecRuntime SpecRun Demo HashTable SpecHash HashProofs.

(** C102.  Two plain values without -0.0 give the same to the hasher exactly if they are equal. *)
Theorem C102_equal_hash_partial : forall rank h a b t u, data h a t -> data h b u -> no_minus_zero t -> no_minus_zero u ->
  exists f g, hashed_as rank h a f /\ hashed_as rank h b g /\ (f = g <-> equals h a b).
Proof. exact equal_hash. Qed.
Print Assumptions C102_equal_hash_partial.

(** 0.0 and -0.0 are equal, and so are arrays of them, but not hashed alike. *)
Theorem C102_equal_hash_refuted : exists h a b f g, data h a (TArr [TFloat (S754_zero false)]) /\ data h b (TArr [TFloat (S754_zero true)]) /\
  equals h a b /\ hashed_as (fun _ => 0%N) h a f /\ hashed_as (fun _ => 0%N) h b g /\ f <> g.
Proof.
  exists (mkheap [] [[VFloat (S754_zero false)]; [VFloat (S754_zero true)]] [] []), (VArr 0), (VArr 1), [MTag 6; MLen 1; MTag 4; MBits (S754_zero false)],
    [MTag 6; MLen 1; MTag 4; MBits (S754_zero true)].
  split; [exists 2; repeat constructor|]. split; [exists 2; repeat constructor|].
  split; [exists 2; intros [|[|m]] L; [lia|lia|reflexivity]|]. split; [exists 2; intros [|[|m]] L; [lia|lia|reflexivity]|].
  split; [exists 2; intros [|[|m]] L; [lia|lia|reflexivity]|]. discriminate.
Qed.
Print Assumptions C102_equal_hash_refuted.

(** Two dicts with the same entries in another order *)
Example C102_case :
  let h := mkheap [] [] [[(VInt 1, VNil); (VStr [x61], VBool true)]; [(VStr [x61], VBool true); (VInt 1, VNil)]] [] in
  let t := TDict [(TInt 1, TNil); (TStr [x61], TBool true)] in
  data h (VDict 0) t /\ data h (VDict 1) t /\ no_minus_zero t /\
  feed (fun _ => 0%N) h 5 LockNone (VDict 0) = feed (fun _ => 0%N) h 5 LockNone (VDict 1) /\
  feed (fun _ => 0%N) h 5 LockNone (VDict 0) =
    Known [MTag 7; MLen 2; MTag 3; MInt 1; MTag 0; MTag 5; MLen 1; MByte x61; MTag 1; MByte x01].
Proof.
  cbv zeta. assert (O : in_order [(TInt 1, TNil); (TStr [x61], TBool true)]) by (repeat constructor).
  split; [|split; [|split; [cbn; tauto|split; vm_compute; reflexivity]]].
  - exists 3. cbn [reads]. split; [reflexivity|]. split; [exact O|]. eexists. split; [apply Permutation.Permutation_refl|]. repeat constructor.
  - exists 3. cbn [reads]. split; [reflexivity|]. split; [exact O|]. eexists. split; [apply Permutation.perm_swap|]. repeat constructor.
Qed.

(** C103.  Whatever the hasher is and however often the table grows, a dict whose keys are as
    they were when they were inserted is a finite map. *)
Theorem C103_any_hasher_partial : forall rank hasher seen h l t m ops tvs, thorough seen -> in_place rank hasher h l t m ->
  Forall2 (fun (op : bool * (value * value)) (tv : tree * value) =>
    (exists n, reads (LockDict l) h n (fst (snd op)) (fst tv)) /\ no_minus_zero (fst tv) /\ snd (snd op) = snd tv) ops tvs ->
  exists N t', (forall n, N <= n -> inserts rank hasher seen h l n ops t = Known t') /\
    (forall key k r, (exists n, reads (LockDict l) h n key k) -> no_minus_zero k -> looks_up m tvs k r ->
       exists N', forall n, N' <= n -> table_get rank h hasher seen n t' key = Known r) /\
    exists ks, NoDup ks /\ (forall k, In k ks <-> In k (map fst m) \/ In k (map fst tvs)) /\ length t' = length ks.
Proof. exact table_map. Qed.
Print Assumptions C103_any_hasher_partial.

(** Then the look-ups and insertions of the interpreter above it, which know of no hashes, give
    the same. *)
Theorem C103_agrees_partial : forall rank hasher seen h l t m key k, thorough seen -> in_place rank hasher h l t m -> dict_entries h l = contents t ->
  (exists n, reads (LockDict l) h n key k) -> no_minus_zero k ->
  exists N, forall n, N <= n ->
    table_get rank h hasher seen n t key = dict_get h n l key /\
    forall grow v, exists t', table_insert rank h hasher seen n l grow t key v = Known t' /\ dict_put h n l key v = Known (contents t') /\
      exists m', in_place rank hasher h l t' m'.
Proof. exact table_agrees. Qed.
Print Assumptions C103_agrees_partial.

(** A table that grows has every key, as it is now, at its place again, also those that were
    changed, provided that no two of them have become equal. *)
Theorem C103_grown_partial : forall rank hasher seen h l t m key k v, thorough seen -> NoDup (map fst m) ->
  Forall2 (fun (b : bucket) (e : tree * value) =>
    bk_val b = snd e /\ no_minus_zero (fst e) /\ exists n, reads (LockDict l) h n (bk_key b) (fst e)) t m ->
  (exists n, reads (LockDict l) h n key k) -> no_minus_zero k ->
  exists N t' m', (forall n, N <= n -> table_insert rank h hasher seen n l true t key v = Known t') /\ in_place rank hasher h l t' m' /\
    forall k' v', In (k', v') m' <-> (k' = k /\ v' = v) \/ (k' <> k /\ In (k', v') m).
Proof. exact table_grown. Qed.
Print Assumptions C103_grown_partial.

(** An array that is changed after it was used as a key is not found any more, neither as it was
    nor as it is; inserting it again makes a second entry with an equal key. *)
Theorem C103_changed_key_refuted : exists hasher seen (before after : state bytes) a k old d t t',
  thorough seen /\
  demo_run 60 (bs "let k = [1] let old = [1] let d = @[] d[k] = 2 let r = [k, old, d] r"%string) = Some (Val (VArr a) before) /\
  demo_run 60 (bs "let k = [1] let old = [1] let d = @[] d[k] = 2 std.push(k, 3) let r = [k, old, d] r"%string) = Some (Val (VArr a) after) /\
  arr_get (st_heap before) a = [VArr k; VArr old; VDict d] /\ arr_get (st_heap after) a = [VArr k; VArr old; VDict d] /\
  table_insert (fun _ => 0%N) (st_heap before) hasher seen 9 d false [] (VArr k) (VInt 2) = Known t /\
  contents t = dict_entries (st_heap before) d /\ contents t = dict_entries (st_heap after) d /\
  In (VArr k, VInt 2) (dict_entries (st_heap after) d) /\
  table_get (fun _ => 0%N) (st_heap after) hasher seen 9 t (VArr k) = Known None /\
  table_get (fun _ => 0%N) (st_heap after) hasher seen 9 t (VArr old) = Known None /\
  table_insert (fun _ => 0%N) (st_heap after) hasher seen 9 d false t (VArr k) (VInt 5) = Known t' /\
  contents t' = [(VArr k, VInt 2); (VArr k, VInt 5)].
Proof.
  exists (fun f => N.of_nat (length f)).
  exists (fun hashes x => filter (fun i => match nth_error hashes i with Some y => (x =? y)%N | None => false end) (seq 0 (length hashes))).
  destruct (demo_run 60 (bs "let k = [1] let old = [1] let d = @[] d[k] = 2 let r = [k, old, d] r"%string)) as [r|] eqn:E; [|vm_compute in E; discriminate].
  destruct (demo_run 60 (bs "let k = [1] let old = [1] let d = @[] d[k] = 2 std.push(k, 3) let r = [k, old, d] r"%string)) as [r'|] eqn:E'; [|vm_compute in E'; discriminate].
  vm_compute in E. vm_compute in E'. injection E as <-. injection E' as <-. do 2 eexists. do 6 eexists.
  split.
  { intros hashes x i H. apply filter_In. split; [|rewrite H; apply N.eqb_refl]. apply in_seq. cbn. split; [lia|].
    apply nth_error_Some. congruence. }
  split; [reflexivity|]. split; [reflexivity|]. split; [reflexivity|]. split; [reflexivity|].
  split; [vm_compute; reflexivity|]. split; [reflexivity|]. split; [reflexivity|]. split; [left; reflexivity|].
  split; [vm_compute; reflexivity|]. split; [vm_compute; reflexivity|]. split; vm_compute; reflexivity.
Qed.
Print Assumptions C103_changed_key_refuted.

(** 0.0 and -0.0 are equal but different keys. *)
Theorem C103_zero_refuted : exists src,
  src = bs "let z = std.float(0) let d = @[] d[z] = 1 std.println([z == -z, std.contains(d, -z)])"%string /\
  demo 90 src = Some (bs "[ true, false ]
"%string, inl VNil).
Proof. eexists. split; [reflexivity|]. vm_compute. reflexivity. Qed.
Print Assumptions C103_zero_refuted.

(** A table that grows, with a hasher for which all hashes are the same *)
Example C103_case :
  let h := mkheap [] [[VInt 1]; [VInt 1]] [[]] [] in
  let seen := fun (hashes : list N) (_ : N) => seq 0 (length hashes) in
  thorough seen /\
  in_place (fun _ => 0%N) (fun _ => 7%N) h 0 [] [] /\
  (exists n, reads (LockDict 0) h n (VArr 0) (TArr [TInt 1])) /\ no_minus_zero (TArr [TInt 1]) /\
  inserts (fun _ => 0%N) (fun _ => 7%N) seen h 0 9 [(true, (VInt 1, VNil)); (false, (VArr 0, VNil)); (true, (VArr 1, VBool true))] [] =
    Known [mkbucket 7 (VInt 1) VNil; mkbucket 7 (VArr 0) (VBool true)].
Proof.
  cbv zeta. split; [|split; [|split; [|split; [cbn; tauto|vm_compute; reflexivity]]]].
  - intros hashes x i H. apply in_seq. cbn. split; [lia|]. apply nth_error_Some. congruence.
  - split; constructor.
  - exists 2. repeat constructor.
Qed.

(** A key with a stale hash gets its place when the table grows. *)
Example C103_regrown :
  let h := mkheap [] [[VInt 1; VInt 3]] [[]] [] in
  let hasher := fun f : list mark => N.of_nat (length f) in
  let seen := fun (hashes : list N) (_ : N) => seq 0 (length hashes) in
  Forall2 (fun (b : bucket) (e : tree * value) =>
    bk_val b = snd e /\ no_minus_zero (fst e) /\ exists n, reads (LockDict 0) h n (bk_key b) (fst e))
    [mkbucket 4 (VArr 0) VNil] [(TArr [TInt 1; TInt 3], VNil)] /\
  table_insert (fun _ => 0%N) h hasher seen 9 0 true [mkbucket 4 (VArr 0) VNil] (VInt 1) VNil =
    Known [mkbucket 6 (VArr 0) VNil; mkbucket 2 (VInt 1) VNil].
Proof.
  cbv zeta. split; [|vm_compute; reflexivity]. repeat constructor. exists 2. repeat constructor.
Qed.
