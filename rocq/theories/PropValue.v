(** Properties of operators and values: C17 to C20, C24, C26 to C29. *)
From Coq Require Import Strings.String.
From Verif Require Import Base Lexer Ast Program Value StdLib Exec Runtime Demo SpecText SpecLib SpecOrder DataProofs SpecRuntime SpecShow OperatorProofs DictProofs.

(** A starting point for the examples *)
Definition here : uinfo := mkuinfo 0 (bs "main"%string).
Definition start_state : state bytes := initial [] [].
Definition zero : pos := mkpos 1 1.
Definition number (z : Z) : xexpr := XLit (LInt z) zero.

(** C17, without the one case in which it fails: the remainder of the smallest integer and -1.
    The operands are 64-bit integers, as all integers of the interpreter are. *)
Theorem C17_integer_arithmetic_partial : forall {W} (X : ext W) (O : os W) n u l op r p s a b s1 s2,
  arithmetic op = true -> in_i64 a = true -> in_i64 b = true ->
  gives X O n u l s (VInt a) s1 -> gives X O n u r s1 (VInt b) s2 ->
  (forall z, exact op a b z -> in_i64 z = true -> ~ (op = BMod /\ a = i64_min /\ b = (-1)%Z) ->
     gives X O (S n) u (XBinary l op r p) s (VInt z) s2) /\
  ((forall z, exact op a b z -> in_i64 z = false) -> exists q, panics X O (S n) u (XBinary l op r p) s q s2).
Proof. exact @arithmetic_exact. Qed.
Print Assumptions C17_integer_arithmetic_partial.

Theorem C17_remainder_refuted : exists n l r p s s1 s2 a b z,
  gives demo_ext demo_os n here l s (VInt a) s1 /\ gives demo_ext demo_os n here r s1 (VInt b) s2 /\
  exact BMod a b z /\ in_i64 z = true /\ exists q, panics demo_ext demo_os (S n) here (XBinary l BMod r p) s q s2.
Proof.
  exists 1, (number i64_min), (number (-1)), zero, start_state, start_state, start_state, i64_min, (-1)%Z, 0%Z.
  split; [repeat eexists|]. split; [repeat eexists|]. split; [|split; [reflexivity|eexists; reflexivity]].
  apply (ex_mod _ _ (- i64_min)); vm_compute; congruence.
Qed.
Print Assumptions C17_remainder_refuted.

Example C17_case :
  gives demo_ext demo_os 1 here (number 7) start_state (VInt 7) start_state /\
  exact BDiv (-7) 2 (-3) /\ exact BMod (-7) 2 (-1) /\
  demo 30 (bs "(0 - 7) / 2"%string) = Some ([], inl (VInt (-3))) /\
  demo 30 (bs "(0 - 7) % 2"%string) = Some ([], inl (VInt (-1))) /\
  (exists p, demo 30 (bs "9223372036854775807 + 1"%string) = Some ([], inr (PIntegerOverflow p))) /\
  (exists p, demo 30 (bs "1 / 0"%string) = Some ([], inr (PDivisionByZero p))) /\
  (exists p, demo 30 (bs "(0 - 9223372036854775807 - 1) % (0 - 1)"%string) = Some ([], inr (PDivisionByZero p))).
Proof.
  split; [repeat eexists|]. split; [apply (ex_div _ _ _ (-1)); lia|]. split; [apply (ex_mod _ _ (-3)); lia|].
  repeat split; try eexists; vm_compute; reflexivity.
Qed.

(** C18, for every integer that has an opposite. *)
Theorem C18_negation_partial : forall {W} (X : ext W) (O : os W) n u e p s z s1,
  gives X O n u e s (VInt z) s1 -> in_i64 z = true -> z <> i64_min ->
  gives X O (S n) u (XUnary UMinus e p) s (VInt (- z)) s1.
Proof. exact @negation. Qed.
Print Assumptions C18_negation_partial.

(** The opposite of the smallest integer is neither exact nor a panic. *)
Theorem C18_negation_refuted : exists n e p s s1,
  gives demo_ext demo_os n here e s (VInt i64_min) s1 /\
  gives demo_ext demo_os (S n) here (XUnary UMinus e p) s (VInt i64_min) s1 /\ (i64_min <> - i64_min)%Z.
Proof.
  exists 1, (number i64_min), zero, start_state, start_state. split; [repeat eexists|]. split; [repeat eexists|discriminate].
Qed.
Print Assumptions C18_negation_refuted.

Example C18_case :
  gives demo_ext demo_os 1 here (number 5) start_state (VInt 5) start_state /\
  demo 30 (bs "let x = 5 let y = -x y"%string) = Some ([], inl (VInt (-5))) /\
  demo 30 (bs "let x = 0 - 9223372036854775807 - 1 let y = -x y"%string) = Some ([], inl (VInt i64_min)).
Proof. split; [repeat eexists|]. split; vm_compute; reflexivity. Qed.

(** C19 *)
Theorem C19_trichotomy : forall {W} (X : ext W) (O : os W) n u l r p s a b s1 s2, comparable a b ->
  gives X O (S n) u l s a s1 -> gives X O (S n) u r s1 b s2 -> exists lt eq gt,
    gives X O (S (S n)) u (XBinary l BLower r p) s (VBool lt) s2 /\
    gives X O (S (S n)) u (XBinary l BEquals r p) s (VBool eq) s2 /\
    gives X O (S (S n)) u (XBinary l BGreater r p) s (VBool gt) s2 /\
    exactly_one lt eq gt /\
    gives X O (S (S n)) u (XBinary l BLowerEquals r p) s (VBool (lt || eq)) s2 /\
    gives X O (S (S n)) u (XBinary l BGreaterEquals r p) s (VBool (gt || eq)) s2 /\
    gives X O (S (S n)) u (XBinary l BNotEquals r p) s (VBool (negb eq)) s2.
Proof. exact @trichotomy. Qed.
Print Assumptions C19_trichotomy.

Theorem C19_transitive : forall {W} (X : ext W) (O : os W) n u l m r p a b c s s1 s2 s' s1' s2' t t1 t2,
  gives X O n u l s a s1 -> gives X O n u m s1 b s2 -> gives X O (S n) u (XBinary l BLower m p) s (VBool true) s2 ->
  gives X O n u m s' b s1' -> gives X O n u r s1' c s2' -> gives X O (S n) u (XBinary m BLower r p) s' (VBool true) s2' ->
  gives X O n u l t a t1 -> gives X O n u r t1 c t2 -> gives X O (S n) u (XBinary l BLower r p) t (VBool true) t2.
Proof. exact @lower_transitive. Qed.
Print Assumptions C19_transitive.

(** The order is not irreflexive: a float that is not a number is lower than itself. *)
Theorem C19_irreflexive_refuted : exists n e s a,
  gives demo_ext demo_os n here e s a s /\ gives demo_ext demo_os (S n) here (XBinary e BLower e zero) s (VBool true) s.
Proof.
  (* the example world parses no float, and the code then has NaN *)
  exists 1, (XLit (LFloat (bs "nan"%string)) zero), start_state, (VFloat S754_nan). split; repeat eexists.
Qed.
Print Assumptions C19_irreflexive_refuted.

Example C19_case :
  comparable (VInt 1) (VInt 2) /\
  gives demo_ext demo_os 1 here (number 1) start_state (VInt 1) start_state /\
  gives demo_ext demo_os 2 here (XBinary (number 1) BLower (number 2) zero) start_state (VBool true) start_state /\
  (exists h, demo 60 (bs "std.println([""ab"" < ""b"", ""ab"" == ""b"", 'a' > 'b', 2 <= 2])"%string) = Some (h, inl VNil) /\
             h = bs "[ true, false, false, true ]
"%string).
Proof. split; [exact I|]. split; [repeat eexists|]. split; [repeat eexists|]. eexists. split; vm_compute; reflexivity. Qed.

(** C20.  The elements are plain data: trees without functions and NaN. *)
Theorem C20_sort : forall {W} (X : ext W) l ts h, l < length (h_arrs h) -> Forall2 (data h) (arr_get h l) ts ->
  exists n, forall m args p w, n <= m -> exists h' qs,
    std_call X m args SSort [VArr l] p h w = Val VNil (h', w) /\
    h' = arr_set h l (map fst qs) /\ arr_get h' l = map fst qs /\ sorted_stably (combine (arr_get h l) ts) qs.
Proof. exact @sort_std. Qed.
Print Assumptions C20_sort.

Example C20_case :
  Forall2 (data (mkheap [] [[VInt 3; VArr 1; VStr []; VInt 1]; [VNil]] [] [])) [VInt 3; VArr 1; VStr []; VInt 1]
    [TInt 3; TArr [TNil]; TStr []; TInt 1] /\
  demo 60 (bs "let a = [3, [nil], """", 1] std.sort(a) std.println(a)"%string) = Some (bs "[ 1, 3, """", [ nil ] ]
"%string, inl VNil).
Proof. split; [|vm_compute; reflexivity]. repeat constructor; exists 3; cbn; auto. Qed.

(** C24.  An operand that is not needed is not evaluated: the outcome is the same for every
    right operand. *)
Theorem C24_logic : forall {W} (X : ext W) (O : os W) n u l op r p s,
  (forall s1 b, gives X O n u l s (VBool b) s1 -> op = (if b then BOr else BAnd) ->
     gives X O (S n) u (XBinary l op r p) s (VBool b) s1) /\
  (forall s1 b, gives X O n u l s (VBool b) s1 -> op = (if b then BAnd else BOr) ->
    (forall c s2, gives X O n u r s1 (VBool c) s2 -> gives X O (S n) u (XBinary l op r p) s (VBool c) s2) /\
    (forall q s2, panics X O n u r s1 q s2 -> panics X O (S n) u (XBinary l op r p) s q s2) /\
    (forall v s2, gives X O n u r s1 v s2 -> ~ is_boolean v ->
       exists q, panics X O (S n) u (XBinary l op r p) s (PTypeError v (bs "bool"%string) q) s2)) /\
  (op = BAnd \/ op = BOr ->
    (forall v s1, gives X O n u l s v s1 -> ~ is_boolean v ->
       exists q, panics X O (S n) u (XBinary l op r p) s (PTypeError v (bs "bool"%string) q) s1) /\
    (forall q s1, panics X O n u l s q s1 -> panics X O (S n) u (XBinary l op r p) s q s1)).
Proof. exact (fun W X O n u l op r p s => conj (fun s1 b => @logic_short W X O n u l op r p s s1 b)
  (conj (fun s1 b => @logic_right W X O n u l op r p s s1 b) (@logic_left W X O n u l op r p s))). Qed.
Print Assumptions C24_logic.

Example C24_case :
  gives demo_ext demo_os 1 here (XLit LFalse zero) start_state (VBool false) start_state /\
  demo 60 (bs "false and std.panic(1)"%string) = Some ([], inl (VBool false)) /\
  demo 60 (bs "true or std.panic(1)"%string) = Some ([], inl (VBool true)) /\
  demo 60 (bs "true and false"%string) = Some ([], inl (VBool false)) /\
  (exists p, demo 60 (bs "true and std.panic(1)"%string) = Some ([], inr (PUser (VInt 1) p))) /\
  (exists p, demo 60 (bs "false or 2"%string) = Some ([], inr (PTypeError (VInt 2) (bs "bool"%string) p))).
Proof. split; [repeat eexists|]. repeat split; try eexists; vm_compute; reflexivity. Qed.

(** C26, unless the message of the panic never ends.  The function is the only argument of
    [std.catch]. *)
Theorem C26_catch_partial : forall {W} (X : ext W) (O : os W) n obj g start p s, skipn start (st_args s) = [VFun g] ->
  (forall v s', ev_call (interp X O n) VNil g (start + 1) p s = Val v s' ->
     ev_call (interp X O (S n)) obj (FRust (NStd SCatch)) start p s = Val v (set_args s' (firstn start (st_args s')))) /\
  (forall q s', ev_call (interp X O n) VNil g (start + 1) p s = Pan q s' ->
     (ev_call (interp X O (S n)) obj (FRust (NStd SCatch)) start p s = Fuel \/
      exists t, message X (st_heap s') q t /\
        ev_call (interp X O (S n)) obj (FRust (NStd SCatch)) start p s
        = Val (VErr (bs "caught panic: "%string ++ t) (VStr (bs "panic"%string))) (set_args s' (firstn start (st_args s')))) /\
     (some_order X -> messageable X (st_heap s') q -> exists m t, n <= m /\ message X (st_heap s') q t /\
        ev_call (interp X O (S m)) obj (FRust (NStd SCatch)) start p s
        = Val (VErr (bs "caught panic: "%string ++ t) (VStr (bs "panic"%string))) (set_args s' (firstn start (st_args s'))))) /\
  (forall q s', ev_call (interp X O (S n)) obj (FRust (NStd SCatch)) start p s <> Pan q s').
Proof. exact @catch_call. Qed.
Print Assumptions C26_catch_partial.

Example C26_case :
  skipn 0 (st_args (set_args start_state [VFun (FRust (NStd SArgs))])) = [VFun (FRust (NStd SArgs))] /\
  demo 60 (bs "std.catch(function() 1 / 0 end)"%string)
  = Some ([], inl (VErr (bs "caught panic: Panic in main (line 1, column 23): division by zero"%string) (VStr (bs "panic"%string)))) /\
  demo 60 (bs "std.catch(function() std.panic([5, nil]) end)"%string)
  = Some ([], inl (VErr (bs "caught panic: Panic in main (line 1, column 30): std.panic([ 5, nil ])"%string) (VStr (bs "panic"%string)))) /\
  demo 60 (bs "std.catch(function() 5 end)"%string) = Some ([], inl (VInt 5)).
Proof. repeat split; vm_compute; reflexivity. Qed.

(** The error tells the message of the panic.  The message of a panic with an array that contains
    itself has no end, so [std.catch] never returns. *)
Theorem C26_message_refuted : exists g (s s' : state bytes) q p,
  demo_run 60 (bs "let a = [] std.push(a, a) function() std.panic(a) end"%string) = Some (Val (VFun g) s) /\
  ev_call (interp demo_ext demo_os 60) VNil g 1 p (set_args s [VFun g]) = Pan q s' /\
  forall n, ev_call (interp demo_ext demo_os n) VNil (FRust (NStd SCatch)) 0 p (set_args s [VFun g]) = Fuel.
Proof.
  destruct (demo_run 60 (bs "let a = [] std.push(a, a) function() std.panic(a) end"%string)) as [r|] eqn:E; [|vm_compute in E; discriminate].
  vm_compute in E. injection E as <-. eexists _, _, _, _, (mkspos (bs "main"%string) zero). split; [reflexivity|].
  split; [vm_compute; reflexivity|]. intros n.
  eapply (catch_endless demo_ext demo_os 60); [reflexivity|vm_compute; reflexivity|reflexivity].
Qed.
Print Assumptions C26_message_refuted.

(** C27, when one of the values is not part of itself. *)
Theorem C27_equality_ends_partial : forall h a, grounded h a ->
  exists n, forall bits b, exists r, eqv h n bits a b = Known r.
Proof. exact eqv_total. Qed.
Print Assumptions C27_equality_ends_partial.

(** An array that contains itself is never found equal, or different, to itself: no number of
    steps suffices. *)
Theorem C27_equality_ends_refuted : exists s : state bytes,
  demo_run 60 (bs "let a = [] std.push(a, a) a"%string) = Some (Val (VArr 1) s) /\
  forall n, eqv (st_heap s) n false (VArr 1) (VArr 1) = Deep.
Proof.
  destruct (demo_run 60 (bs "let a = [] std.push(a, a) a"%string)) as [r|] eqn:E; [|vm_compute in E; discriminate].
  vm_compute in E. injection E as <-. eexists. split; [reflexivity|]. intros n. apply self_array. reflexivity.
Qed.
Print Assumptions C27_equality_ends_refuted.

Example C27_case : grounded (mkheap [] [[VArr 1; VInt 2]; [VNil]] [] []) (VArr 0) /\
  demo 60 (bs "[[nil], 2] == [[nil], 2]"%string) = Some ([], inl (VBool true)).
Proof.
  split; [|vm_compute; reflexivity]. apply gr_array. cbn. intros v [<-|[<-|[]]]; [|apply gr_other; exact I].
  apply gr_array. cbn. intros v [<-|[]]. apply gr_other. exact I.
Qed.

(** C28 fails for bound functions, which are all equal ... *)
Theorem C28_equal_functions_refuted : exists n f g s v w s1 s2,
  eqv (st_heap s) n false (VFun f) (VFun g) = Known true /\
  ev_call (interp demo_ext demo_os n) VNil f 0 (at_ here zero) s = Val v s1 /\
  ev_call (interp demo_ext demo_os n) VNil g 0 (at_ here zero) s = Val w s2 /\ v <> w.
Proof.
  exists 10.
  exists (FRust (NBind VNil (FHush 0 0 (mkframe_info 0 [] None) [XExpr (number 1)] [] (at_ here zero)))).
  exists (FRust (NBind VNil (FHush 0 0 (mkframe_info 0 [] None) [XExpr (number 2)] [] (at_ here zero)))).
  exists start_state. repeat eexists. discriminate.
Qed.
Print Assumptions C28_equal_functions_refuted.

(** ... and holds for the functions of the library, which are equal only to themselves. *)
Theorem C28_library_functions_partial : forall {W} (X : ext W) (O : os W) h n f g,
  eqv h n false (VFun (FRust (NStd f))) (VFun (FRust (NStd g))) = Known true ->
  forall m obj start p s,
    ev_call (interp X O m) obj (FRust (NStd f)) start p s = ev_call (interp X O m) obj (FRust (NStd g)) start p s.
Proof. exact (fun W X O h n f g E m obj start p s =>
  f_equal (fun x => ev_call (interp X O m) obj (FRust (NStd x)) start p s) (std_equal h n f g E)). Qed.
Print Assumptions C28_library_functions_partial.

Example C28_case :
  demo 90 (bs "let f = function() 1 end let g = function() 2 end let a = std.bind(nil, f) let b = std.bind(nil, g)
    std.println([a == b, a(), b()])"%string) = Some (bs "[ true, 1, 2 ]
"%string, inl VNil) /\
  demo 60 (bs "std.println([std.len == std.len, std.len == std.type])"%string) = Some (bs "[ true, false ]
"%string, inl VNil).
Proof. split; vm_compute; reflexivity. Qed.

(** C29.  The keys are plain data of which the dict itself is not a part. *)
Theorem C29_finite_map : forall {W} (X : ext W) l m kvs tvs p (s : state W),
  represents (st_heap s) l m ->
  Forall2 (fun (e : value * value) (tv : tree * value) =>
             (exists n, reads (LockDict l) (st_heap s) n (fst e) (fst tv)) /\ snd e = snd tv) kvs tvs ->
  exists N h', (exists d, h' = dict_set (st_heap s) l d) /\
    (forall n, N <= n -> insert_all n (VDict l) kvs p s = Val tt (set_heap s h')) /\
    (forall key t r, (exists n, reads (LockDict l) (st_heap s) n key t) -> looks_up m tvs t r ->
       exists N', forall n q q', N' <= n ->
         access n (VDict l) q key q' (set_heap s h') =
         match r with Some v => Val v (set_heap s h') | None => Pan (PIndexOutOfBounds key q') (set_heap s h') end) /\
    (exists ks, NoDup ks /\ (forall t, In t ks <-> In t (map fst m) \/ In t (map fst tvs)) /\
       forall n args q w, std_call X n args SLen [VDict l] q h' w = Val (VInt (Z.of_nat (length ks))) (h', w)).
Proof. exact @dict_map. Qed.
Print Assumptions C29_finite_map.

Example C29_case :
  represents (mkheap [] [[VInt 1]] [[(VInt 5, VNil)]] []) 0 [(TInt 5, VNil)] /\
  (exists n, reads (LockDict 0) (mkheap [] [[VInt 1]] [[(VInt 5, VNil)]] []) n (VArr 0) (TArr [TInt 1])) /\
  demo 90 (bs "let d = @[] d[[1]] = 2 d[""k""] = 3 d[[1]] = 4 std.println([d[[1]], d.k, std.len(d)]) d[5]"%string)
  = Some (bs "[ 4, 3, 2 ]
"%string, inr (PIndexOutOfBounds (VInt 5) (mkspos (bs "main"%string) (mkpos 1 86)))).
Proof.
  split; [|split].
  - split; [cbn; lia|]. split; [repeat constructor; intros []|]. repeat constructor; cbn; auto. exists 1. reflexivity.
  - exists 2. cbn. auto.
  - vm_compute. reflexivity.
Qed.
