(** Property C110: a call has to do with what it is given only. *)
From Coq Require Import Strings.String Lia.
From Verif Require Import Base Lexer Ast Program Value StdLib Exec Runtime Demo SpecProgram SpecRun SpecRuntime SpecTail SpecGarbage SpecFrame FrameProofs.
#[local] Existing Instance anything.

(** C110: a call changes no variable on the stack and no object but those that are reached from the
    function, its [self], the arguments, the library, the arguments of the script and the modules; and
    no other object of before is reached from its result.  Here and below no module was left by a
    panic (finding of C21). *)
Theorem C110_changes : forall {W} (X : ext W) (O : os W), honest X -> detached X ->
  forall n obj f start p, sound obj -> sound_func f ->
  forall (s s' : state W) o, sound_state s ->
  ev_call (interp X O n) obj f start p s = o -> finishes o s' -> st_leaked s' = false ->
  st_stack s' = st_stack s /\ untouched (st_heap s) (given obj f s) (st_heap s') (comes o ++ held s').
Proof. exact @call_frame. Qed.
Print Assumptions C110_changes.

(** What it does depends on nothing else: with other variables on the stack, as many or with a stack
    without a limit, and other values in all other objects, it ends in the same way. *)
Theorem C110_depends : forall {W} (X : ext W) (O : os W), honest X -> detached X ->
  forall n obj f start p, sound obj -> sound_func f ->
  forall s t : state W, x_stack_size X = None \/ List.length (st_stack s) = List.length (st_stack t) ->
  sound_state s -> sound_state t -> alike (given obj f s) s t ->
  clean_end (ev_call (interp X O n) obj f start p s) ->
  answers s t (ev_call (interp X O n) obj f start p s) (ev_call (interp X O n) obj f start p t).
Proof. exact @call_answers. Qed.
Print Assumptions C110_depends.

(** The same inside a function: a statement that is valid for [k] variables leaves those of the
    callers, which are below, and changes only what is reached from its own. *)
Theorem C110_statement_changes : forall {W} (X : ext W) (O : os W), honest X -> detached X ->
  forall n u st fn lp k, valid_statement fn lp k st ->
  forall (s s' : state W) o, k <= List.length (st_stack s) -> sound_state s ->
  ev_statement (interp X O n) u st s = o -> finishes o s' -> st_leaked s' = false ->
  skipn k (st_stack s') = skipn k (st_stack s) /\ untouched (st_heap s) (own k s) (st_heap s') (leaves o ++ own k s').
Proof. exact @statement_frame. Qed.
Print Assumptions C110_statement_changes.

Theorem C110_statement_depends : forall {W} (X : ext W) (O : os W), honest X -> detached X ->
  forall n u st fn lp k, valid_statement fn lp k st ->
  forall s t : state W, k <= List.length (st_stack s) -> k <= List.length (st_stack t) ->
  x_stack_size X = None \/ List.length (st_stack s) = List.length (st_stack t) ->
  firstn k (st_stack t) = firstn k (st_stack s) -> sound_state s -> sound_state t -> alike (own k s) s t ->
  clean_end (ev_statement (interp X O n) u st s) ->
  leads k s t (ev_statement (interp X O n) u st s) (ev_statement (interp X O n) u st t).
Proof. exact @statement_leads. Qed.
Print Assumptions C110_statement_depends.

(** The caller has the array 1 in a variable, the function is given the array 2. *)
Definition C110_state (stack : list vslot) (mine : list value) : state bytes :=
  mkstate stack [VArr 2] (mkheap [] [[]; mine; [VInt 7]] [[]] []) [] 1 false [].
Definition C110_source : bytes := bs "function (a) a[0] = @[ b: a ] a end"%string.
Definition C110_one := C110_state [Regular 0 (VArr 1); Regular 0 VNil] [VArr 2; VInt 3].
Definition C110_two := C110_state [Regular 4 (VInt 8); Closed 0] [].

Example C110_case :
  exists s f s' t', demo_run 60 C110_source = Some (Val (VFun f) s) /\ sound_func f /\ sound_state C110_one /\ sound_state C110_two /\
    alike (given VNil f C110_one) C110_one C110_two /\ ~ reachable (st_heap C110_one) (given VNil f C110_one) (OArr 1) /\
    ev_call (interp demo_ext demo_os 60) VNil f 0 (mkspos [] (mkpos 1 1)) C110_one = Val (VArr 2) s' /\
    ev_call (interp demo_ext demo_os 60) VNil f 0 (mkspos [] (mkpos 1 1)) C110_two = Val (VArr 2) t' /\
    h_arrs (st_heap s') = [[]; [VArr 2; VInt 3]; [VDict 1]] /\ h_arrs (st_heap t') = [[]; []; [VDict 1]] /\
    st_leaked s' = false.
Proof.
  eexists _, _, _, _. split; [vm_compute; reflexivity|]. split; [cbn; repeat split; try lia; repeat constructor|].
  split; [cbn; repeat split; repeat constructor|]. split; [cbn; repeat split; repeat constructor|].
  match goal with |- alike ?g _ _ /\ _ => assert (R : forall x, reachable (st_heap C110_one) g x -> x <> OArr 1) end.
  { induction 1 as [x H|x v y H IH Hv Hy].
    - cbn in H. repeat (destruct H as [<-|H]; [discriminate|]). destruct H.
    - destruct x as [[|l]|[|[|[|l]]]|[|l]|[|l]]; cbn in Hv; try contradiction;
        repeat (destruct Hv as [<-|Hv]; [cbn in Hy; try contradiction|]); try contradiction;
        try (destruct l; contradiction). }
  split; [|split; [intros H; exact (R _ H eq_refl)|]].
  - split; try reflexivity; [repeat split|]. intros x Hx. specialize (R x Hx). destruct x as [l|[|[|l]]|l|l]; try reflexivity. congruence.
  - split; [vm_compute; reflexivity|]. split; [vm_compute; reflexivity|]. repeat split.
Qed.

(** The variable 0 of the function is [std], the variable 1 the array 2; the array 1 is the caller's. *)
Definition C110_inner (below : vslot) (mine : list value) : state bytes :=
  mkstate [Regular 0 (VDict 0); Regular 0 (VArr 2); below] [] (mkheap [] [[]; mine; [VInt 7]] [[]] []) [] 1 false [].
Example C110_statement_case :
  exists prog st s' t', compile (bs "let a = nil a[0] = @[ b: a ]"%string) = Some prog /\ nth_error (pr_statements prog) 1 = Some st /\
    valid_statement false false 2 st /\ sound_state (C110_inner (Regular 0 (VArr 1)) [VInt 3]) /\ sound_state (C110_inner (Closed 5) []) /\
    alike (own 2 (C110_inner (Regular 0 (VArr 1)) [VInt 3])) (C110_inner (Regular 0 (VArr 1)) [VInt 3]) (C110_inner (Closed 5) []) /\
    ev_statement (interp demo_ext demo_os 20) (mkuinfo 0 []) st (C110_inner (Regular 0 (VArr 1)) [VInt 3]) = Val (Reg VNil) s' /\
    ev_statement (interp demo_ext demo_os 20) (mkuinfo 0 []) st (C110_inner (Closed 5) []) = Val (Reg VNil) t' /\
    h_arrs (st_heap s') = [[]; [VInt 3]; [VDict 1]] /\ h_arrs (st_heap t') = [[]; []; [VDict 1]] /\ st_leaked s' = false.
Proof.
  eexists _, _, _, _. split; [vm_compute; reflexivity|]. split; [reflexivity|]. split; [cbn; repeat split; lia|].
  split; [cbn; repeat split; repeat constructor|]. split; [cbn; repeat split; repeat constructor|]. split.
  - match goal with |- alike ?g ?s _ => assert (R : forall x, reachable (st_heap s) g x -> x <> OArr 1) end.
    { induction 1 as [x H|x v y H IH Hv Hy].
      - cbn in H. repeat (destruct H as [<-|H]; [discriminate|]). destruct H.
      - destruct x as [[|l]|[|[|[|l]]]|[|l]|[|l]]; cbn in Hv; try contradiction;
          repeat (destruct Hv as [<-|Hv]; [cbn in Hy; try contradiction|]); try contradiction;
          try (destruct l; contradiction). }
    split; try reflexivity; [repeat split|]. intros x Hx. specialize (R x Hx). destruct x as [l|[|[|l]]|l|l]; try reflexivity. congruence.
  - split; [vm_compute; reflexivity|]. split; [vm_compute; reflexivity|]. repeat split.
Qed.
