(** Property C109: what a program does not reach does not matter to it. *)
From Coq Require Import Strings.String Lia.
From Verif Require Import Base Lexer Ast Program Value StdLib Exec Runtime Demo SpecRuntime SpecGarbage GarbageRunProofs.

(** C109: from two states with the same objects in what the interpreter reaches, whatever the other
    objects hold, a statement ends in the same way with the same value or panic, the same world and
    again the same objects in what is reached.  What was not reached before is left as it was and is
    not found again.  So a collector that empties what is not reached, before or after, is not seen. *)
Theorem C109_statement : forall {W} (X : ext W) (O : os W), detached X ->
  forall n u st (s t : state W), but_garbage [] s t ->
  regardless flow_pointers [] s (ev_statement (interp X O n) u st s) (ev_statement (interp X O n) u st t).
Proof. exact @statement_regardless. Qed.
Print Assumptions C109_statement.

(** The same of expressions *)
Theorem C109_expression : forall {W} (X : ext W) (O : os W), detached X ->
  forall n u e (s t : state W), but_garbage [] s t ->
  regardless (fun r => flow_pointers (fst (fst r)) ++ pointers (snd r)) [] s
    (ev_expr (interp X O n) u e s) (ev_expr (interp X O n) u e t).
Proof. exact @expr_regardless. Qed.
Print Assumptions C109_expression.

(** The same of calls, where the function and its [self] are reached as well *)
Theorem C109_call : forall {W} (X : ext W) (O : os W), detached X ->
  forall n obj f start p (s t : state W), but_garbage (pointers obj ++ func_pointers f) s t ->
  regardless pointers (pointers obj ++ func_pointers f) s
    (ev_call (interp X O n) obj f start p s) (ev_call (interp X O n) obj f start p t).
Proof. exact @call_regardless. Qed.
Print Assumptions C109_call.

(** The same of modules and whole programs *)
Theorem C109_program : forall {W} (X : ext W) (O : os W), detached X ->
  forall n u prog (s t : state W), but_garbage [] s t ->
  regardless pointers [] s (eval_program X false (interp X O n) u prog s) (eval_program X false (interp X O n) u prog t).
Proof. exact @program_regardless. Qed.
Print Assumptions C109_program.

(** So a collector at work between any two statements of a block is not seen. *)
Theorem C109_collector : forall {W} (X : ext W) (O : os W), detached X ->
  forall (gc : nat -> state W -> state W) n u b (s : state W), (forall k s, but_garbage [] s (gc k s)) ->
  regardless flow_pointers [] s (eval_block (interp X O n) u b s) (collecting gc (interp X O n) u b s).
Proof. exact @collecting_regardless. Qed.
Print Assumptions C109_collector.

Example C109_world : detached demo_ext.
Proof.
  split; cbn; try discriminate.
  - auto.
  - intros i h w v h1 w' [= <- <- <-]. exists [], []. split.
    + intros h' _. rewrite !app_nil_r. destruct h'. reflexivity.
    + intros u x [->|[(a & [] & _)|(d & e & [] & _)]] [].
Qed.

(** Variable 1 holds the array 2; the array 1 is garbage: it holds what is not garbage, and itself. *)
Definition C109_state (garbage : list value) : state bytes :=
  mkstate [Regular 0 (VDict 0); Regular 1 (VArr 2)] [] (mkheap [VNil; VNil] [[]; garbage; [VInt 7]] [[]] []) [] 1 false [].
Definition C109_source : bytes := bs "let a = nil a[0] = @[ b: a ]"%string.

Example C109_case :
  but_garbage [] (C109_state [VArr 2; VArr 1]) (C109_state []) /\ ~ reachable (st_heap (C109_state [VArr 2; VArr 1])) (roots (C109_state [VArr 2; VArr 1])) (OArr 1) /\
  exists prog st s' t', compile C109_source = Some prog /\ nth_error (pr_statements prog) 1 = Some st /\
    ev_statement (interp demo_ext demo_os 20) (mkuinfo 0 []) st (C109_state [VArr 2; VArr 1]) = Val (Reg VNil) s' /\
    ev_statement (interp demo_ext demo_os 20) (mkuinfo 0 []) st (C109_state []) = Val (Reg VNil) t' /\
    h_arrs (st_heap s') = [[]; [VArr 2; VArr 1]; [VDict 1]] /\ h_arrs (st_heap t') = [[]; []; [VDict 1]].
Proof.
  assert (R : forall x, reachable (st_heap (C109_state [VArr 2; VArr 1])) ([] ++ roots (C109_state [VArr 2; VArr 1])) x -> x <> OArr 1).
  { induction 1 as [x H|x v y H IH Hv Hy].
    - repeat (destruct H as [<-|H]; [discriminate|]). destruct H.
    - destruct x as [[|[|l]]|[|[|[|l]]]|[|l]|[|l]]; try contradiction;
        repeat (destruct Hv as [<-|Hv]; [cbn in Hy; try contradiction|]); try contradiction;
        try (destruct l; contradiction). }
  split; [|split; [intros H; exact (R _ H eq_refl)|]].
  - split; try reflexivity; [repeat split|]. intros x Hx. specialize (R x Hx). destruct x as [l|[|[|l]]|l|l]; try reflexivity. congruence.
  - eexists _, _, _, _. split; [vm_compute; reflexivity|]. split; [reflexivity|]. split; [vm_compute; reflexivity|].
    split; [vm_compute; reflexivity|]. split; reflexivity.
Qed.

(** A collector that knows one case of garbage: the array 1 of the state above *)
Definition C109_gc (k : nat) (s : state bytes) : state bytes :=
  match s with
  | mkstate [Regular 0 (VDict 0); Regular 1 (VArr 2)] [] (mkheap [VNil; VNil] [[]; _; [VInt z]] [[]] []) [] u l w =>
      mkstate [Regular 0 (VDict 0); Regular 1 (VArr 2)] [] (mkheap [VNil; VNil] [[]; []; [VInt z]] [[]] []) [] u l w
  | _ => s
  end.
Example C109_collector_case :
  (forall k s, but_garbage [] s (C109_gc k s)) /\
  exists prog b s' t', compile (bs "let a = nil a[0] = 8 a[0] = @[ b: a ]"%string) = Some prog /\
    skipn 1 (pr_statements prog) = b /\ List.length b = 2 /\
    eval_block (interp demo_ext demo_os 20) (mkuinfo 0 []) b (C109_state [VArr 2; VArr 1]) = Val (Reg VNil) s' /\
    collecting C109_gc (interp demo_ext demo_os 20) (mkuinfo 0 []) b (C109_state [VArr 2; VArr 1]) = Val (Reg VNil) t' /\
    h_arrs (st_heap s') = [[]; [VArr 2; VArr 1]; [VDict 1]] /\ h_arrs (st_heap t') = [[]; []; [VDict 1]].
Proof.
  split.
  - intros k s. assert (S : but_garbage [] s s) by (split; try reflexivity; [repeat split|]; intros [] _; reflexivity).
    unfold C109_gc.
    repeat match goal with |- but_garbage _ _ (match ?x with _ => _ end) => is_var x; destruct x; try exact S end.
    clear S. match goal with |- but_garbage _ ?s _ => assert (R : forall x, reachable (st_heap s) ([] ++ roots s) x -> x <> OArr 1) end.
    { induction 1 as [x H|x v y H IH Hv Hy].
      - repeat (destruct H as [<-|H]; [discriminate|]). destruct H.
      - destruct x as [[|[|i]]|[|[|[|i]]]|[|i]|[|i]]; try contradiction;
          repeat (destruct Hv as [<-|Hv]; [cbn in Hy; try contradiction|]); try contradiction;
          try (destruct i; contradiction). }
    split; try reflexivity; [repeat split|]. intros x Hx. specialize (R x Hx). destruct x as [i|[|[|i]]|i|i]; try reflexivity. congruence.
  - eexists _, _, _, _. split; [vm_compute; reflexivity|]. split; [reflexivity|]. split; [reflexivity|]. split; [vm_compute; reflexivity|].
    split; [vm_compute; reflexivity|]. split; reflexivity.
Qed.
