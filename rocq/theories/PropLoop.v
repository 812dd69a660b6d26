(** Properties of loops: C25. *)
From Coq Require Import Strings.String.
From Verif Require Import Base Lexer Ast Parser Program Sema Value Text StdLib Exec Runtime Demo SpecLexer SpecParser SpecSema SpecProgram
  SpecRun SpecRuntime SpecLoop LoopProofs.

(** C25.  When [f] is [std.iter] and [e] an array, the loop runs the body on element 0, 1, 2 …
    each with the element in the variable of the loop, until there is no further element, the body
    leaves the loop, or the body changes the length of the array. *)
Theorem C25_for : forall {W} (X : ext W) (O : os W), honest X ->
  forall fn lp fr m n u ix f e p b a (s s1 s2 : state W) o,
  inside s -> fr <= length (st_stack s) -> valid_statement fn lp fr (XFor ix (XCall f [e] p) b) ->
  gives X O m u f s (VFun (FRust (NStd SIter))) s1 -> gives X O m u e s1 (VArr a) s2 ->
  ev_statement (interp X O n) u (XFor ix (XCall f [e] p) b) s = o -> o <> Fuel ->
  let h := st_heap s2 in let st := length (h_iters h) in
  in_order (block_runs X O u b) a st ix 0
    (set_heap s2 (mkheap (h_cells h) (h_arrs h) (h_dicts h) (h_iters h ++ [ISInt 0]))) o.
Proof. exact @for_statement. Qed.
Print Assumptions C25_for.

(** The hypothesis [inside] holds in every state that is reached. *)
Theorem C25_reached : forall {W} (X : ext W) (O : os W), honest X ->
  (forall args (w : W), inside (initial args w)) /\
  (forall n u x fn lp k (s s' : state W), valid_statement fn lp k x -> k <= length (st_stack s) -> inside s ->
     finishes (ev_statement (interp X O n) u x s) s' -> inside s') /\
  (forall src bl les pr n path args w (s' : state W), analyze src = Analysis bl les [] -> sema bl = SemaOk pr ->
     finishes (run_program X O true false n path pr args w) s' -> inside s').
Proof. exact @reached_inside. Qed.
Print Assumptions C25_reached.

(** [for x in std.iter(xs) do std.print(x) end] *)
Example C25_case :
  let u := mkuinfo 0 (bs "main"%string) in let p := mkpos 1 1 in
  let member k := XAccess (XIdent 0 p) (XFieldName (bs k) p) p in
  let f := member "iter"%string in let e := XIdent 1 p in
  let b := [XExpr (XCall (member "print"%string) [XIdent 2 p] p)] in
  let s := mkstate [Regular 0 (VDict 0); Regular 1 (VArr 1); Closed 2] []
    (mkheap [VNil; VNil; VNil] [[]; [VInt 5; VStr (bs "x"%string)]] std_dicts []) [] 1 false [] in
  inside s /\ valid_statement false false 3 (XFor 2 (XCall f [e] p) b) /\
  gives demo_ext demo_os 5 u f s (VFun (FRust (NStd SIter))) s /\ gives demo_ext demo_os 5 u e s (VArr 1) s /\
  exists s', ev_statement (interp demo_ext demo_os 20) u (XFor 2 (XCall f [e] p) b) s = Val (Reg VNil) s' /\
    st_world s' = bs "5x"%string.
Proof.
  cbv zeta. split; [|split; [|split; [|split]]].
  - repeat split; repeat constructor.
  - cbn. repeat split; repeat constructor.
  - eexists _, _. vm_compute. reflexivity.
  - eexists _, _. vm_compute. reflexivity.
  - eexists. split; vm_compute; reflexivity.
Qed.

(** The body may change elements that are still to come. *)
Example C25_changing_case :
  demo 60 (bs "let xs = [1, 2, 3] for x in std.iter(xs) do xs[2] = xs[2] * 2 std.print(x) end"%string)
  = Some (bs "1212"%string, inl VNil).
Proof. vm_compute. reflexivity. Qed.
