(** Property C111: code without loops and calls ends. *)
From Coq Require Import Strings.String Lia.
From Verif Require Import Base Lexer Ast Program Value StdLib Exec Runtime Demo SpecSema SpecProgram SpecRuntime SpecEnds EndsProofs.

(** C111: the depth of the code is enough, whatever the state is, values that contain themselves
    included.  (What the processes do that commands start is not part of it.) *)
Theorem C111_statement : forall {W} (X : ext W) (O : os W) k u st, straight_statement k st ->
  forall n (s : state W), k <= n -> ended (ev_statement (interp X O n) u st s).
Proof. exact @statement_ends. Qed.
Print Assumptions C111_statement.

Theorem C111_expression : forall {W} (X : ext W) (O : os W) k u e, straight_expr k e ->
  forall n (s : state W), k <= n -> ended (ev_expr (interp X O n) u e s).
Proof. exact @expr_ends. Qed.
Print Assumptions C111_expression.

(** A function with such a body ends wherever and with whatever it is called. *)
Theorem C111_call : forall {W} (X : ext W) (O : os W) k obj unit params fi body context fp start p,
  each (straight_statement k) body ->
  forall n (s : state W), k < n -> ended (ev_call (interp X O n) obj (FHush unit params fi body context fp) start p s).
Proof. exact @call_ends. Qed.
Print Assumptions C111_call.

Theorem C111_program : forall {W} (X : ext W) (O : os W) k prog path args (w : W),
  each (straight_statement k) (pr_statements prog) ->
  forall n, k <= n -> ended (run_program X O true false n path prog args w).
Proof. exact @program_ends. Qed.
Print Assumptions C111_program.

(** So does a loop over an array, a string, a dict or a range of integers with such a body, whatever
    the body does to them. *)
Theorem C111_for : forall {W} (X : ext W) (O : os W) k u ix b e n g q o (s s1 : state W),
  each (straight_statement k) b ->
  ev_expr (interp X O n) u e s = Val (Reg (VFun (FRust g)), q, o) s1 -> finite (st_heap s1) g ->
  forall m, n + k + turns (st_heap s1) g + 3 <= m -> ended (ev_statement (interp X O m) u (XFor ix e b) s).
Proof. exact @for_ends. Qed.
Print Assumptions C111_for.

Definition C111_source : bytes := bs "
  let d = @[ a: [1, 2] ]
  let f = function () while true do end end
  if d.a[0] + 1 == 2 and not (f == 3) then
    d[""b""] = d
    { echo ok }
  end"%string.
Example C111_case :
  exists prog v s, compile C111_source = Some prog /\ each (straight_statement 8) (pr_statements prog) /\
    run_program demo_ext demo_os true false 8 (bs "main"%string) prog [] [] = Val v s /\
    (* the dict contains itself *)
    dict_entries (st_heap s) 4 = [(VStr (bs "a"%string), VArr 1); (VStr (bs "b"%string), VDict 4)].
Proof.
  eexists _, _, _. split; [vm_compute; reflexivity|]. split; [cbn; repeat split; auto; congruence|]. split; [vm_compute; reflexivity|]. reflexivity.
Qed.

Example C111_for_case :
  exists prog st0 st1 ix e b s1 q o s2 g v s3,
    compile (bs "let a = [1, 2, 3] for x in std.iter(a) do a[0] = a a[1] = x + 1 end"%string) = Some prog /\
    pr_statements prog = [st0; st1] /\ st1 = XFor ix e b /\ each (straight_statement 4) b /\
    ev_statement (interp demo_ext demo_os 9) (mkuinfo 0 []) st0
      (mkstate [Regular 0 (VDict 0); Regular 1 VNil; Regular 2 VNil] [] (mkheap [VNil; VNil; VNil] [[]] std_dicts []) [] 1 false []) = Val v s1 /\
    ev_expr (interp demo_ext demo_os 9) (mkuinfo 0 []) e s1 = Val (Reg (VFun (FRust g)), q, o) s2 /\ finite (st_heap s2) g /\
    turns (st_heap s2) g = 3 /\ ev_statement (interp demo_ext demo_os 20) (mkuinfo 0 []) st1 s1 = Val (Reg VNil) s3 /\
    arr_get (st_heap s3) 1 = [VArr 1; VInt 4; VInt 3].
Proof.
  do 6 eexists. eexists _, _, _, _, _, _, _. split; [vm_compute; reflexivity|]. split; [reflexivity|]. split; [reflexivity|].
  split; [cbn; repeat split; auto|]. split; [vm_compute; reflexivity|]. split; [vm_compute; reflexivity|]. split; [cbn; lia|].
  split; [reflexivity|]. split; [vm_compute; reflexivity|]. reflexivity.
Qed.

(** A loop may go on forever. *)
Definition C111_loop : bytes := bs "while true do end"%string.
Example C111_needed : exists prog, compile C111_loop = Some prog /\
  forall n, run_program demo_ext demo_os true false n (bs "main"%string) prog [] [] = Fuel.
Proof.
  eexists. split; [vm_compute; reflexivity|]. intros n.
  assert (L : forall n u p s, ev_statement (interp demo_ext demo_os n) u (XWhile (XLit LTrue p) []) s = Fuel).
  { induction n0 as [|n0 IH]; intros; [reflexivity|]. destruct n0; [reflexivity|]. exact (IH _ _ _). }
  unfold run_program, eval_program. cbn [pr_statements pr_root_slots eval_block]. unfold bind. cbn.
  match goal with |- match ?x with _ => _ end = _ => replace x with (Fuel (S := state bytes) (A := flow)) by (symmetry; apply L) end. reflexivity.
Qed.
