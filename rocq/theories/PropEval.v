(** Properties of evaluation: C50, C52. *)
From Coq Require Import Strings.String.
From Verif Require Import Base Lexer Ast Parser Program Sema Value Text StdLib Exec Runtime Demo SpecRuntime FuelProofs.

(** C50.  Once there is an outcome, more steps give the same. *)
Theorem C50_more_steps : forall {W} (X : ext W) (O : os W) tail eager n m path p args w, n <= m ->
  run_program X O tail eager n path p args w <> Fuel ->
  run_program X O tail eager m path p args w = run_program X O tail eager n path p args w.
Proof. exact @run_program_le. Qed.
Print Assumptions C50_more_steps.

Theorem C50_from_any_state : forall {W} (X : ext W) (O : os W) tail eager n m u st obj f start p s, n <= m ->
  (ev_statement (run X O tail eager n) u st s <> Fuel ->
   ev_statement (run X O tail eager m) u st s = ev_statement (run X O tail eager n) u st s) /\
  (ev_call (run X O tail eager n) obj f start p s <> Fuel ->
   ev_call (run X O tail eager m) obj f start p s = ev_call (run X O tail eager n) obj f start p s).
Proof. exact @evaluation_le. Qed.
Print Assumptions C50_from_any_state.

Example C50_case :
  let src := bs "function f(n) if n == 0 then 0 else 1 + f(n - 1) end end f(3)"%string in
  demo 5 src = None /\ demo 30 src = Some ([], inl (VInt 3)) /\ demo 60 src = Some ([], inl (VInt 3)).
Proof. vm_compute. repeat split. Qed.

(** C52 is false of the code: the variables of the body of a loop keep their slots, and once a
    closure has captured one, every later iteration assigns the captured variable. *)
Theorem C52_refuted : exists src,
  src = bs "let fs = [] for i in std.iter([1, 2]) do let k = i * 10 std.push(fs, function () i + k end) end std.println(fs[0]()) std.println(fs[1]())"%string /\
  demo 60 src = Some (bs "22"%string ++ [x0a] ++ bs "22"%string ++ [x0a], inl VNil).
Proof. eexists. split; [reflexivity|]. vm_compute. reflexivity. Qed.
Print Assumptions C52_refuted.

(** For comparison, calls of a function do have their own variables. *)
Example C52_calls :
  demo 60 (bs "let fs = [] let g = function (i) std.push(fs, function () i end) end g(1) g(2) std.println(fs[0]()) std.println(fs[1]())"%string)
  = Some (bs "1"%string ++ [x0a] ++ bs "2"%string ++ [x0a], inl VNil).
Proof. vm_compute. reflexivity. Qed.
