(** Properties of programs that mention neither the library nor commands: C99. *)
From Coq Require Import Strings.String.
From Verif Require Import Base Lexer Ast Parser Program Sema Value Text StdLib Exec Runtime Demo SpecPure PureRunProofs.

(** C99: an accepted program that does not mention [std] and has no command block neither changes the
    world nor depends on it, on the libraries or on its arguments: in another world it comes to the same.
    Numbers have to be read in the same way, and the stack has to be limited in the same way. *)
Theorem C99_unaided : forall {W W'} (X : ext W) (X' : ext W') (O : os W) (O' : os W') src b les p n path args args' w w',
  (forall t, x_parse_float X t = x_parse_float X' t) -> x_stack_size X = x_stack_size X' ->
  analyze src = Analysis b les [] -> sema b = SemaOk p -> unaided_block b ->
  undisturbed w args' w' (run_program X O true false n path p args w) (run_program X' O' true false n path p args' w').
Proof. exact @undisturbed_run. Qed.
Print Assumptions C99_unaided.

(** Closures, an iterator of its own, methods, dicts and arrays are at hand all the same. *)
Definition squares : bytes := bs "
let upto = function (n)
  let i = 0
  return function ()
    if i >= n then return @[finished: true] end
    i = i + 1
    @[finished: false, value: i]
  end
end
let box = @[sum: 0, add: function (x) self.sum = self.sum + x * x end]
let seen = [0, 0, 0]
for x in upto(3) do
  box.add(x)
  seen[x - 1] = [x] == [x]
end
if seen[2] then box.sum else seen end"%string.
Example C99_case : exists b p s s',
  analyze squares = Analysis b [] [] /\ sema b = SemaOk p /\ unaided_block b /\
  run_program demo_ext demo_os true false 60 (bs "main"%string) p [] (bs "one"%string) = Val (VInt 14) s /\
  run_program demo_ext demo_os true false 60 (bs "main"%string) p [bs "x"%string] (bs "two"%string) = Val (VInt 14) s' /\
  st_world s = bs "one"%string /\ st_world s' = bs "two"%string /\ arr_get (st_heap s) 0 <> arr_get (st_heap s') 0.
Proof.
  eexists _, _, _, _. split; [vm_compute; reflexivity|]. split; [vm_compute; reflexivity|]. split; [vm_compute; repeat split; discriminate|].
  split; [vm_compute; reflexivity|]. split; [vm_compute; reflexivity|]. split; [reflexivity|]. split; [reflexivity|]. vm_compute. discriminate.
Qed.

(** So does a panic leave the world alone. *)
Example C99_panic_case : exists b p e s,
  analyze (bs "let f = function (x) [x][1] end f(2)"%string) = Analysis b [] [] /\ sema b = SemaOk p /\ unaided_block b /\
  run_program demo_ext demo_os true false 60 (bs "main"%string) p [] (bs "one"%string) = Pan e s /\ st_world s = bs "one"%string.
Proof.
  eexists _, _, _, _. split; [vm_compute; reflexivity|]. split; [vm_compute; reflexivity|]. split; [vm_compute; repeat split; discriminate|].
  split; [vm_compute; reflexivity|]. reflexivity.
Qed.

(** With the library at hand the world is changed and the arguments are seen. *)
Example C99_aided_case : exists b p s s',
  analyze (bs "let s = std s.print(1) s.args()[0]"%string) = Analysis b [] [] /\ sema b = SemaOk p /\ ~ unaided_block b /\
  run_program demo_ext demo_os true false 60 (bs "main"%string) p [bs "x"%string] [] = Val (VStr (bs "x"%string)) s /\ st_world s = bs "1"%string /\
  run_program demo_ext demo_os true false 60 (bs "main"%string) p [bs "y"%string] [] = Val (VStr (bs "y"%string)) s'.
Proof.
  eexists _, _, _, _. split; [vm_compute; reflexivity|]. split; [vm_compute; reflexivity|].
  split; [intros U; vm_compute in U; destruct U as [U _]; now apply U|].
  split; [vm_compute; reflexivity|]. split; [reflexivity|]. vm_compute. reflexivity.
Qed.
