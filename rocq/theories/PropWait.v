(** Property C106: processes that are started are waited for. *)
From Coq Require Import Strings.String.
From Verif Require Import Base Lexer Ast Parser Program Sema Value Text StdLib Exec Runtime Demo SpecExec SpecWait WaitProofs.

(** For the examples *)
Definition waiting_for (s : string) : ebasic := mkebasic (ELiteral (bs s)) [] [] [] true (mkspos [] (mkpos 1 0)).
Definition before_all : @xstate bytes := mkxstate 0 [] [].

(** C106, for blocks that are carried out: every process is waited for once, after it is started.
    Full statement: the same however the block ends. *)
Theorem C106_waited_partial : forall {W} (X : ext W) (O : os W) cs out err errors s ess s',
  commands_exec X O cs out err errors s = Ran ess s' ->
  exists l, xs_log s' = xs_log s ++ l /\ reaped l /\ timely l.
Proof. exact @commands_reaped. Qed.
Print Assumptions C106_waited_partial.

(** However a block ends, only the processes of one of its pipelines, the last to run, can be left
    over, at most those after the first of that pipeline, and then none of them is waited for. *)
Theorem C106_left_partial : forall {W} (X : ext W) (O : os W) out err cs errors s s',
  completed (commands_exec X O cs out err errors s) = false ->
  final (commands_exec X O cs out err errors s) = Some s' ->
  exists c l last, In c cs /\ xs_log s' = xs_log s ++ l ++ last /\ reaped l /\ timely l /\
    awaited last = [] /\ length (spawned last) <= followers c.
Proof. exact @commands_left. Qed.
Print Assumptions C106_left_partial.

(** Without pipelines of several commands nothing is left over. *)
Theorem C106_alone_partial : forall {W} (X : ext W) (O : os W) cs out err errors s s',
  Forall (fun c => followers c = 0) cs ->
  final (commands_exec X O cs out err errors s) = Some s' ->
  exists l, xs_log s' = xs_log s ++ l /\ reaped l /\ timely l.
Proof. exact @alone_reaped. Qed.
Print Assumptions C106_alone_partial.

(** In [{ none | cat }] the program [cat] is started, [none] cannot be, and the block ends without
    waiting for [cat]. *)
Theorem C106_failed_start_refuted : exists prog b p eb ess s child r,
  compile (bs "{ none | cat }"%string) = Some prog /\ pr_statements prog = [XExpr (XCommand b p)] /\
  build_command_block demo_ext (fun _ => None) (mkheap [] [] [] []) [] [] b = Built eb /\
  block_exec demo_ext demo_os eb IOStdout IOStderr before_all = Ran ess s /\
  xs_log s = [EvSpawn r child] /\ r_program r = bs "cat"%string /\ ~ reaped (xs_log s).
Proof.
  eexists _, _, _, _, _, _, _, _. split; [vm_compute; reflexivity|]. split; [reflexivity|]. split; [vm_compute; reflexivity|].
  split; [vm_compute; reflexivity|]. split; [reflexivity|]. split; [reflexivity|]. intros R. specialize (R 0%N). discriminate.
Qed.
Print Assumptions C106_failed_start_refuted.

(** So it is when the first command makes the block panic: [{ * | cat }], where two files match. *)
Theorem C106_panic_refuted : exists prog b p eb e s child r,
  compile (bs "{ * | cat }"%string) = Some prog /\ pr_statements prog = [XExpr (XCommand b p)] /\
  build_command_block demo_ext (fun _ => None) (mkheap [] [] [] []) [] [] b = Built eb /\
  block_exec demo_ext demo_os eb IOStdout IOStderr before_all = RPanic e s /\
  xs_log s = [EvSpawn r child] /\ r_program r = bs "cat"%string /\ ~ reaped (xs_log s).
Proof.
  eexists _, _, _, _, _, _, _, _. split; [vm_compute; reflexivity|]. split; [reflexivity|]. split; [vm_compute; reflexivity|].
  split; [vm_compute; reflexivity|]. split; [reflexivity|]. split; [reflexivity|]. intros R. specialize (R 0%N). discriminate.
Qed.
Print Assumptions C106_panic_refuted.

(** [{ true | false; true }] starts two processes and waits for both; [{ true; none | a | false; true }]
    leaves the two after [none]; [{ true; none; true }] waits for the one it starts. *)
Example C106_case :
  (exists ess s, commands_exec demo_ext demo_os [EExternal (waiting_for "true") [waiting_for "false"]; EExternal (waiting_for "true") []]
     IOStdout IOStderr [] before_all = Ran ess s /\ spawned (xs_log s) = [1; 0]%N /\ awaited (xs_log s) = [0; 1]%N) /\
  (let cs := [EExternal (waiting_for "true") []; EExternal (waiting_for "none") [waiting_for "a"; waiting_for "false"]; EExternal (waiting_for "true") []] in
   completed (commands_exec demo_ext demo_os cs IOStdout IOStderr [] before_all) = false /\
   exists s, final (commands_exec demo_ext demo_os cs IOStdout IOStderr [] before_all) = Some s /\
     spawned (xs_log s) = [0; 1; 0]%N /\ awaited (xs_log s) = [0]%N) /\
  (let cs := [EExternal (waiting_for "true") []; EExternal (waiting_for "none") []; EExternal (waiting_for "true") []] in
   Forall (fun c => followers c = 0) cs /\
   exists s, final (commands_exec demo_ext demo_os cs IOStdout IOStderr [] before_all) = Some s /\
     spawned (xs_log s) = [0]%N /\ awaited (xs_log s) = [0]%N).
Proof.
  split; [eexists _, _; split; [vm_compute; reflexivity|split; reflexivity]|]. split.
  - split; [vm_compute; reflexivity|]. eexists. split; [vm_compute; reflexivity|split; reflexivity].
  - split; [repeat constructor|]. eexists. split; [vm_compute; reflexivity|split; reflexivity].
Qed.
