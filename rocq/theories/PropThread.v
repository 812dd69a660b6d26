(** Properties C107 and C108: the world changes by requests only; asynchronous blocks. *)
From Coq Require Import Strings.String.
From Verif Require Import Base Lexer Ast Program Value StdLib Exec Runtime Threads Demo SpecRuntime SpecRun SpecExec SpecLaws SpecThread
  SpecWait ThreadProofs BlockWorldProofs.

(** For the examples: a program that is started writes its name *)
Definition noisy_os : os bytes :=
  mkos bytes (o_glob demo_os) (o_open demo_os) (o_pipe demo_os) (o_dup demo_os) (o_text demo_os)
    (fun r w => let '(c, w) := o_spawn demo_os r w in (c, w ++ r_program r ++ [x0a])) (o_exec demo_os) (o_wait demo_os)
    (o_captured demo_os) (o_async demo_os).
(** For the examples: what was written when a program ends, and its value, when the first thread runs early or late *)
Definition with_threads (early : bool) (source : string) : option (bytes * value) :=
  match compile (bs source) with
  | Some p =>
      match run_program (threads_ext demo_ext noisy_os) (threads_os demo_ext noisy_os (fun _ => early)) true false 60 (bs "main"%string) p [] ([], []) with
      | Val v s => Some (fst (st_world s), v)
      | _ => None
      end
  | None => None
  end.

(** C107: whatever a program is and however it ends, the world at its end is reached from the world
    at its beginning by requests, each in the world the one before it left. *)
Theorem C107_requests : forall {W} (X : ext W) (O : os W) n path prog args w,
  match run_program X O true false n path prog args w with
  | Val _ s | Pan _ s | Exit _ s => reached X O w (st_world s)
  | Crash _ | Fuel => True
  end.
Proof. exact @program_reached. Qed.
Print Assumptions C107_requests.

(** From one moment of a run to a later one as well *)
Theorem C107_later : forall {W} (X : ext W) (O : os W) s s',
  later X O s s' -> reached X O (st_world s) (st_world s').
Proof. exact @later_reached. Qed.
Print Assumptions C107_later.

(** So what no request undoes, no program undoes. *)
Theorem C107_kept : forall {W} (X : ext W) (O : os W) (P : W -> Prop) n path prog args w,
  (forall w w', asked X O w w' -> P w -> P w') -> P w ->
  match run_program X O true false n path prog args w with
  | Val _ s | Pan _ s | Exit _ s => P (st_world s)
  | Crash _ | Fuel => True
  end.
Proof. exact @program_keeps. Qed.
Print Assumptions C107_kept.

(** Nor does a block undo what its commands did, however it ends: the world at its end is the one
    that the entries of the log lead to, one after the other; captured output is read after them. *)
Theorem C107_block : forall {W} (X : ext W) (O : os W) fetch path b p h w eb out err w1,
  build_command_block X fetch h w path b = Built eb ->
  match xc_kind b with
  | Synchronous => out = IOStdout /\ err = IOStderr /\ w1 = w
  | Capture => out = IOCaptureOut /\ err = IOCaptureErr /\ o_pipe O w = (None, w1)
  | Asynchronous => False
  end ->
  match final (block_exec X O eb out err (mkxstate 0 [] w1)) with
  | Some s => carried X O (xs_log s) w1 (xs_world s) /\
      block_end (eval_command_block X O fetch path b p h w) =
        Some (if completed (block_exec X O eb out err (mkxstate 0 [] w1)) then
                match xc_kind b with Capture => snd (o_captured O (xs_world s)) | _ => xs_world s end
              else xs_world s)
  | None => block_end (eval_command_block X O fetch path b p h w) = None
  end.
Proof. exact @block_world. Qed.
Print Assumptions C107_block.

(** The second command cannot be given two files to read from. *)
Example C107_block_case : exists prog b p eb s e x,
  compile (bs "${ echo; cat < *; echo }"%string) = Some prog /\ pr_statements prog = [XExpr (XCommand b p)] /\ xc_kind b = Capture /\
  build_command_block demo_ext (fun _ => None) (mkheap [] [] [] []) [] [] b = Built eb /\
  block_exec demo_ext noisy_os eb IOCaptureOut IOCaptureErr (mkxstate 0 [] []) = RPanic e s /\ List.length (xs_log s) = 2 /\
  eval_command_block demo_ext noisy_os (fun _ => None) [] b (mkspos [] p) (mkheap [] [] [] []) [] = Pan e (x, bs "echo"%string ++ [x0a]).
Proof.
  eexists _, _, _, _, _, _, _. split; [vm_compute; reflexivity|]. split; [reflexivity|]. split; [reflexivity|]. split; [vm_compute; reflexivity|].
  split; [vm_compute; reflexivity|]. split; [reflexivity|]. vm_compute. reflexivity.
Qed.

(** In the world of the examples what was written stays. *)
Example C107_example :
  (forall t w w', asked demo_ext demo_os w w' -> (exists u, w = t ++ u) -> exists u, w' = t ++ u) /\
  demo 60 (bs "std.print(1) { false } std.print(2)"%string) = Some (bs "1"%string ++ bs "2"%string, inl VNil).
Proof.
  split; [|vm_compute; reflexivity]. intros t w w' A [u ->]. destruct A; cbn; try (now exists u). eexists. now rewrite <- app_assoc.
Qed.

(** C108: an asynchronous block gives a dict with the function [join].  If it is called, now or after
    whatever the program did, and was not called before, the call gives what the block comes to when it
    is run alone: in the world in which the thread was started, if it runs then, or in the world in which
    it is joined. *)
Theorem C108_joined_later : forall {W} (X : ext W) (O : os W) (early : nat -> bool) fetch path b p h w v h' w',
  let XT := threads_ext X O in
  let OT := threads_os X O early in
  xc_kind b = Asynchronous -> external b ->
  eval_command_block XT OT fetch path b p h w = Val v (h', w') ->
  exists eb d st handle, build_command_block XT fetch h w path b = Built eb /\ v = VDict d /\
    dict_entries h' d = [(VStr (bs "join"%string), VFun (FRust (NJoin st)))] /\
    nth_error (h_iters h') st = Some (ISJoin (Some handle)) /\
    forall s s2 n args vs q, st_world s = w' -> later XT OT s s2 ->
    nth_error (h_iters (st_heap s2)) st = Some (ISJoin (Some handle)) ->
    exists r w1, let o := native_call XT n args (NJoin st) vs q (st_heap s2) (st_world s2) in
      if early (length (snd w))
      then alone X O eb (fst w) r w1 /\ fst w' = w1 /\ stands_for_end XT r o (st_world s2)
      else fst w' = fst w /\ alone X O eb (fst (st_world s2)) r w1 /\ stands_for_end XT r o (w1, snd (st_world s2)).
Proof. exact @joined_later. Qed.
Print Assumptions C108_joined_later.

Example C108_joined_later_example :
  let source := "let job = &{ false } std.print(1) std.type(job.join())"%string in
  with_threads true source = Some (bs "false"%string ++ [x0a] ++ bs "1"%string, VStr (bs "error"%string)) /\
  with_threads false source = Some (bs "1"%string ++ bs "false"%string ++ [x0a], VStr (bs "error"%string)).
Proof. split; vm_compute; reflexivity. Qed.

(** Started and joined at once, an asynchronous block is the same as a block that is waited for: the
    same errors or the same panic, and the same in the world. *)
Theorem C108_joined_at_once : forall {W} (X : ext W) (O : os W) (early : nat -> bool) u b p fp ap cp s r,
  let XT := threads_ext X O in
  let OT := threads_os X O early in
  xc_kind b = Asynchronous -> external b ->
  evaluates XT OT u (XCommand (waited_at_once b) p) s r ->
  exists r', evaluates XT OT u (XCall (XAccess (XCommand b p) (XFieldName (bs "join"%string) fp) ap) [] cp) s r' /\
    same_end XT r r'.
Proof. exact @joined_at_once. Qed.
Print Assumptions C108_joined_at_once.

Example C108_joined_at_once_example :
  with_threads true "&{ cat; false }.join()"%string = with_threads false "&{ cat; false }.join()"%string /\
  (exists d c, with_threads true "{ cat; false }"%string = Some (bs "cat"%string ++ [x0a] ++ bs "false"%string ++ [x0a], VErr d c) /\
     exists c', with_threads true "&{ cat; false }.join()"%string = Some (bs "cat"%string ++ [x0a] ++ bs "false"%string ++ [x0a], VErr d c')) /\
  exists prog b p, compile (bs "&{ cat; false }"%string) = Some prog /\ pr_statements prog = [XExpr (XCommand b p)] /\
    xc_kind b = Asynchronous /\ external b /\
    exists p', compile (bs " { cat; false }"%string) = Some (mkprogram [XExpr (XCommand (waited_at_once b) p')] (pr_root_slots prog)).
Proof.
  split; [vm_compute; reflexivity|]. split; [eexists _, _; split; [vm_compute; reflexivity|eexists; vm_compute; reflexivity]|].
  eexists _, _, _. split; [vm_compute; reflexivity|]. split; [reflexivity|]. split; [reflexivity|].
  split; [cbn; repeat first [exact I|apply Forall_nil|apply Forall_cons]|eexists; vm_compute; reflexivity].
Qed.
