(** Properties of how command blocks are made, what they ask of the operating system, capture
    blocks and built-in commands: C71 to C76. *)
From Coq Require Import Strings.String.
From Verif Require Import Base Lexer Ast Parser Program Sema Value Text StdLib Exec Runtime Demo SpecLexer SpecExec SpecCmd
  ExecProofs CmdProofs.

(** For the examples *)
Definition spot : pos := mkpos 1 1.
Definition at_spot : spos := mkspos [] spot.
Definition word (ps : list xpart) : xargument := mkxarg ps spot.
Definition letters (s : string) : xpart := XPUnit (XULiteral (bs s)).
Definition dollar (i : slot) : xpart := XPUnit (XUDollar i spot).
Definition slots (l : list value) : slot -> option value := fun i => nth_error l i.
Definition start : @xstate bytes := mkxstate 0 [] [].
Definition simple (program : xargument) (env : list (xunit * xargument)) (l : list xargument) : xblock :=
  mkxblock Synchronous (XExternal (mkxbasic program env l [] true spot) []) [].

(** C71.  A block is made as it is written, or says what is wrong before anything is run. *)
Theorem C71_made : forall {W} (X : ext W) (O : os W) fetch h w path b,
  (forall eb, build_command_block X fetch h w path b = Built eb -> block_as X fetch h w path b eb) /\
  (forall eb, block_as X fetch h w path b eb -> exists eb', build_command_block X fetch h w path b = Built eb') /\
  (forall p, (forall ix, In ix (block_slots b) -> fetch ix <> None) -> (forall eb, ~ block_as X fetch h w path b eb) ->
     exists q, bad_block X fetch h w path b q /\ eval_command_block X O fetch path b p h w = Pan q (h, w)).
Proof. exact @block_made. Qed.
Print Assumptions C71_made.

(** [{ N=$s echo x$a }] with [s] a string and [a] an array, and with [a] an array of arrays *)
Example C71_case :
  let h := mkheap [] [[VInt 1; VStr (bs "b"%string)]; [VArr 0]] [] [] in
  let b := simple (word [letters "echo"]) [(XULiteral (bs "N"%string), word [dollar 0])] [word [letters "x"; dollar 1]] in
  build_command_block demo_ext (slots [VStr (bs "s t"%string); VArr 0]) h [] [] b =
    Built (mkeblock (EExternal (mkebasic (ELiteral (bs "echo"%string)) [(bs "N"%string, ELiteral (bs "s t"%string))]
                                  [ELiteral (bs "x1"%string); ELiteral (bs "xb"%string)] [] true at_spot) []) []) /\
  eval_command_block demo_ext demo_os (slots [VStr (bs "s t"%string); VArr 1]) [] b at_spot h [] =
    Pan (PTypeError (VArr 0) (bs "nil, bool, int, float, byte or string"%string) at_spot) (h, []).
Proof. split; vm_compute; reflexivity. Qed.

(** C72, when there is no item: the panic says how many items there are where one is needed. *)
Theorem C72_number_partial : forall {W} (X : ext W) fetch h w path object a, expands X fetch h w a [] ->
  build_single_argument X fetch h w path object a = BPanic (PInvalidCommandArgs object 0 (mkspos path (xa_pos a))).
Proof. exact @no_item. Qed.
Print Assumptions C72_number_partial.

(** With two items it says one: [{ $a }] with [a = ["x", "y"]] panics with "program expansion
    resulted in 1 items". *)
Theorem C72_number_refuted : exists fetch h a l,
  expands demo_ext fetch h [] a l /\ length l = 2 /\
  build_single_argument demo_ext fetch h [] [] (bs "program"%string) a = BPanic (PInvalidCommandArgs (bs "program"%string) 1 at_spot).
Proof.
  exists (slots [VArr 0]), (mkheap [] [[VStr (bs "x"%string); VStr (bs "y"%string)]] [] []), (word [dollar 0]), [ELiteral (bs "x"%string); ELiteral (bs "y"%string)].
  split; [|split; [reflexivity|vm_compute; reflexivity]]. exists [map (map GByte) [bs "x"%string; bs "y"%string]]. split.
  - constructor; [|constructor]. apply (of_array _ _ _ _ 0 spot 0 [bs "x"%string; bs "y"%string]); [reflexivity|]. repeat constructor.
  - cbn. split; [|repeat constructor]. constructor; [apply (sf_literal (bs "x"%string))|]. constructor; [|constructor]. apply (sf_literal (bs "y"%string)).
Qed.
Print Assumptions C72_number_refuted.

(** [{ $a }] with [a = []] *)
Example C72_case : expands demo_ext (slots [VArr 0]) (mkheap [] [[]] [] []) [] (word [dollar 0]) [].
Proof. exists [[]]. split; [|reflexivity]. constructor; [|constructor]. apply (of_array _ _ _ _ 0 spot 0 []); [reflexivity|constructor]. Qed.

(** C73.  What is started is the command as it was made, with its patterns resolved; when
    anything fails, nothing is started. *)
Theorem C73_requested : forall {W} (O : os W) c io (s : @xstate W) child s', basic_exec O c io s = Ran child s' ->
  exists l r io', xs_log s' = xs_log s ++ l ++ [EvSpawn r child] /\ redirected (eb_redirections c) l io io' /\ requested O (xs_world s) c io' r.
Proof. exact @basic_requested. Qed.
Print Assumptions C73_requested.

Theorem C73_not_started : forall {W} (O : os W) c io (s : @xstate W),
  match basic_exec O c io s with
  | Ran _ _ => True
  | RIo _ _ s' | RPanic _ s' | RExit _ s' => exists l, xs_log s' = xs_log s ++ l /\ started l = []
  | RCrash _ => False
  end.
Proof. exact @not_started. Qed.
Print Assumptions C73_not_started.

Theorem C73_one_program : forall {W} (O : os W) c io (s : @xstate W) l, resolves O (xs_world s) (eb_program c) l -> length l <> 1 ->
  basic_exec O c io s = RPanic (PInvalidCommandArgs (bs "program"%string) (length l) (eb_pos c)) s.
Proof. exact @program_number. Qed.
Print Assumptions C73_one_program.
Theorem C73_complaint : forall {W} (O : os W) c io (s : @xstate W) e s', basic_exec O c io s = RPanic e s' -> complaint O (xs_world s) c e.
Proof. exact @basic_complaint. Qed.
Print Assumptions C73_complaint.

(** [{ N=v echo * /x/* > f }] where [*] matches [a] and [b]; and [{ * }], [{ echo < * }] *)
Example C73_case :
  let c := mkebasic (ELiteral (bs "echo"%string)) [(bs "N"%string, ELiteral (bs "v"%string))]
             [EPattern (bs "*"%string); EPattern (bs "/x/*"%string)] [EOutput 1 (TOverwrite (ELiteral (bs "f"%string)))] true at_spot in
  let r := mkrequest (bs "echo"%string) None [(bs "N"%string, bs "v"%string)] [bs "./a"%string; bs "./b"%string; bs "a"%string; bs "b"%string]
             (Some (mkstdio IOStdin (IOFile 7) IOStderr)) in
  basic_exec demo_os c (mkstdio IOStdin IOStdout IOStderr) start = Ran 0%N (mkxstate 0 [EvOpen (bs "f"%string) MOverwrite 7; EvSpawn r 0] []) /\
  basic_exec demo_os (mkebasic (EPattern (bs "*"%string)) [] [] [] true at_spot) (mkstdio IOStdin IOStdout IOStderr) start =
    RPanic (PInvalidCommandArgs (bs "program"%string) 2 at_spot) start /\
  basic_exec demo_os (mkebasic (ELiteral (bs "echo"%string)) [] [] [EInput false (EPattern (bs "*"%string))] true at_spot) (mkstdio IOStdin IOStdout IOStderr) start =
    RPanic (PInvalidCommandArgs (bs "redirection"%string) 2 at_spot) start.
Proof. split; [|split]; vm_compute; reflexivity. Qed.

(** C74.  The value of a capture block is a dict of what was written, inside the error if there
    is one. *)
Theorem C74_capture : forall {W} (X : ext W) (O : os W) fetch path b p h w v h' w', xc_kind b = Capture ->
  eval_command_block X O fetch path b p h w = Val v (h', w') ->
  exists eb ess w1 s out err, build_command_block X fetch h w path b = Built eb /\ o_pipe O w = (None, w1) /\
    ((exists n, commands_exec X O (ek_head eb :: ek_tail eb) IOCaptureOut IOCaptureErr [] (mkxstate 0 [] w1) = Ran ess s /\ block_ran (ek_head eb :: ek_tail eb) (xs_log s) ess n) \/
     (exists e q, commands_exec X O (ek_head eb :: ek_tail eb) IOCaptureOut IOCaptureErr [] (mkxstate 0 [] w1) = RIo e q s /\ ess = [[mkerror e 127 q]])) /\
    o_captured O (xs_world s) = (inr (out, err), w') /\
    ((ess = [] /\ exists l, v = VDict l /\ captured_in h' l out err []) \/
     exists d c l, v = VErr d (VDict l) /\ captured_in h' l out err [(VStr (bs "error"%string), c)] /\ reported X h' ess (VErr d c)).
Proof. exact @capture_result. Qed.
Print Assumptions C74_capture.

(** [${ echo }] and [${ false }] where commands write [o] and [e] *)
Definition writing_os : os bytes :=
  mkos bytes (o_glob demo_os) (o_open demo_os) (o_pipe demo_os) (o_dup demo_os) (o_text demo_os) (o_spawn demo_os) (o_exec demo_os) (o_wait demo_os)
    (fun w => (inr (bs "o"%string, bs "e"%string), w)) (o_async demo_os).
Example C74_case :
  let h := mkheap [] [] [] [] in
  let b s := mkxblock Capture (XExternal (mkxbasic (word [letters s]) [] [] [] true spot) []) [] in
  let written := [(VStr (bs "stdout"%string), VStr (bs "o"%string)); (VStr (bs "stderr"%string), VStr (bs "e"%string))] in
  eval_command_block demo_ext writing_os (slots []) [] (b "echo"%string) at_spot h [] = Val (VDict 0) (mkheap [] [] [written] [], []) /\
  exists c d, eval_command_block demo_ext writing_os (slots []) [] (b "false"%string) at_spot h [] =
    Val (VErr (bs "command returned non-zero"%string) (VDict 1)) (mkheap [] [] [d; written ++ [(VStr (bs "error"%string), c)]] [], []).
Proof. split; [vm_compute; reflexivity|]. eexists _, _. vm_compute. reflexivity. Qed.

(** C75.  The built-in commands other than [alias]. *)
Theorem C75_cd : forall {W} (X : ext W) (O : os W) args p (s : @xstate W) ls, Forall2 (resolves O (xs_world s)) args ls ->
  (forall dir e w, concat ls = [dir] -> x_cd X dir (xs_world s) = (e, w) ->
     builtin_exec X O BCd args p s =
     match e with
     | None => Ran None (mkxstate (xs_pipes s) (xs_log s ++ [EvCd dir]) w)
     | Some e => RIo e p (mkxstate (xs_pipes s) (xs_log s) w)
     end) /\
  (length (concat ls) <> 1 -> builtin_exec X O BCd args p s = RPanic (PInvalidCommandArgs (bs "argument"%string) (length (concat ls)) p) s).
Proof. exact @cd_law. Qed.
Print Assumptions C75_cd.

Theorem C75_exec : forall {W} (X : ext W) (O : os W) b args p (s : @xstate W) ls, b = BExec \/ b = BExec0 -> Forall2 (resolves O (xs_world s)) args ls ->
  (forall r e w, match b, concat ls with
                 | BExec, program :: l => r = mkrequest program None [] l None
                 | BExec0, program :: name :: l => r = mkrequest program (Some name) [] l None
                 | _, _ => False
                 end -> o_exec O r (xs_world s) = (e, w) ->
     builtin_exec X O b args p s =
     match e with
     | inr code => RExit code (mkxstate (xs_pipes s) (xs_log s ++ [EvExec r]) w)
     | inl e => RIo e p (mkxstate (xs_pipes s) (xs_log s) w)
     end) /\
  (match b, concat ls with BExec, [] | BExec0, [] | BExec0, [_] => True | _, _ => False end ->
     exists what, builtin_exec X O b args p s = RPanic (PInvalidCommandArgs what 0 p) s).
Proof. exact @exec_law. Qed.
Print Assumptions C75_exec.

Theorem C75_spawn0 : forall {W} (X : ext W) (O : os W) args p (s : @xstate W) ls, Forall2 (resolves O (xs_world s)) args ls ->
  (forall program name l e w, concat ls = program :: name :: l ->
     o_spawn O (mkrequest program (Some name) [] l None) (xs_world s) = (e, w) ->
     match e with
     | inr child => forall x w', o_wait O child w = (x, w') ->
         builtin_exec X O BSpawn0 args p s =
         Ran (hd_error (failures [(p, x)]))
             (mkxstate (xs_pipes s) (xs_log s ++ [EvSpawn (mkrequest program (Some name) [] l None) child; EvWait child x]) w')
     | inl e => builtin_exec X O BSpawn0 args p s = RIo e p (mkxstate (xs_pipes s) (xs_log s) w)
     end) /\
  (length (concat ls) < 2 -> exists what, builtin_exec X O BSpawn0 args p s = RPanic (PInvalidCommandArgs what 0 p) s).
Proof. exact @spawn0_law. Qed.
Print Assumptions C75_spawn0.

(** [alias] is not implemented: every use ends in a crash. *)
Theorem C75_alias_refuted : exists prog b p eb,
  compile (bs "{ alias a }"%string) = Some prog /\ pr_statements prog = [XExpr (XCommand b p)] /\
  build_command_block demo_ext (slots []) (mkheap [] [] [] []) [] [] b = Built eb /\
  block_exec demo_ext demo_os eb IOStdout IOStderr start = RCrash CAlias.
Proof. eexists _, _, _, _. split; [vm_compute; reflexivity|]. split; [reflexivity|]. split; vm_compute; reflexivity. Qed.
Print Assumptions C75_alias_refuted.

(** [cd *] where [*] matches [a] and [b], [exec0 sh -sh -c], [spawn0 false f] *)
Example C75_case :
  Forall2 (resolves demo_os []) [EPattern (bs "*"%string)] [[bs "./a"%string; bs "./b"%string]] /\
  builtin_exec demo_ext demo_os BCd [EPattern (bs "*"%string)] at_spot start = RPanic (PInvalidCommandArgs (bs "argument"%string) 2 at_spot) start /\
  Forall2 (resolves demo_os []) (map ELiteral [bs "sh"%string; bs "-sh"%string; bs "-c"%string]) [[bs "sh"%string]; [bs "-sh"%string]; [bs "-c"%string]] /\
  builtin_exec demo_ext demo_os BExec0 (map ELiteral [bs "sh"%string; bs "-sh"%string; bs "-c"%string]) at_spot start =
    RExit 0%Z (mkxstate 0 [EvExec (mkrequest (bs "sh"%string) (Some (bs "-sh"%string)) [] [bs "-c"%string] None)] []) /\
  builtin_exec demo_ext demo_os BSpawn0 (map ELiteral [bs "false"%string; bs "f"%string]) at_spot start =
    Ran (Some (mkerror (bs "command returned non-zero"%string) 1 at_spot))
        (mkxstate 0 [EvSpawn (mkrequest (bs "false"%string) (Some (bs "f"%string)) [] [] None) 1; EvWait 1 (inr (WCode 1))] []).
Proof.
  split; [|split; [vm_compute; reflexivity|split; [repeat constructor|split; vm_compute; reflexivity]]].
  constructor; [|constructor]. apply (rs_relative demo_os [] (bs "*"%string) [bs "a"%string; bs "b"%string]); [discriminate|reflexivity].
Qed.

(** C76, for commands that are not killed by a signal: the status is the exit code. *)
Theorem C76_status_partial : forall {W} (O : os W) child p (s : @xstate W) x w, o_wait O child (xs_world s) = (x, w) ->
  let s' := mkxstate (xs_pipes s) (xs_log s ++ [EvWait child x]) w in
  match x with
  | inr (WCode z) => wait_child O child p s = Ran (if (z =? 0)%Z then None else Some (mkerror (bs "command returned non-zero"%string) z p)) s'
  | inl e => wait_child O child p s = Ran (Some (mkerror e 127 p)) s'
  | _ => True
  end.
Proof. exact @status_law. Qed.
Print Assumptions C76_status_partial.

(** The status of a command killed by signal 9 is 264 and not 128 + 9. *)
Definition killing_os : os bytes :=
  mkos bytes (o_glob demo_os) (o_open demo_os) (o_pipe demo_os) (o_dup demo_os) (o_text demo_os) (o_spawn demo_os) (o_exec demo_os)
    (fun _ w => (inr (WSignal 9), w)) (o_captured demo_os) (o_async demo_os).
Theorem C76_signal_refuted : exists (O : os bytes) child p s s' e n,
  o_wait O child (xs_world s) = (inr (WSignal n), xs_world s') /\ wait_child O child p s = Ran (Some e) s' /\ es_status e <> (128 + n)%Z.
Proof. exists killing_os, 0%N, at_spot, start. eexists _, _, 9%Z. split; [|split; [vm_compute; reflexivity|discriminate]]. reflexivity. Qed.
Print Assumptions C76_signal_refuted.

Example C76_case : wait_child demo_os 1 at_spot start =
  Ran (Some (mkerror (bs "command returned non-zero"%string) 1 at_spot)) (mkxstate 0 [EvWait 1 (inr (WCode 1))] []).
Proof. vm_compute. reflexivity. Qed.
