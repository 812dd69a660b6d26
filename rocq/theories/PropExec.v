(** Properties of command blocks: C02, C30 to C37. *)
From Coq Require Import Strings.String.
From Verif Require Import Base Lexer Ast Parser Program Sema Value Text StdLib Exec Runtime Demo SpecLexer SpecExec
  ExecProofs QuoteProofs.

(** For the examples: the parts of a world. *)
Definition nowhere : pos := mkpos 1 1.
Definition lit (s : string) : xpart := XPUnit (XULiteral (bs s)).
Definition var (i : slot) : xpart := XPUnit (XUDollar i nowhere).
Definition arg (ps : list xpart) : xargument := mkxarg ps nowhere.
Definition vars (l : list value) : slot -> option value := fun i => nth_error l i.
Definition cmd (s : string) (abort : bool) : ebasic := mkebasic (ELiteral (bs s)) [] [] [] abort (mkspos [] nowhere).
Definition one (s : string) (abort : bool) : ecommand := EExternal (cmd s abort) [].
Definition begin : @xstate bytes := mkxstate 0 [] [].

(** C02.  A command written with quoted words starts one program, with exactly these words. *)
Theorem C02_quoted_words : forall t s0 ss, words_text t (s0 :: ss) -> ~ In s0 builtin_names ->
  exists prog b p, compile (x7b :: t) = Some prog /\ pr_statements prog = [XExpr (XCommand b p)] /\ xc_kind b = Synchronous /\
    forall (W : Type) (X : ext W) (O : os W) fetch h w path, exists eb,
      build_command_block X fetch h w path b = Built eb /\
      forall out err st ess st', commands_exec X O (ek_head eb :: ek_tail eb) out err [] st = Ran ess st' ->
      exists l r child, xs_log st' = xs_log st ++ l /\ started l = [(r, child)] /\
        r_program r = s0 /\ r_arguments r = ss /\ r_env r = [] /\ r_arg0 r = None.
Proof. exact quoted_run. Qed.
Print Assumptions C02_quoted_words.

(** Every non-empty byte string can be written both ways. *)
Theorem C02_every_word : forall s, s <> [] ->
  (exists t, word_text (x27 :: t ++ [x27]) s) /\ (exists t, word_text (QUOTE :: t ++ [QUOTE]) s).
Proof. exact every_word. Qed.
Print Assumptions C02_every_word.

(** [{ echo '*; $x' "a\$b" }] *)
Example C02_case : words_text (bs " echo '*; $x' ""a\$b"" }"%string) [bs "echo"%string; bs "*; $x"%string; bs "a$b"%string] /\
  ~ In (bs "echo"%string) builtin_names.
Proof.
  split; [|cbn; intuition discriminate].
  apply (ws_word [x20] (bs "echo"%string) _ (bs " '*; $x' ""a\$b"" }"%string)); [repeat constructor| |discriminate|reflexivity|].
  - apply wt_bare; [|intros H; discriminate]. repeat (apply sp_plain; [reflexivity|discriminate|]). constructor.
  - apply (ws_word [x20] (x27 :: bs "*; $x"%string ++ [x27]) _ (bs " ""a\$b"" }"%string)); [repeat constructor| |discriminate|reflexivity|].
    + apply wt_single. repeat (apply sp_plain; [reflexivity|discriminate|]). constructor.
    + apply (ws_word [x20] (QUOTE :: bs "a\$b"%string ++ [QUOTE]) _ (bs " }"%string)); [repeat constructor| |discriminate|reflexivity|].
      * apply wt_double. apply sp_plain; [reflexivity|discriminate|]. apply (sp_escape _ _ x24 x24); [cbn; tauto|].
        apply sp_plain; [reflexivity|discriminate|]. constructor.
      * apply (ws_end [x20]). repeat constructor.
Qed.

(** C30.  An argument of literals, scalar variables and wildcards is one argument, in which the
    bytes of literals and variables stand for themselves. *)
Theorem C30_no_reinterpretation : forall {W} (X : ext W) (O : os W) fetch h w path a tss,
  xa_parts a <> [] -> Forall2 (fun p ts => offers X fetch h w p [ts]) (xa_parts a) tss ->
  exists x, build_argument X fetch h w path a = Built [x] /\ stands_for x (concat tss) /\
    (forall us, stands_for x us -> us = concat tss) /\
    (existsb wildcard (xa_parts a) = false -> exists s, x = ELiteral s /\ concat tss = map GByte s /\ forall p st, resolve O x p st = Ran [s] st).
Proof. exact @one_argument. Qed.
Print Assumptions C30_no_reinterpretation.

(** [x*$v] with [* ?[] in [v] *)
Example C30_case :
  let fetch := vars [VStr (bs "* ?[]"%string)] in
  let a := arg [lit "x"; XPStar; var 0] in
  Forall2 (fun p ts => offers demo_ext fetch (mkheap [] [] [] []) [] p [ts]) (xa_parts a)
    [map GByte (bs "x"%string); [GStar]; map GByte (bs "* ?[]"%string)] /\
  build_argument demo_ext fetch (mkheap [] [] [] []) [] [] a = Built [EPattern (bs "x*[*] [?][[][]]"%string)].
Proof.
  split; [|vm_compute; reflexivity]. constructor; [apply of_literal|]. constructor; [apply of_star|]. constructor; [|constructor].
  apply (of_scalar _ _ _ _ 0 nowhere (VStr (bs "* ?[]"%string))); [reflexivity|constructor].
Qed.

(** C31, when no array is empty: one argument for each combination of elements. *)
Theorem C31_array_product_partial : forall {W} (X : ext W) fetch h w path a altss,
  xa_parts a <> [] -> Forall (fun alts => alts <> []) altss ->
  Forall2 (offers X fetch h w) (xa_parts a) altss ->
  exists l, build_argument X fetch h w path a = Built l /\ Forall2 stands_for l (combinations altss).
Proof. exact @array_arguments. Qed.
Print Assumptions C31_array_product_partial.

(** With an empty array there is no combination, but [foo$empty] gives the argument [foo]. *)
Theorem C31_empty_array_refuted : exists fetch h a altss l,
  xa_parts a <> [] /\ Forall2 (offers demo_ext fetch h []) (xa_parts a) altss /\
  build_argument demo_ext fetch h [] [] a = Built l /\ ~ Forall2 stands_for l (combinations altss).
Proof.
  exists (vars [VArr 0]), (mkheap [] [[]] [] []), (arg [lit "foo"; var 0]), [[map GByte (bs "foo"%string)]; []], [ELiteral (bs "foo"%string)].
  split; [discriminate|]. split.
  - constructor; [apply of_literal|]. constructor; [|constructor]. apply (of_array _ _ _ _ 0 nowhere 0 []); [reflexivity|constructor].
  - split; [reflexivity|]. intros H. inversion H.
Qed.
Print Assumptions C31_empty_array_refuted.

(** [$a-$b] with [a = ["1", "2"]] and [b = ["x", "y"]] *)
Example C31_case :
  let h := mkheap [] [[VStr (bs "1"%string); VInt 2]; [VStr (bs "x"%string); VByte x79]] [] [] in
  let a := arg [var 0; lit "-"; var 1] in
  let altss := map (map (map GByte)) [[bs "1"%string; bs "2"%string]; [bs "-"%string]; [bs "x"%string; bs "y"%string]] in
  Forall2 (offers demo_ext (vars [VArr 0; VArr 1]) h []) (xa_parts a) altss /\
  build_argument demo_ext (vars [VArr 0; VArr 1]) h [] [] a =
    Built (map ELiteral [bs "1-x"%string; bs "2-x"%string; bs "1-y"%string; bs "2-y"%string]) /\
  combinations altss = map (map GByte) [bs "1-x"%string; bs "2-x"%string; bs "1-y"%string; bs "2-y"%string].
Proof.
  split; [|split; vm_compute; reflexivity]. constructor; [|constructor; [|constructor; [|constructor]]].
  - apply (of_array _ _ _ _ 0 nowhere 0 [bs "1"%string; bs "2"%string]); [reflexivity|]. constructor; [constructor|]. constructor; [|constructor]. apply (sc_int demo_ext 2).
  - apply (of_literal _ _ _ _ (bs "-"%string)).
  - apply (of_array _ _ _ _ 1 nowhere 1 [bs "x"%string; bs "y"%string]); [reflexivity|]. constructor; [constructor|]. constructor; [|constructor]. apply (sc_byte demo_ext x79).
Qed.

(** C32, for words that are not empty: as many arguments as words.  (The same theorem as C02; full
    statement: the same for words of any length.) *)
Theorem C32_every_argument_partial : forall t s0 ss, words_text t (s0 :: ss) -> ~ In s0 builtin_names ->
  exists prog b p, compile (x7b :: t) = Some prog /\ pr_statements prog = [XExpr (XCommand b p)] /\
    forall (W : Type) (X : ext W) fetch h w path, exists q,
      build_command_block X fetch h w path b =
      Built (mkeblock (EExternal (mkebasic (ELiteral s0) [] (map ELiteral ss) [] true q) []) []).
Proof.
  intros t s0 ss Wt Nb. destruct (quoted_command t s0 ss Wt Nb) as (prog & b & p & Ec & Es & _ & Eb).
  exists prog, b, p. split; [exact Ec|]. split; [exact Es|exact Eb].
Qed.
Print Assumptions C32_every_argument_partial.

(** In [{ echo '' b }] the empty argument is not passed. *)
Theorem C32_empty_argument_refuted : exists prog b p q,
  compile (bs "{ echo '' b }"%string) = Some prog /\ pr_statements prog = [XExpr (XCommand b p)] /\
  build_command_block demo_ext (vars []) (mkheap [] [] [] []) [] [] b =
    Built (mkeblock (EExternal (mkebasic (ELiteral (bs "echo"%string)) [] [ELiteral (bs "b"%string)] [] true q) []) []).
Proof. eexists _, _, _, _. split; [vm_compute; reflexivity|]. split; [reflexivity|]. vm_compute. reflexivity. Qed.
Print Assumptions C32_empty_argument_refuted.

(** C33, when the operating system can be asked everything that is needed: pipelines run in
    order up to the first that asks to stop, and their errors are the value of the block. *)
Theorem C33_block_partial : forall {W} (X : ext W) (O : os W) fetch path b p h w v h' w', xc_kind b = Synchronous ->
  eval_command_block X O fetch path b p h w = Val v (h', w') ->
  exists eb ess s, build_command_block X fetch h w path b = Built eb /\ xs_world s = w' /\ reported X h' ess v /\
    ((exists n, block_ran (ek_head eb :: ek_tail eb) (xs_log s) ess n) \/
     (exists e q, commands_exec X O (ek_head eb :: ek_tail eb) IOStdout IOStderr [] (mkxstate 0 [] w) = RIo e q s /\ ess = [[mkerror e 127 q]])).
Proof. exact @block_result. Qed.
Print Assumptions C33_block_partial.

(** An error of the operating system makes the block forget the failures before: in
    [{ false?; none }] the failure of [false] is not reported. *)
Theorem C33_forgotten_refuted : exists b ess s child r,
  block_exec demo_ext demo_os b IOStdout IOStderr begin = Ran ess s /\
  In (EvWait child r) (xs_log s) /\ failed r = true /\ ~ In (status_of r) (map es_status (concat ess)).
Proof.
  exists (mkeblock (one "false" false) [one "none" true]). eexists _, _, 1%N, (inr (WCode 1)). split; [vm_compute; reflexivity|].
  split; [cbn; tauto|]. split; [reflexivity|]. cbn. intros [H|[]]. discriminate.
Qed.
Print Assumptions C33_forgotten_refuted.

(** [{ true; false? | false; false; true }] stops after the third pipeline and has three errors. *)
Example C33_case : exists s,
  block_exec demo_ext demo_os
    (mkeblock (one "true" true) [EExternal (cmd "false" false) [cmd "false" false]; one "false" true; one "true" true])
    IOStdout IOStderr begin =
  Ran (let e := mkerror (bs "command returned non-zero"%string) 1 (mkspos [] nowhere) in [[e; e]; [e]]) s /\
  length (started (xs_log s)) = 4 /\
  (exists d, demo 30 (bs "{ true; true }"%string) = Some ([], inl VNil) /\
     demo 30 (bs "{ true; false; true }"%string) = Some ([], inl (VErr (bs "command returned non-zero"%string) (VDict d)))).
Proof. eexists. split; [vm_compute; reflexivity|]. split; [reflexivity|]. eexists. split; vm_compute; reflexivity. Qed.

(** C34, for commands that fail with a status: a block only stops early when a command without
    [?] has failed.  Full statement: the same however a command fails. *)
Theorem C34_try_partial : forall {W} (X : ext W) (O : os W) cs out err errors s ess s',
  commands_exec X O cs out err errors s = Ran ess s' ->
  exists l ess' n, xs_log s' = xs_log s ++ l /\ ess = errors ++ ess' /\ block_ran cs l ess' n /\ n <= length cs /\
    (n < length cs -> exists c l', In c (firstn n cs) /\ incl l' l /\ stopping c l').
Proof. exact @block_continues. Qed.
Print Assumptions C34_try_partial.

(** In [{ none?; true }] the second command does not run: a command that cannot be started
    stops its block. *)
Theorem C34_start_refuted : exists c1 c2 ess s,
  eb_abort c1 = false /\
  block_exec demo_ext demo_os (mkeblock (EExternal c1 []) [EExternal c2 []]) IOStdout IOStderr begin = Ran ess s /\
  started (xs_log s) = [] /\ exists s2, block_exec demo_ext demo_os (mkeblock (EExternal c2 []) []) IOStdout IOStderr begin = Ran [] s2.
Proof.
  exists (cmd "none" false), (cmd "true" true). eexists _, _. split; [reflexivity|]. split; [vm_compute; reflexivity|]. split; [reflexivity|].
  eexists. vm_compute. reflexivity.
Qed.
Print Assumptions C34_start_refuted.

Example C34_case : exists ess s,
  commands_exec demo_ext demo_os [one "false" false; one "true" true] IOStdout IOStderr [] begin = Ran ess s /\
  length (started (xs_log s)) = 2 /\ length ess = 1.
Proof. eexists _, _. split; [vm_compute; reflexivity|]. split; reflexivity. Qed.

(** C35.  The program is started with the streams that the redirections give one after the
    other, and the files are opened in that order before it starts. *)
Theorem C35_redirections : forall {W} (O : os W) c io s child s', basic_exec O c io s = Ran child s' ->
  exists l r io', xs_log s' = xs_log s ++ l ++ [EvSpawn r child] /\ redirected (eb_redirections c) l io io' /\ r_io r = Some io'.
Proof. exact @redirections_apply. Qed.
Print Assumptions C35_redirections.

(** [true 2>1 > f] *)
Example C35_case : exists r s,
  basic_exec demo_os
    (mkebasic (ELiteral (bs "true"%string)) [] [] [EOutput 2 (TFd 1); EOutput 1 (TOverwrite (ELiteral (bs "f"%string)))] true (mkspos [] nowhere))
    (mkstdio IOStdin IOStdout IOStderr) begin = Ran 0%N s /\
  xs_log s = [EvOpen (bs "f"%string) MOverwrite 7; EvSpawn r 0] /\ r_io r = Some (mkstdio IOStdin (IOFile 7) IOStdout).
Proof. eexists _, _. split; [vm_compute; reflexivity|]. split; reflexivity. Qed.

(** C36.  Each pipe joins two neighbours and nothing else. *)
Theorem C36_pipeline : forall {W} (X : ext W) (O : os W) head tail out err s es ab s',
  Forall (fun c => eb_redirections c = []) (head :: tail) ->
  command_exec X O (EExternal head tail) out err s = Ran (es, ab) s' ->
  exists before after requests children ios ns, xs_log s' = xs_log s ++ before ++ after /\ existsb is_wait before = false /\
    started before = rev (combine requests children) /\ started after = [] /\
    length requests = length (head :: tail) /\ length children = length (head :: tail) /\
    map r_io requests = map Some ios /\ NoDup ns /\ wired out err IOStdin ios ns.
Proof. exact @pipeline_wired. Qed.
Print Assumptions C36_pipeline.

Example C36_case : exists es ab s,
  command_exec demo_ext demo_os (EExternal (cmd "a" true) [cmd "b" true; cmd "c" true]) IOCaptureOut IOCaptureErr begin = Ran (es, ab) s /\
  map (fun rc => r_io (fst rc)) (started (xs_log s)) =
    [Some (mkstdio (IOPipeRead 0) IOCaptureOut IOCaptureErr); Some (mkstdio (IOPipeRead 1) (IOPipeWrite 0) IOStderr);
     Some (mkstdio IOStdin (IOPipeWrite 1) IOStderr)].
Proof. eexists _, _, _. split; [vm_compute; reflexivity|]. reflexivity. Qed.

(** C37.  An asynchronous block gives a dictionary with a function to join it; calling it the
    first time gives what the block gives; afterwards it is marked as joined, and while it is
    every call panics, changing nothing.  What is missing: that nothing else removes the mark. *)
Theorem C37_created : forall {W} (X : ext W) (O : os W) fetch path b p h w v h' w', xc_kind b = Asynchronous ->
  eval_command_block X O fetch path b p h w = Val v (h', w') ->
  exists eb d st handle, build_command_block X fetch h w path b = Built eb /\ o_async O eb w = (handle, w') /\
    v = VDict d /\ dict_entries h' d = [(VStr (bs "join"%string), VFun (FRust (NJoin st)))] /\
    nth_error (h_iters h') st = Some (ISJoin (Some handle)) /\ h_iters h' = h_iters h ++ [ISJoin (Some handle)].
Proof. exact @async_created. Qed.
Print Assumptions C37_created.

Theorem C37_join_once_partial : forall {W} (X : ext W) st handle h n args p,
  nth_error (h_iters h) st = Some (ISJoin (Some handle)) ->
  (forall hd h1 w1 v h2 w2, x_join X hd h1 w1 = (inl (v, h2), w2) ->
     forall i, nth_error (h_iters h1) i = Some (ISJoin None) -> nth_error (h_iters h2) i = Some (ISJoin None)) ->
  forall w, exists h1 w1,
    ((exists v, x_join X handle (iter_set h st (ISJoin None)) w = (inl (v, h1), w1) /\ native_call X n args (NJoin st) [] p h w = Val v (h1, w1)) \/
     (exists e, x_join X handle (iter_set h st (ISJoin None)) w = (inr e, w1) /\ native_call X n args (NJoin st) [] p h w = Pan e (h1, w1))) /\
    nth_error (h_iters h1) st = Some (ISJoin None).
Proof. exact @join_once. Qed.
Print Assumptions C37_join_once_partial.

Theorem C37_join_again : forall {W} (X : ext W) st p h w n args vs, nth_error (h_iters h) st = Some (ISJoin None) ->
  native_call X n args (NJoin st) vs p h w = Pan (PInvalidJoin p) (h, w).
Proof. exact @LibProofs.join_again. Qed.
Print Assumptions C37_join_again.

Example C37_case :
  demo 40 (bs "let j = &{ true } j.join() std.println(""once"") std.catch(j.join)"%string) <> None /\
  (exists p, demo 40 (bs "let j = &{ true } j.join() j.join()"%string) = Some ([], inr (PInvalidJoin p))) /\
  demo 40 (bs "let j = &{ true } j.join()"%string) = Some ([], inl VNil).
Proof. split; [vm_compute; discriminate|]. split; [eexists|]; vm_compute; reflexivity. Qed.
