(** Failures of the interpreter itself: C92. *)
From Coq Require Import Strings.String.
From Verif Require Import Base Lexer Ast Parser Program Sema Value StdLib Exec Runtime Demo SpecRun SpecCrash CrashProofs.
Close Scope string_scope.

(** C92.  The claim "a program that is accepted never makes the interpreter itself fail" is false,
    in five ways. *)
Theorem C92_no_failure_refuted : exists X : ext bytes, honest X /\
  forall c, In c [CBorrow; CRand; CEnv; CLexer; CAlias] ->
  exists src b p n, analyze src = Analysis b [] [] /\ sema b = SemaOk p /\
    run_program X demo_os true false n (bs "main"%string) p [] [] = Crash c.
Proof. exact occurs. Qed.
Print Assumptions C92_no_failure_refuted.

(** What does hold: there is no sixth way. *)
Theorem C92_only_these_partial : forall {W} (X : ext W) (O : os W) src b les p n path args w c,
  honest X -> analyze src = Analysis b les [] -> sema b = SemaOk p ->
  run_program X O true false n path p args w = Crash c -> In c [CBorrow; CRand; CEnv; CLexer; CAlias].
Proof. intros W X O. exact (only_these X O). Qed.
Print Assumptions C92_only_these_partial.

(** A function of the library that fails was asked for a random number from an empty interval, for
    a variable without a name, or to sort an array that is a part of itself. *)
Theorem C92_library : forall {W} (X : ext W) n ra f args p h w c,
  std_call X n ra f args p h w = Crash c -> fails h f args c.
Proof. intros W X. exact (std_crash X). Qed.
Print Assumptions C92_library.

(** And the first two always fail. *)
Theorem C92_library_fails : forall {W} (X : ext W) n ra f args p h w c,
  f <> SSort -> fails h f args c -> std_call X n ra f args p h w = Crash c.
Proof. intros W X. exact (fails_crash X). Qed.
Print Assumptions C92_library_fails.

Example C92_interval : fails (mkheap [] [] [] []) SRandInt [VInt 2; VInt 1] CRand.
Proof. constructor. reflexivity. Qed.

(** Storing under a key in a dict fails only when the dict is a part of the key. *)
Theorem C92_key : forall h n l k v, dict_put h n l k v = Busy -> inside h (VDict l) k.
Proof. exact put_busy. Qed.
Print Assumptions C92_key.

Example C92_array_of_itself : dict_put (mkheap [] [[VDict 0]] [[]] []) 9 0 (VArr 0) VNil = Busy.
Proof. reflexivity. Qed.

Example C92_sorted : exists h l c, forall X : ext bytes, std_call X 9 VNil SSort [VArr l] (mkspos [] (mkpos 0 0)) h [] = Crash c.
Proof. exists (mkheap [] [[VArr 0; VArr 0]] [] []), 0, CBorrow. intros X. vm_compute. reflexivity. Qed.

(** Running a block fails only if the built-in [alias] is in it. *)
Theorem C92_block : forall {W} (X : ext W) (O : os W) b out err s c,
  block_exec X O b out err s = RCrash c -> has_alias b /\ c = CAlias.
Proof. intros W X O. exact (block_crash X O). Qed.
Print Assumptions C92_block.

Example C92_alias :
  block_exec demo_ext demo_os
    (mkeblock (EBuiltin BCd [ELiteral (bs "d"%string)] false (mkspos [] (mkpos 1 2)))
       [EBuiltin BAlias [ELiteral (bs "x"%string)] false (mkspos [] (mkpos 1 8))]) IOStdout IOStderr (mkxstate 0 [] [])
  = RCrash CAlias.
Proof. reflexivity. Qed.
