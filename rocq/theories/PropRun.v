(** Properties of whole runs: C14, C15 (at run time), C21, C22, C37 (over time). *)
From Coq Require Import Strings.String.
From Verif Require Import Base Lexer Ast Parser Program Sema Value Text StdLib Exec Runtime Demo SpecLexer SpecParser SpecSema SpecProgram
  SpecRun SpecRuntime RunProofs.

#[local] Existing Instance anything.

(** The world of the examples is as assumed. *)
Example demo_honest : honest demo_ext.
Proof.
  split; cbn.
  - intros l. apply Permutation.Permutation_refl.
  - discriminate.
  - intros i h w v h' w' [= <- <- <-]. exists [], []. rewrite !app_nil_r. destruct h. repeat split; constructor.
Qed.

(** C14, at run time. *)
Theorem C14_no_invalid_flow : forall {W} (X : ext W) (O : os W) src b les p n path args w,
  honest X -> analyze src = Analysis b les [] -> sema b = SemaOk p ->
  run_program X O true false n path p args w <> Crash CFlow.
Proof. exact @no_invalid_flow. Qed.
Print Assumptions C14_no_invalid_flow.

(** Return, [?] and break leave loops and functions in many ways. *)
Example C14_run_case :
  demo 60 (bs "let f = function (xs) for x in std.iter(xs) do if x == 2 then break end while true do if x == 1 then return std.error(""e"", x)? end break end end 7 end std.println(f([0, 2, 1])) std.println(f([0, 1]).context)"%string)
  = Some (bs "7"%string ++ [x0a] ++ bs "1"%string ++ [x0a], inl VNil).
Proof. vm_compute. reflexivity. Qed.

(** C15, at run time: in every run of an accepted program the slots that are used exist. *)
Theorem C15_no_missing_slot : forall {W} (X : ext W) (O : os W) src b les p n path args w,
  honest X -> analyze src = Analysis b les [] -> sema b = SemaOk p ->
  run_program X O true false n path p args w <> Crash CSlot.
Proof. exact @no_missing_slot. Qed.
Print Assumptions C15_no_missing_slot.

Example C15_run_case :
  demo 60 (bs "let n = 0 let f = function (x, y) let z = x let g = function () n = n + z + y n end g end std.println(f(1, 2)() + f(3, 4)()) { echo $n } std.import(""m"").v"%string)
  = Some (bs "13"%string ++ [x0a] ++ bs "loading"%string ++ [x0a], inl (VInt 1)).
Proof. vm_compute. reflexivity. Qed.

(** C21 is false of the code in two ways.  A call in which a failed import is caught leaves
    the variables of the module on the stack… *)
Definition caught_import : bytes := bs "function () std.catch(function () std.import(""bad"") end) end"%string.
Theorem C21_stack_refuted : exists s f p v s',
  demo_run 60 caught_import = Some (Val (VFun f) s) /\
  ev_call (interp demo_ext demo_os 60) VNil f 0 p s = Val v s' /\
  length (st_stack s) = 0 /\ length (st_stack s') = 4.
Proof. eexists _, _, (mkspos [] (mkpos 1 1)), _, _. repeat (split; [vm_compute; reflexivity|]). vm_compute. reflexivity. Qed.
Print Assumptions C21_stack_refuted.

(** … and a Hush function that panics while the arguments of a call are evaluated leaves some
    of them in the argument vector. *)
Theorem C21_arguments_refuted : exists s f p e s',
  demo_run 60 (bs "function () std.type(1, std.panic(2)) end"%string) = Some (Val (VFun f) s) /\
  ev_call (interp demo_ext demo_os 60) VNil f 0 p s = Pan e s' /\ st_args s = [] /\ st_args s' = [VInt 1].
Proof. eexists _, _, (mkspos [] (mkpos 1 1)), _, _. repeat (split; [vm_compute; reflexivity|]). vm_compute. reflexivity. Qed.
Print Assumptions C21_arguments_refuted.

(** What holds: as long as no module was left by a panic, the stack after a call is the stack
    before it, slot by slot and not only in height, whether the call returned or panicked; and
    the arguments of the call are gone, except perhaps after a panic of a Hush function. *)
Theorem C21_call_partial : forall {W} (X : ext W) (O : os W) n obj f start p s s' o,
  honest X -> sound_state s -> sound obj -> sound_func f -> start <= length (st_args s) ->
  ev_call (interp X O n) obj f start p s = o -> finishes o s' -> st_leaked s' = false ->
  st_stack s' = st_stack s /\
  exists extra, st_args s' = firstn start (st_args s) ++ extra /\
    ((exists v, o = Val v s') \/ (exists g, f = FRust g) -> extra = []).
Proof. exact @call_restores. Qed.
Print Assumptions C21_call_partial.

(** In particular nothing is left after [std.catch]. *)
Theorem C21_catch_partial : forall {W} (X : ext W) (O : os W) n obj start p s v s',
  honest X -> sound_state s -> sound obj -> start <= length (st_args s) ->
  ev_call (interp X O n) obj (FRust (NStd SCatch)) start p s = Val v s' -> st_leaked s' = false ->
  st_stack s' = st_stack s /\ st_args s' = firstn start (st_args s).
Proof. exact @caught. Qed.
Print Assumptions C21_catch_partial.

(** The hypothesis [sound_state] holds in every state that is reached. *)
Theorem C21_reached : forall {W} (X : ext W) (O : os W), honest X ->
  (forall args (w : W), sound_state (initial args w)) /\
  (forall s s' : state W, later X O s s' -> sound_state s -> sound_state s') /\
  (forall src b les p n path args w (s' : state W), analyze src = Analysis b les [] -> sema b = SemaOk p ->
     finishes (run_program X O true false n path p args w) s' -> sound_state s').
Proof. exact @reached_sound. Qed.
Print Assumptions C21_reached.

Example C21_case :
  exists s f v s', demo_run 60 (bs "function () std.type(1, std.panic(2)) end"%string) = Some (Val (VFun f) s) /\
    let s0 := mkstate [Regular 7 (VInt 3)] [VNil; VFun f] (st_heap s) [] 1 false [] in
    sound_state s0 /\ ev_call (interp demo_ext demo_os 60) VNil (FRust (NStd SCatch)) 1 (mkspos [] (mkpos 1 1)) s0 = Val v s' /\
    (exists d c, v = VErr d c) /\ st_leaked s' = false /\ st_stack s' = [Regular 7 (VInt 3)] /\ st_args s' = [VNil].
Proof.
  eexists _, _, _, _. split; [vm_compute; reflexivity|]. cbv zeta. split.
  { repeat split; repeat constructor. }
  split; [vm_compute; reflexivity|]. split; [eexists _, _; reflexivity|]. repeat split.
Qed.

(** C22 is false of the code: the variable [z] is 9, and after the caught failure of the import
    it is 1, a variable of the module. *)
Theorem C22_refuted : exists src, 
  src = bs "let z = 9 let r = std.catch(function () std.import(""bad"") end) std.println(z)"%string /\
  demo 60 src = Some (bs "1"%string ++ [x0a], inl VNil).
Proof. eexists. split; [reflexivity|]. vm_compute. reflexivity. Qed.
Print Assumptions C22_refuted.

(** What holds: an import that fails because the module is not found, cannot be read or is not
    a valid program only removes its argument. *)
Theorem C22_not_run_partial : forall {W} (X : ext W) (O : os W) n obj t start p (s : state W),
  skipn start (st_args s) = [VStr t] ->
  match x_resolve X t (sp_path p) (st_world s) with
  | inl _ => True
  | inr path =>
      module_get path (st_modules s) = None /\
      match x_file X path (st_world s) with
      | inl _ => True
      | inr text => exists b les pes, analyze text = Analysis b les pes /\
          (les <> [] \/ pes <> [] \/ exists es, sema b = SemaErrors es)
      end
  end ->
  exists e, ev_call (interp X O (S n)) obj (FRust (NStd SImport)) start p s =
    Pan e (set_args s (firstn start (st_args s))).
Proof. exact @import_untouched. Qed.
Print Assumptions C22_not_run_partial.

(** And any call, an import in particular, leaves the stack alone when [st_leaked] stays false
    (C21_call_partial). *)
Example C22_case :
  demo 60 (bs "let z = 9 let r = std.catch(function () std.import(""none"") end) std.println(z) std.println(std.import(""m"").v) z"%string)
  = Some (bs "9"%string ++ [x0a] ++ bs "loading"%string ++ [x0a] ++ bs "1"%string ++ [x0a], inl (VInt 9)).
Proof. vm_compute. reflexivity. Qed.

(** C37.  The first call of the function made for an asynchronous block gives the outcome of the
    block; in every later state, whatever was evaluated in between, calling it panics, changes
    nothing and does not wait. *)
Theorem C37_once : forall {W} (X : ext W) (O : os W) n obj st start p s handle o s1,
  honest X -> sound_state s -> sound obj -> start <= length (st_args s) ->
  nth_error (h_iters (st_heap s)) st = Some (ISJoin (Some handle)) ->
  ev_call (interp X O (S n)) obj (FRust (NJoin st)) start p s = o -> finishes o s1 ->
  (exists h1 w1, x_join X handle (iter_set (st_heap s) st (ISJoin None)) (st_world s) =
     (match o with Val v _ => inl (v, h1) | Pan e _ => inr e | _ => inr (PInvalidJoin p) end, w1)) /\
  forall s2, later X O s1 s2 -> forall m obj' start' p',
    ev_call (interp X O (S m)) obj' (FRust (NJoin st)) start' p' s2 =
      Pan (PInvalidJoin p') (set_args s2 (firstn start' (st_args s2))).
Proof. exact @joined_once. Qed.
Print Assumptions C37_once.

Example C37_once_case :
  exists s f v s', demo_run 60 (bs "let j = &{ true } j.join"%string) = Some (Val (VFun (FRust (NJoin f))) s) /\
    sound_state s /\ nth_error (h_iters (st_heap s)) f = Some (ISJoin (Some 0%N)) /\
    ev_call (interp demo_ext demo_os 1) VNil (FRust (NJoin f)) 0 (mkspos [] (mkpos 1 1)) s = Val v s' /\
    later demo_ext demo_os s' s'.
Proof.
  eexists _, _, _, _. split; [vm_compute; reflexivity|]. split; [|split; [reflexivity|split; [vm_compute; reflexivity|constructor]]].
  repeat split; repeat constructor.
Qed.
