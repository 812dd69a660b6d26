(** Properties of captured variables: C51, C52. *)
From Coq Require Import Strings.String.
From Verif Require Import Base Lexer Ast Parser Program Sema Value Text StdLib Exec Runtime Demo SpecLexer SpecParser SpecSema SpecProgram
  SpecRun SpecRuntime SpecShare ShareProofs.

(** C51.  A program does the same as when every variable is, from its creation on, a cell that is
    shared by all who can see it. *)
Theorem C51_shared : forall {W} (X : ext W) (O : os W), honest X -> blind X ->
  forall src b les pr tail n path args w, analyze src = Analysis b les [] -> sema b = SemaOk pr ->
  alike (run_program X O tail false n path pr args w) (run_program X O tail true n path pr args w).
Proof. exact @shared_program. Qed.
Print Assumptions C51_shared.

(** The states that are reached are [tidy]. *)
Theorem C51_reached : forall {W} (X : ext W) (O : os W), honest X -> blind X ->
  (forall args (w : W), tidy (initial args w)) /\
  (forall n u x fn lp k (s s' : state W), valid_statement fn lp k x -> tidy s ->
     finishes (ev_statement (interp X O n) u x s) s' -> tidy s') /\
  (forall src bl les pr n path args w (s' : state W), analyze src = Analysis bl les [] -> sema bl = SemaOk pr ->
     finishes (run_program X O true false n path pr args w) s' -> tidy s').
Proof. exact @reached_tidy. Qed.
Print Assumptions C51_reached.

(** A new closure refers to the variables themselves: the slot of the function that creates it
    and the context of the closure name the same cell, and so do closures created before.  No
    variable changes. *)
Theorem C51_closure : forall {W} (X : ext W) (O : os W) n u params fi body p (s s' : state W) v, tidy s ->
  gives X O n u (XFunction params fi body p) s v s' ->
  exists ctx, v = VFun (FHush (u_number u) params fi body ctx (at_ u p)) /\
    Forall2 (fun c x => snd x = cap_to c /\ nth_error (st_stack s') (cap_from c) = Some (Closed (fst x))) (fi_captures fi) ctx /\
    (forall j d, nth_error (st_stack s) j = Some (Closed d) -> nth_error (st_stack s') j = Some (Closed d)) /\
    (forall j, slot_now s' j = slot_now s j).
Proof. exact @closure_shares. Qed.
Print Assumptions C51_closure.

(** An assignment is seen by the slots and closures of that variable, and by no other. *)
Theorem C51_assignment : forall {W} i v (s s' : state W) x, tidy s -> nth_error (st_stack s) i = Some x -> store i v s = Val tt s' ->
  (forall j y, nth_error (st_stack s) j = Some y ->
     slot_now s' j = if Nat.eqb (slot_id y) (slot_id x) then Some v else slot_now s j) /\
  (forall c, cell_get (st_heap s') c = match x with Closed c' => if Nat.eqb c c' then v else cell_get (st_heap s) c | _ => cell_get (st_heap s) c end).
Proof. exact @store_seen. Qed.
Print Assumptions C51_assignment.

(** The body of a closure begins with the cells it captured in their slots, and with the arguments
    and [self] in variables that are new. *)
Theorem C51_call : forall {W} (X : ext W) (O : os W) n obj unit k params fi body ctx fp start p (s : state W),
  tidy s -> valid_frame k params fi -> map snd ctx = map cap_to (fi_captures fi) -> Forall (fun x => snd x < fi_slots fi) ctx ->
  length (skipn start (st_args s)) = params -> overflows X (length (st_stack s) + fi_slots fi) = false ->
  exists s1,
    ev_call (interp X O (S n)) obj (FHush unit params fi body ctx fp) start p s =
      bind (eval_body true (interp X O n) (mkuinfo unit (sp_path fp)) (fi_slots fi) body)
        (fun f => match f with Reg v | Ret v => ret v | Brk => crash_with CFlow end) s1 /\
    length (st_stack s1) = fi_slots fi + length (st_stack s) /\
    (forall j x, nth_error (st_stack s) j = Some x -> nth_error (st_stack s1) (fi_slots fi + j) = Some x) /\
    Forall (fun x => nth_error (st_stack s1) (snd x) = Some (Closed (fst x))) ctx /\
    (forall i, i < fi_slots fi -> ~ In i (map snd ctx) -> nth_error (st_stack s1) i =
       Some (Regular (length (h_cells (st_heap s)) + i)
         (if match fi_self fi with Some self => Nat.eqb i self | None => false end then obj
          else nth i (skipn start (st_args s)) VNil))).
Proof. exact @call_begins. Qed.
Print Assumptions C51_call.

(** The variables of an activation are new: nothing mentions them. *)
Theorem C51_new_variables : forall {W} (X : ext W) k p (s s' : state W), tidy s -> Runtime.extend X false k p s = Val tt s' ->
  let n := length (h_cells (st_heap s)) in
  @sound_state (first_cells n) W s /\ tidy s' /\ skipn k (st_stack s') = st_stack s /\
  forall i, i < k -> nth_error (st_stack s') i = Some (Regular (n + i) VNil).
Proof. exact @new_variables. Qed.
Print Assumptions C51_new_variables.

(** C52 is false of loops ([C52_refuted]): within one activation, whatever is evaluated between its
    beginning and the creation of a closure, the closure captures the variables that the slots had
    from the beginning. *)
Theorem C52_activation_partial : forall {W} (X : ext W) (O : os W), honest X ->
  forall n u params fi body p (s s1 s2 : state W) v, @sound_state anything W s -> later X O s s1 -> st_leaked s1 = false ->
  gives X O n u (XFunction params fi body p) s1 v s2 ->
  exists ctx, v = VFun (FHush (u_number u) params fi body ctx (at_ u p)) /\
    Forall2 (fun c x => option_map slot_id (nth_error (st_stack s) (cap_from c)) = Some (fst x)) (fi_captures fi) ctx.
Proof. exact @activation_variable. Qed.
Print Assumptions C52_activation_partial.

(** The claim holds of iterations that call a function: what a closure captures of the variables of
    that call is mentioned by nothing that there was before, hence by no closure of an earlier
    iteration.  [s0] is the state after the slots of the call were added to [s]. *)
Theorem C52_calls_partial : forall {W} (X : ext W) (O : os W), honest X ->
  forall n u params fi body p k q (s s0 s1 s2 s3 : state W) v i,
  tidy s -> Runtime.extend X false k q s = Val tt s0 -> i < k -> @sound_state anything W s1 ->
  option_map slot_id (nth_error (st_stack s1) i) = option_map slot_id (nth_error (st_stack s0) i) ->
  later X O s1 s2 -> st_leaked s2 = false -> gives X O n u (XFunction params fi body p) s2 v s3 ->
  exists ctx, v = VFun (FHush (u_number u) params fi body ctx (at_ u p)) /\
    Forall2 (fun c x => cap_from c = i -> ~ @sc_cell (first_cells (length (h_cells (st_heap s)))) (fst x)) (fi_captures fi) ctx /\
    @sound_state (first_cells (length (h_cells (st_heap s)))) W s.
Proof. exact @calls_apart. Qed.
Print Assumptions C52_calls_partial.

(** The world of the examples satisfies the hypotheses. *)
Example C51_world : honest demo_ext /\ blind demo_ext.
Proof.
  split; [|split; reflexivity]. split; cbn; try discriminate.
  - intros l. apply Permutation.Permutation_refl.
  - intros i h w v h' w' [= <- <- <-]. exists [], []. rewrite !app_nil_r. destruct h. repeat split; constructor.
Qed.
Definition C51_source : bytes := bs "let mk = function (n) @[ up: function () n = n + 1 end, get: function () n end ] end
  let a = mk(1) let b = mk(10) a.up() a.up() b.up() std.print(a.get()) std.print("","") std.print(b.get())"%string.
Example C51_case :
  (exists b pr, analyze C51_source = Analysis b [] [] /\ sema b = SemaOk pr) /\
  demo 60 C51_source = Some (bs "3,11"%string, inl VNil).
Proof. split; [eexists _, _; split; vm_compute; reflexivity|]. vm_compute. reflexivity. Qed.

(** Variable 0 was captured, variable 1 was not. *)
Definition C51_state : state bytes :=
  mkstate [Closed 0; Regular 1 (VInt 5); Closed 0] [VInt 7] (mkheap [VInt 4; VNil] [] [] []) [] 1 false [].
Example C51_state_tidy : tidy C51_state.
Proof.
  exists (mkscope (fun _ => True) (fun c => c = 0)), [VInt 4; VInt 5]. split.
  - exact (fun _ => I).
  - reflexivity.
  - intros c ->. split; [repeat constructor|reflexivity].
  - repeat constructor.
  - repeat constructor.
  - repeat split; repeat constructor.
  - constructor.
  - intros [|[|[|[|i]]]] x [= <-]; cbn; auto.
  - intros [|[|[|[|i]]]] [|[|[|[|j]]]] x y [= <-] [= <-]; cbn; auto.
Qed.
Definition C51_frame : frame_info := mkframe_info 3 [Program.mkcapture 1 2; Program.mkcapture 0 1] None.

Example C51_closure_case : exists v s',
  gives demo_ext demo_os 3 (mkuinfo 0 (bs "main"%string)) (XFunction 1 C51_frame [] (mkpos 1 1)) C51_state v s' /\
  v = VFun (FHush 0 1 C51_frame [] [(1, 2); (0, 1)] (mkspos (bs "main"%string) (mkpos 1 1))) /\
  st_stack s' = [Closed 0; Closed 1; Closed 0] /\ cell_get (st_heap s') 1 = VInt 5.
Proof. eexists _, _. split; [eexists _, _; vm_compute; reflexivity|]. repeat split. Qed.

Example C51_assignment_case : exists s', store 0 (VInt 6) C51_state = Val tt s' /\
  map (slot_now s') [0; 1; 2] = [Some (VInt 6); Some (VInt 5); Some (VInt 6)].
Proof. eexists. split; reflexivity. Qed.

Example C51_call_case : valid_frame 3 1 C51_frame /\ overflows demo_ext (length (st_stack C51_state) + fi_slots C51_frame) = false /\
  exists s', Runtime.extend demo_ext false 3 (mkspos [] (mkpos 1 1)) C51_state = Val tt s' /\
    map slot_id (st_stack s') = [2; 3; 4; 0; 1; 0].
Proof. split; [repeat split; repeat constructor; cbn; intuition discriminate|]. split; [reflexivity|]. eexists. split; reflexivity. Qed.

(** A call in the state above adds three slots; a closure made in it captures slot 1. *)
Example C52_case : exists s0 v s3, tidy C51_state /\ Runtime.extend demo_ext false 3 (mkspos [] (mkpos 1 1)) C51_state = Val tt s0 /\
  @sound_state anything bytes s0 /\ later demo_ext demo_os s0 s0 /\ st_leaked s0 = false /\
  gives demo_ext demo_os 3 (mkuinfo 0 (bs "main"%string)) (XFunction 0 (mkframe_info 1 [Program.mkcapture 1 0] None) [] (mkpos 1 1)) s0 v s3 /\
  v = VFun (FHush 0 0 (mkframe_info 1 [Program.mkcapture 1 0] None) [] [(3, 0)] (mkspos (bs "main"%string) (mkpos 1 1))) /\
  length (h_cells (st_heap C51_state)) = 2.
Proof.
  eexists _, _, _. split; [exact C51_state_tidy|]. split; [reflexivity|]. split.
  - repeat split; repeat constructor.
  - split; [constructor|]. split; [reflexivity|]. split; [eexists _, _; vm_compute; reflexivity|]. split; reflexivity.
Qed.
