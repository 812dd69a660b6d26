(** Properties of calls in tail position: C23. *)
From Coq Require Import Strings.String.
From Verif Require Import Base Lexer Ast Parser Program Sema Value Text StdLib Exec Runtime Demo SpecLexer SpecParser SpecSema SpecProgram
  SpecRun SpecRuntime SpecTail TailRunProofs.
#[local] Existing Instance anything.

(** C23.  Making a call in tail position as every other call ([tail] is [false]) gives the same
    result, as long as there is stack for it. *)
Theorem C23_same_result : forall {W} (X : ext W) (O : os W), honest X -> x_stack_size X = None ->
  forall src b les pr path args w, analyze src = Analysis b les [] -> sema b = SemaOk pr ->
  (forall n, clean_end (run_program X O true false n path pr args w) ->
     exists m, ends_alike (run_program X O true false n path pr args w) (run_program X O false false m path pr args w)) /\
  (forall n, clean_end (run_program X O false false n path pr args w) ->
     exists m, ends_alike (run_program X O false false n path pr args w) (run_program X O true false m path pr args w)).
Proof. exact @same_result. Qed.
Print Assumptions C23_same_result.

Theorem C23_same_call : forall {W} (X : ext W) (O : os W), honest X -> x_stack_size X = None ->
  forall obj f start p (s : state W), sound obj -> sound_func f -> sound_state s ->
  (forall n, clean_end (ev_call (run X O true false n) obj f start p s) ->
     exists m, ends_alike (ev_call (run X O true false n) obj f start p s) (ev_call (run X O false false m) obj f start p s)) /\
  (forall n, clean_end (ev_call (run X O false false n) obj f start p s) ->
     exists m, ends_alike (ev_call (run X O false false n) obj f start p s) (ev_call (run X O true false m) obj f start p s)).
Proof. exact @same_call. Qed.
Print Assumptions C23_same_call.

(** The outcome of the first call of a chain of tail calls is the outcome of the last. *)
Theorem C23_chain_outcome : forall {W} (X : ext W) (O : os W) n k x y, chain X O n k x y ->
  forall m, n <= m -> makes X O (k + m) (fst x) (snd x) = makes X O m (fst y) (snd y).
Proof. exact @chain_outcome. Qed.
Print Assumptions C23_chain_outcome.

(** The last call of a chain finds the stack as it was before the first call, however long the
    chain. *)
Theorem C23_chain_stack : forall {W} (X : ext W) (O : os W), honest X -> forall n k x y, chain X O n k x y ->
  sound_pending (fst x) -> sound_state (snd x) -> st_leaked (snd y) = false ->
  st_leaked (snd x) = false /\ st_stack (snd y) = st_stack (snd x) /\ sound_pending (fst y) /\ sound_state (snd y).
Proof. exact @chain_stack. Qed.
Print Assumptions C23_chain_stack.

(** When its body begins there are only its own variables on top. *)
Theorem C23_chain_needs : forall {W} (X : ext W) (O : os W), honest X -> forall n k x y s1, chain X O n k x y ->
  sound_pending (fst x) -> sound_state (snd x) -> begins X (fst y) (snd y) s1 -> st_leaked s1 = false ->
  exists fr, st_stack s1 = fr ++ st_stack (snd x) /\ length fr = needs (fst y).
Proof. exact @chain_needs. Qed.
Print Assumptions C23_chain_needs.

(** So the last call overflows exactly when it would have overflowed as the first. *)
Theorem C23_overflow : forall {W} (X : ext W) (O : os W) n c (s : state W) un params fi body ctx fp,
  pd_function c = FHush un params fi body ctx fp -> sound_pending c -> length (skipn (pd_start c) (st_args s)) = params ->
  if overflows X (length (st_stack s) + needs c)
  then makes X O (S n) c s = Pan (PStackOverflow (pd_pos c)) (set_args s (firstn (pd_start c) (st_args s)))
  else exists s1, begins X c s s1.
Proof. exact @overflow_exactly. Qed.
Print Assumptions C23_overflow.

(** 500 iterations with room for 300 variables: calls in tail position succeed, ordinary calls
    overflow, and ordinary calls with enough room give the same result. *)
Definition C23_source : bytes := bs "let down = function (n) if n == 0 then return ""done"" end return down(n - 1) end
  std.print(down(500))"%string.
Definition C23_run (stack : option nat) (tail : bool) : option (bytes * (value + panic)) :=
  match compile C23_source with
  | Some p =>
      match run_program (demo_ext_with stack) demo_os tail false 1600 (bs "main"%string) p [] [] with
      | Val v s => Some (st_world s, inl v)
      | Pan p s => Some (st_world s, inr p)
      | _ => None
      end
  | None => None
  end.
Example C23_case :
  C23_run (Some 300) true = Some (bs "done"%string, inl VNil) /\
  (exists p, C23_run (Some 300) false = Some ([], inr (PStackOverflow p))) /\
  C23_run None false = Some (bs "done"%string, inl VNil).
Proof. split; [vm_compute; reflexivity|]. split; [eexists; vm_compute; reflexivity|]. vm_compute. reflexivity. Qed.

Lemma C23_world stack : honest (demo_ext_with stack).
Proof.
  split; cbn; try discriminate.
  - intros l. apply Permutation.Permutation_refl.
  - intros i h w v h' w' [= <- <- <-]. exists [], []. rewrite !app_nil_r. destruct h. repeat split; constructor.
Qed.

(** [function (f, x) f(f, x) end], called with itself: there are chains of every length. *)
Definition C23_forever : func :=
  FHush 0 2 (mkframe_info 2 [] None) ([] ++ [XExpr (XCall (XIdent 0 (mkpos 1 1)) [XIdent 0 (mkpos 1 2); XIdent 1 (mkpos 1 3)] (mkpos 1 4))]) []
    (mkspos (bs "main"%string) (mkpos 1 5)).
Definition C23_call : pending := mkpending VNil C23_forever 0 (mkspos (bs "main"%string) (mkpos 1 4)).
Definition C23_state : state bytes := mkstate [Regular 0 (VInt 1)] [VFun C23_forever; VInt 7] (mkheap [VNil] [] [] []) [] 1 false [].
Example C23_chain : forall k, exists s,
  chain demo_ext demo_os 1 k (C23_call, C23_state) (C23_call, s) /\ st_leaked s = false.
Proof.
  assert (G : forall k (s : state bytes), st_args s = st_args C23_state -> length (st_stack s) = 1 -> st_leaked s = false ->
    exists s', chain demo_ext demo_os 1 k (C23_call, s) (C23_call, s') /\ st_leaked s' = false).
  { induction k as [|k IH]; intros s A B C; [exists s; split; [constructor|exact C]|].
    destruct s as [stk ar h mo un lk wo]. cbn in A, B, C. subst.
    destruct (IH (mkstate stk (st_args C23_state) (mkheap (h_cells h ++ [VNil; VNil]) (h_arrs h) (h_dicts h) (h_iters h)) mo un false wo) eq_refl B eq_refl) as (s' & H & L).
    exists s'. split; [|exact L]. eapply ch_cons; [|exact H].
    assert (Y : exists y, hands_over demo_ext demo_os 1 (C23_call, mkstate stk (st_args C23_state) h mo un false wo) y /\
      y = (C23_call, mkstate stk (st_args C23_state) (mkheap (h_cells h ++ [VNil; VNil]) (h_arrs h) (h_dicts h) (h_iters h)) mo un false wo));
      [|destruct Y as (y & Y & <-); exact Y].
    eexists. split.
    - unfold C23_call, C23_forever.
      eapply (ho demo_ext demo_os 1 VNil 0 2 (mkframe_info 2 [] None) []); [|apply cm_nil|apply ec_value| |eapply ps_cons; [|eapply ps_cons; [|apply ps_nil]]].
      + split; [reflexivity|]. unfold bind, Runtime.extend, overflows. cbn [set_args st_stack x_stack_size demo_ext demo_ext_with fi_slots]. rewrite B. reflexivity.
      + reflexivity.
      + eexists _, _. reflexivity.
      + eexists _, _. reflexivity.
    - reflexivity. }
  intros k. apply G; reflexivity.
Qed.
Example C23_sound : sound_pending C23_call /\ sound_state C23_state /\ overflows demo_ext (length (st_stack C23_state) + needs C23_call) = false.
Proof. repeat split; repeat constructor. Qed.
