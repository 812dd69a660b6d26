(** The rules of evaluation: C54 to C59. *)
From Coq Require Import Strings.String.
From Verif Require Import Base Lexer Ast Parser Program Sema SpecProgram Value StdLib Exec Runtime Demo SpecRuntime SpecLaws LawProofs.

(** The state of the examples: variables 0 to 3 are [std], an integer, an array and a shared
    variable holding a dict. *)
Definition law_u : uinfo := mkuinfo 0 (bs "main"%string).
Definition law_p : pos := mkpos 1 1.
Definition law_dict : list (value * value) := [(VStr (bs "k"%string), VInt 8); (VInt 2, VNil)].
Definition law_state : state bytes :=
  mkstate [Regular 0 (VDict 0); Regular 1 (VInt 1); Regular 2 (VArr 0); Closed 3] []
    (mkheap [VNil; VNil; VNil; VDict (length std_dicts)] [[VInt 5; VInt 6]] (std_dicts ++ [law_dict]) [])
    [] 1 false [].
Definition lit (z : Z) : xexpr := XLit (LInt z) law_p.
Definition var (i : nat) : xexpr := XIdent i law_p.
Definition at_key (o : xexpr) (k : string) : xexpr := XAccess o (XFieldName (bs k) law_p) law_p.
(** [std.print(e)] writes to the world. *)
Definition print (e : xexpr) : xstatement := XExpr (XCall (at_key (var 0) "print"%string) [e] law_p).
Definition written (r : outcome (state bytes) flow) : option (bytes * flow) :=
  match r with Val f s => Some (st_world s, f) | _ => None end.
Ltac run_to n := eexists; split; [split; [|exists n; vm_compute; reflexivity]; discriminate|vm_compute; try reflexivity].

(** ** C54: control flow *)
Theorem C54_if : forall W (X : ext W) O u c t e p s r,
  evaluates X O u (XIf c t e p) s r <-> choice X O u c t e s r.
Proof. exact @if_law. Qed.
Print Assumptions C54_if.
Example C54_if_case : exists r,
  evaluates demo_ext demo_os law_u (XIf (XBinary (var 1) BEquals (lit 1) law_p) [print (lit 5); XExpr (lit 6)] [print (lit 7)] law_p) law_state r /\
  written r = Some (bs "5"%string, Reg (VInt 6)).
Proof. run_to 20. Qed.

Theorem C54_while : forall W (X : ext W) O u c b s r,
  executes X O u (XWhile c b) s r <-> loop X O u c b s r.
Proof. exact @while_law. Qed.
Print Assumptions C54_while.
(** [while i < 9 do std.print(i) i = i + 1 if i == 4 then break end end] *)
Example C54_while_case : exists r,
  executes demo_ext demo_os law_u
    (XWhile (XBinary (var 1) BLower (lit 9) law_p)
       [print (var 1); XAssign (LIdent 1 law_p) (XBinary (var 1) BPlus (lit 1) law_p);
        XExpr (XIf (XBinary (var 1) BEquals (lit 4) law_p) [XBreak] [] law_p)]) law_state r /\
  written r = Some (bs "123"%string, Reg VNil).
Proof. run_to 30. Qed.

Theorem C54_for : forall W (X : ext W) O u ix e b s r,
  executes X O u (XFor ix e b) s r <-> for_loop X O u ix e b s r.
Proof. exact @for_law. Qed.
Print Assumptions C54_for.
Example C54_for_case : exists r,
  executes demo_ext demo_os law_u
    (XFor 1 (XCall (at_key (var 0) "iter"%string) [var 2] law_p)
       [print (var 1); XExpr (XIf (XBinary (var 1) BEquals (lit 6) law_p) [XReturn (lit 9)] [] law_p)]) law_state r /\
  written r = Some (bs "56"%string, Ret (VInt 9)).
Proof. run_to 30. Qed.

Theorem C54_return : forall W (X : ext W) O u e s r,
  executes X O u (XReturn e) s r <-> returns X O u e s r.
Proof. exact @return_law. Qed.
Print Assumptions C54_return.
Example C54_return_case : exists r,
  executes demo_ext demo_os law_u (XReturn (XAccess (var 2) (lit 1) law_p)) law_state r /\
  written r = Some ([], Ret (VInt 6)).
Proof. run_to 20. Qed.

Theorem C54_break : forall W (X : ext W) O u s r, executes X O u XBreak s r <-> r = Val Brk s.
Proof. exact @break_law. Qed.
Print Assumptions C54_break.
Example C54_break_case : executes demo_ext demo_os law_u XBreak law_state (Val Brk law_state).
Proof. split; [discriminate|]. exists 1. reflexivity. Qed.

Theorem C54_expression : forall W (X : ext W) O u e s r,
  executes X O u (XExpr e) s r <-> evaluates X O u e s r.
Proof. exact @expression_law. Qed.
Print Assumptions C54_expression.
Example C54_expression_case : exists r,
  executes demo_ext demo_os law_u (print (lit 3)) law_state r /\ written r = Some (bs "3"%string, Reg VNil).
Proof. run_to 20. Qed.

(** ** C55: operands *)
Theorem C55_literal : forall W (X : ext W) O u l p s r,
  evaluates X O u (XLit l p) s r <-> exists v, denotes X l v /\ r = Val (Reg v) s.
Proof. exact @literal_law. Qed.
Print Assumptions C55_literal.
Example C55_literal_case : denotes demo_ext (LByte "a"%byte) (VByte "a"%byte) /\
  exists r, evaluates demo_ext demo_os law_u (XLit (LByte "a"%byte) law_p) law_state r /\ written r = Some ([], Reg (VByte "a"%byte)).
Proof. split; [constructor|run_to 5]. Qed.
Theorem C55_name : forall W (X : ext W) O u k p s r,
  evaluates X O u (XFieldName k p) s r <-> r = Val (Reg (VStr k)) s.
Proof. exact @name_law. Qed.
Print Assumptions C55_name.
Example C55_name_case : exists r,
  evaluates demo_ext demo_os law_u (XFieldName (bs "k"%string) law_p) law_state r /\ written r = Some ([], Reg (VStr (bs "k"%string))).
Proof. run_to 5. Qed.
Theorem C55_array : forall W (X : ext W) O u es p s r,
  evaluates X O u (XArray es p) s r <-> strictly X O u es new_array s r.
Proof. exact @array_law. Qed.
Print Assumptions C55_array.
(** The last item is not evaluated. *)
Example C55_array_case :
  (exists r, evaluates demo_ext demo_os law_u (XArray [lit 4; XLit (LString (bs "s"%string)) law_p; var 1] law_p) law_state r /\
    exists s, r = Val (Reg (VArr 1)) s /\ arr_get (st_heap s) 1 = [VInt 4; VStr (bs "s"%string); VInt 1] /\
              arr_get (st_heap s) 0 = [VInt 5; VInt 6]) /\
  (exists r, evaluates demo_ext demo_os law_u
      (XArray [XIf (XLit LTrue law_p) [print (lit 1)] [] law_p; XIf (XLit LTrue law_p) [XBreak] [] law_p;
               XIf (XLit LTrue law_p) [print (lit 2)] [] law_p] law_p) law_state r /\
    written r = Some (bs "1"%string, Brk)).
Proof. split; [run_to 10; eexists; repeat split|run_to 20]. Qed.

(** The analyser accepts no dict with a name given twice (C16). *)
Theorem C55_dict : forall W (X : ext W) O u items p s r, NoDup (map fst items) ->
  evaluates X O u (XDict items p) s r <-> strictly X O u (map snd items) (new_dictionary (map fst items)) s r.
Proof. exact @dict_law. Qed.
Print Assumptions C55_dict.
Example C55_dict_case :
  NoDup (map fst [(bs "a"%string, lit 4); (bs "b"%string, var 1)]) /\
  exists r, evaluates demo_ext demo_os law_u (XDict [(bs "a"%string, lit 4); (bs "b"%string, var 1)] law_p) law_state r /\
    exists l s, r = Val (Reg (VDict l)) s /\ dict_entries (st_heap s) l = [(VStr (bs "a"%string), VInt 4); (VStr (bs "b"%string), VInt 1)].
Proof.
  split; [repeat constructor; cbn; intuition discriminate|]. run_to 10. do 2 eexists. split; reflexivity.
Qed.

Theorem C55_unary : forall W (X : ext W) O u op e p s r,
  evaluates X O u (XUnary op e p) s r <-> strictly X O u [e] (unary op (at_ u (expr_pos e))) s r.
Proof. exact @unary_law. Qed.
Print Assumptions C55_unary.
(** [std.error("e", 1)?] returns the error; [-i] is an integer. *)
Example C55_unary_case :
  (exists r, evaluates demo_ext demo_os law_u
      (XUnary UTry (XCall (at_key (var 0) "error"%string) [XLit (LString (bs "e"%string)) law_p; lit 1] law_p) law_p) law_state r /\
    written r = Some ([], Ret (VErr (bs "e"%string) (VInt 1)))) /\
  (exists r, evaluates demo_ext demo_os law_u (XUnary UMinus (var 1) law_p) law_state r /\ written r = Some ([], Reg (VInt (-1)))).
Proof. split; [run_to 20|run_to 10]. Qed.

Theorem C55_binary : forall W (X : ext W) O u l op r p s x, lazy op = false ->
  evaluates X O u (XBinary l op r p) s x <->
  strictly X O u [l; r] (binary op (at_ u p) (at_ u (expr_pos l)) (at_ u (expr_pos r))) s x.
Proof. exact @binary_law. Qed.
Print Assumptions C55_binary.
Example C55_binary_case :
  lazy BConcat = false /\
  exists r, evaluates demo_ext demo_os law_u (XBinary (XLit (LString (bs "ab"%string)) law_p) BConcat (XLit (LString (bs "c"%string)) law_p) law_p) law_state r /\
    written r = Some ([], Reg (VStr (bs "abc"%string))).
Proof. split; [reflexivity|run_to 10]. Qed.

Theorem C55_access : forall W (X : ext W) O u o f p s r,
  evaluates X O u (XAccess o f p) s r <->
  strictly X O u [o; f] (accesses (at_ u (expr_pos o)) (at_ u (expr_pos f))) s r.
Proof. exact @access_expr_law. Qed.
Print Assumptions C55_access.
Example C55_access_case :
  (exists r, evaluates demo_ext demo_os law_u (XAccess (var 2) (lit 1) law_p) law_state r /\ written r = Some ([], Reg (VInt 6))) /\
  (exists r, evaluates demo_ext demo_os law_u (XAccess (var 2) (lit 2) law_p) law_state r /\
     r = Pan (PIndexOutOfBounds (VInt 2) (at_ law_u law_p)) law_state) /\
  (exists r, evaluates demo_ext demo_os law_u (at_key (var 3) "k"%string) law_state r /\ written r = Some ([], Reg (VInt 8))).
Proof. split; [run_to 10|split; run_to 10]. Qed.

(** ** C56: variables and assignments *)
Theorem C56_variable : forall W (X : ext W) O u ix p s r,
  evaluates X O u (XIdent ix p) s r <->
  r = match nth_error (st_stack s) ix with
      | Some (Regular _ v) => Val (Reg v) s
      | Some (Closed c) => Val (Reg (nth c (h_cells (st_heap s)) VNil)) s
      | None => Crash CSlot
      end.
Proof. exact @variable_law. Qed.
Print Assumptions C56_variable.
Example C56_read_case :
  (exists r, evaluates demo_ext demo_os law_u (var 3) law_state r /\ written r = Some ([], Reg (VDict (length std_dicts)))) /\
  (exists r, evaluates demo_ext demo_os law_u (var 1) law_state r /\ written r = Some ([], Reg (VInt 1))).
Proof. split; run_to 5. Qed.
Theorem C56_assign_variable : forall W (X : ext W) O u ix q e s r,
  executes X O u (XAssign (LIdent ix q) e) s r <-> sets_variable X O u ix e s r.
Proof. exact @assign_variable_law. Qed.
Print Assumptions C56_assign_variable.
Example C56_variable_case :
  (exists r, executes demo_ext demo_os law_u (XAssign (LIdent 3 law_p) (lit 4)) law_state r /\
    exists s, r = Val (Reg VNil) s /\ h_cells (st_heap s) = [VNil; VNil; VNil; VInt 4] /\ st_stack s = st_stack law_state) /\
  (exists r, executes demo_ext demo_os law_u (XAssign (LIdent 1 law_p) (var 2)) law_state r /\
    exists s, r = Val (Reg VNil) s /\ st_heap s = st_heap law_state /\
      st_stack s = [Regular 0 (VDict 0); Regular 1 (VArr 0); Regular 2 (VArr 0); Closed 3]).
Proof. split; run_to 10; eexists; repeat split. Qed.

Theorem C56_assign_field : forall W (X : ext W) O u o f q e s r,
  executes X O u (XAssign (LAccess o f q) e) s r <-> strictly X O u [e; o; f] (sets_field u o f q) s r.
Proof. exact @assign_field_statement_law. Qed.
Print Assumptions C56_assign_field.
Example C56_assign_field_case :
  (exists r, executes demo_ext demo_os law_u (XAssign (LAccess (var 2) (lit 1) law_p) (lit 4)) law_state r /\
    exists s, r = Val (Reg VNil) s /\ h_arrs (st_heap s) = [[VInt 5; VInt 4]] /\ h_dicts (st_heap s) = h_dicts (st_heap law_state)) /\
  (exists r, executes demo_ext demo_os law_u (XAssign (LAccess (var 2) (lit (-1)) law_p) (lit 4)) law_state r /\
    r = Pan (PIndexOutOfBounds (VInt (-1)) (at_ law_u law_p)) law_state).
Proof. split; run_to 10. eexists; repeat split. Qed.

(** ** C57: calls *)
Theorem C57_call : forall W (X : ext W) O u f args p s r,
  evaluates X O u (XCall f args p) s r <-> call_expression X O u f args p s r.
Proof. exact @call_law. Qed.
Print Assumptions C57_call.
Theorem C57_function : forall W (X : ext W) O obj unit params fi body context fp start p s r,
  tidy params fi context ->
  calls X O obj (FHush unit params fi body context fp) start p s r <->
  function_call X O obj unit params fi body context fp start p s r.
Proof. exact @function_law. Qed.
Print Assumptions C57_function.
Theorem C57_function_value : forall W (X : ext W) O u params fi body p s r,
  evaluates X O u (XFunction params fi body p) s r <-> makes_function u params fi body p s r.
Proof. exact @function_expression_law. Qed.
Print Assumptions C57_function_value.
(** The functions of accepted programs ([valid_frame] by C15) *)
Theorem C57_tidy : forall W n params fi (s : state W) context s1, valid_frame n params fi ->
  shares (fi_captures fi) s context s1 -> tidy params fi context.
Proof. exact @function_tidy. Qed.
Print Assumptions C57_tidy.

(** [function (a, b) self; captured; a ++ .. end], with [self] in slot 2 and variable 1 of the
    function around in slot 3 *)
Definition law_frame : frame_info := mkframe_info 4 [mkcapture 1 3] (Some 2).
Definition law_body : list xstatement :=
  [print (at_key (var 2) "k"%string); print (var 3); XExpr (XBinary (var 0) BMinus (var 1) law_p)].
Definition law_function : xexpr := XFunction 2 (mkframe_info 5 [mkcapture 1 3; mkcapture 0 4] (Some 2))
  [XExpr (XCall (at_key (var 4) "print"%string) [at_key (var 2) "k"%string] law_p);
   XExpr (XCall (at_key (var 4) "print"%string) [var 3] law_p);
   XExpr (XBinary (var 0) BMinus (var 1) law_p)] law_p.
(** The dict of variable 3 gets the function as a method, which is called. *)
Example C57_case : exists r,
  evaluates demo_ext demo_os law_u
    (XIf (XLit LTrue law_p)
       [XAssign (LAccess (var 3) (XFieldName (bs "f"%string) law_p) law_p) law_function;
        XAssign (LIdent 1 law_p) (lit 7);
        XExpr (XCall (at_key (var 3) "f"%string) [lit 30; lit 10] law_p)] [] law_p) law_state r /\
  written r = Some (bs "87"%string, Reg (VInt 20)).
Proof. run_to 30. Qed.
Example C57_arity_case : exists r s,
  evaluates demo_ext demo_os law_u (XCall law_function [lit 1] law_p) law_state r /\
  r = Pan (PInvalidArgs 1 2 (at_ law_u law_p)) s /\ st_world s = [].
Proof. eexists _, _. split; [split; [|exists 20; vm_compute; reflexivity]; discriminate|]. split; reflexivity. Qed.
Example C57_tidy_case : valid_frame 4 2 law_frame /\
  (exists s1, shares (fi_captures law_frame) law_state [(1, 3)] s1 /\ tidy 2 law_frame [(1, 3)]).
Proof.
  assert (V : valid_frame 4 2 law_frame).
  { split; [cbn; lia|]. split; [repeat constructor; cbn; lia|]. split; [repeat constructor; cbn; intuition discriminate|repeat constructor; cbn; lia]. }
  split; [exact V|]. eexists. match goal with |- ?A /\ _ => assert (H : A) end.
  - eapply (sh_now (mkcapture 1 3) [] law_state [Regular 0 (VDict 0)] 1 (VInt 1)); [reflexivity|reflexivity|constructor].
  - split; [exact H|]. exact (C57_tidy bytes _ _ _ _ _ _ V H).
Qed.

(** ** C58: programs and imports *)
Theorem C58_program : forall W (X : ext W) O u prog s r, 0 < pr_root_slots prog ->
  ends (fun n => eval_program X false (interp X O n) u prog s) r <-> program_runs X O u prog s r.
Proof. exact @program_law. Qed.
Print Assumptions C58_program.
Theorem C58_import : forall W (X : ext W) O obj start p s r,
  calls X O obj (FRust (NStd SImport)) start p s r <-> imported X O start p s (skipn start (st_args s)) r.
Proof. exact @import_law. Qed.
Print Assumptions C58_import.
(** The second import does not run the file again; both give the same dict. *)
Example C58_case :
  demo 60 (bs "let a = std.import(""m"") let b = std.import(""m"") b.v = 7 std.print(a.v)"%string)
  = Some (bs "loading
7"%string, inl VNil) /\
  exists prog, compile (bs "let a = 1"%string) = Some prog /\ 0 < pr_root_slots prog.
Proof. split; [vm_compute; reflexivity|]. eexists. split; [vm_compute; reflexivity|cbn; lia]. Qed.

(** ** C59: catch and bind *)
Theorem C59_catch : forall W (X : ext W) O obj start p s r,
  calls X O obj (FRust (NStd SCatch)) start p s r <-> caught X O start p s (skipn start (st_args s)) r.
Proof. exact @catch_law. Qed.
Print Assumptions C59_catch.
Theorem C59_bind : forall W (X : ext W) O obj' obj g start p s r,
  calls X O obj' (FRust (NBind obj g)) start p s r <-> rebound X O obj g start p s r.
Proof. exact @bind_law. Qed.
Print Assumptions C59_bind.
Example C59_case :
  demo 60 (bs "let o = @[v: 3] let f = std.bind(o, function (a) self.v + a end) std.print(f(4))
    let r = std.catch(function () std.print(1) std.panic(2) std.print(3) end) std.print(std.type(r))"%string)
  = Some (bs "71error"%string, inl VNil).
Proof. vm_compute. reflexivity. Qed.
