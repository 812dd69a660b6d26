(** C101: a mistake in one statement is reported once and costs that statement only. *)
From Coq Require Import Strings.String.
From Verif Require Import Base Lexer Ast Parser SpecLexer SpecParser SpecReport SpecFirst SpecRecover FirstErrorProofs RecoverProofs.

(** A source with any number of faulty statements, also in the bodies of functions, loops and conditions,
    where an operand is missing or a closing bracket or [end] does not come where it should: the errors are one for each of them, about the first token out of
    place, and the tree has all the other statements. *)
Theorem C101_recovery_partial : forall src ss fs,
  mended false (source_tokens src) ss fs ->
  analyze src = AnalysisCrash \/
  exists les es, analyze src = Analysis (BBlock ss) les es /\ map subject es = map Some fs.
Proof. exact mended_source. Qed.
Print Assumptions C101_recovery_partial.

(** The full statement does not hold.  In a command block, what is skipped after a mistake includes
    the closing brace, which is then missed: the statements that follow are lost, with a second error. *)
Theorem C101_command_refuted : exists bad good src b1 b2 ss les es e1 e2 e2',
  map tk_kind (source_tokens src) = map tk_kind (source_tokens bad) ++ map tk_kind (source_tokens good) /\
  analyze good = Analysis (BBlock ss) [] [] /\ length ss = 2 /\
  analyze bad = Analysis b1 [] [e1; e2'] /\
  analyze src = Analysis (BBlock [b2]) les es /\ es = [e1; e2] /\
  exists t, subject e2 = Some t /\ hd_error (map tk_kind (source_tokens good)) = Some (tk_kind t).
Proof.
  exists (bs "{ > f }"%string), (bs "let x = 1 let y = 2"%string), (bs "{ > f } let x = 1 let y = 2"%string). do 8 eexists.
  split; [vm_compute; reflexivity|]. split; [vm_compute; reflexivity|]. split; [reflexivity|]. split; [vm_compute; reflexivity|].
  split; [vm_compute; reflexivity|]. split; [reflexivity|]. eexists. split; [reflexivity|vm_compute; reflexivity].
Qed.
Print Assumptions C101_command_refuted.

(** With a condition, the token out of place is taken away and then taken for the end of the file. *)
Theorem C101_condition_refuted : exists bad good src ss les e,
  map tk_kind (source_tokens src) = map tk_kind (source_tokens bad) ++ map tk_kind (source_tokens good) /\
  analyze good = Analysis (BBlock ss) [] [] /\ length ss = 2 /\
  analyze bad = Analysis (BBlock [SIllFormed]) [] [e] /\
  analyze src = Analysis (BBlock [SIllFormed]) les [e].
Proof.
  exists (bs "if c then return 1 x end"%string), (bs "let x = 1 let y = 2"%string), (bs "if c then return 1 x end let x = 1 let y = 2"%string). do 3 eexists.
  split; [vm_compute; reflexivity|]. split; [vm_compute; reflexivity|]. split; [reflexivity|]. split; vm_compute; reflexivity.
Qed.
Print Assumptions C101_condition_refuted.

(** Four mistakes, one of them in a command block; the last statement is there. *)
Example C101_case : exists t1 t2 t3 t4 p s,
  mended false (source_tokens (bs "y = f(1, 2 3 4) let x = 1 + ) {} while x do break return 1 2 end g(x)"%string))
    [SIllFormed; SIllFormed; SExpr (ECommand ill_command_block p); SIllFormed; s] [t1; t2; t3; t4].
Proof.
  assert (V : forall n ts e, gexpr 0 ts e -> n <= 9 -> gexpr n ts e).
  { induction n; intros ts e G L; [exact G|]. apply g_up; [exact L|]. apply IHn; [exact G|]. apply le_S_n. apply le_S. exact L. }
  assert (I : forall n s p, n <= 9 -> gexpr n [tok (TIdentifier s) p] (EIdent s p)) by (intros; apply V; [apply g_ident|assumption]).
  assert (N : forall n l p, n <= 9 -> gexpr n [tok (TLiteral l) p] (ELit l p)) by (intros; apply V; [apply g_literal|assumption]).
  assert (U : forall k n ts t, broken n ts t -> k + n <= 9 -> broken (k + n) ts t).
  { induction k; intros n ts t B L; [exact B|]. apply b_up; [exact L|]. apply IHk; [exact B|]. apply le_S_n. apply le_S. exact L. }
  do 6 eexists.
  match goal with |- mended false ?x _ _ => let y := eval vm_compute in x in replace x with y by (vm_compute; reflexivity) end.
  eapply (me_faulty _ [_; _; _; _; _; _; _; _; _; _]).
  { eapply (f_assign [_] _ _ [_; _; _; _; _; _; _; _]); [apply I; repeat constructor|]. apply (U 8 1); [|repeat constructor].
    eapply (b_call [_] _ _ [_; _; _] _ [_]); [apply I; repeat constructor| |left; reflexivity|discriminate|repeat constructor; discriminate].
    eapply (sv_more [_] _ _ [_]); [apply N; repeat constructor|]. eapply sv_one. apply N; repeat constructor. }
  eapply (me_faulty _ [_; _; _; _; _; _]).
  { apply f_let. apply (U 5 4); [|repeat constructor]. eapply (b_binary 3 OPlus BPlus _ [_] _ [_]); [reflexivity|apply N; repeat constructor|].
    apply (U 3 0); [|repeat constructor]. apply b_none. reflexivity. }
  eapply (me_block _ [_; _]); [eapply bb_empty; reflexivity|reflexivity|].
  eapply (me_faulty _ [_; _; _; _; _; _; _; _]).
  { eapply (f_while _ [_] _ _ [_; _; _] _ _ []); [apply I; repeat constructor| | |reflexivity|repeat constructor; discriminate].
    - eapply (gss_cons false [_] _ _ [_; _]); [apply gs_break|apply gss_return; apply N; repeat constructor|discriminate].
    - eexists [_], _, _. reflexivity. }
  apply me_end. rewrite <- (app_nil_r [_; _; _; _]). eapply gss_cons; [|apply gss_nil|reflexivity]. apply gs_expr.
  assert (W : forall k n ts e, gexpr n ts e -> k + n <= 9 -> gexpr (k + n) ts e).
  { induction k; intros n ts e G L; [exact G|]. apply g_up; [exact L|]. apply IHk; [exact G|]. apply le_S_n. apply le_S. exact L. }
  apply (W 8 1); [|repeat constructor]. eapply (g_call [_] _ _ [_]); [apply I; repeat constructor|]. apply gx_one. apply I. repeat constructor.
Qed.

(** Mistakes in the body of a function, in both branches of a condition within it, and in a loop *)
Example C101_nested : exists t1 t2 t3 t4 p1 p2 p3 p4 p5 p6 p7 p8 p9 p10 s,
  mended false (source_tokens (bs "function f(a) let x = ) if a then y = 1 + * else return ] end return a end while x do z = / break end h(x)"%string))
    [SLet (bs "f"%string) (EFunction [(bs "a"%string, p1)]
       (BBlock [SIllFormed; SExpr (EIf (EIdent (bs "a"%string) p2) (BBlock [SIllFormed]) (BBlock [SIllFormed]) p3); SReturn (EIdent (bs "a"%string) p4) p5]) p6) p7;
     SWhile (EIdent (bs "x"%string) p8) (BBlock [SIllFormed; SBreak p9]) p10; s] [t1; t2; t3; t4].
Proof.
  assert (V : forall n ts e, gexpr 0 ts e -> n <= 9 -> gexpr n ts e).
  { induction n; intros ts e G L; [exact G|]. apply g_up; [exact L|]. apply IHn; [exact G|]. apply le_S_n. apply le_S. exact L. }
  assert (I : forall n s p, n <= 9 -> gexpr n [tok (TIdentifier s) p] (EIdent s p)) by (intros; apply V; [apply g_ident|assumption]).
  assert (N : forall n l p, n <= 9 -> gexpr n [tok (TLiteral l) p] (ELit l p)) by (intros; apply V; [apply g_literal|assumption]).
  assert (U : forall k n ts t, broken n ts t -> k + n <= 9 -> broken (k + n) ts t).
  { induction k; intros n ts t B L; [exact B|]. apply b_up; [exact L|]. apply IHk; [exact B|]. apply le_S_n. apply le_S. exact L. }
  assert (W : forall k n ts e, gexpr n ts e -> k + n <= 9 -> gexpr (k + n) ts e).
  { induction k; intros n ts e G L; [exact G|]. apply g_up; [exact L|]. apply IHk; [exact G|]. apply le_S_n. apply le_S. exact L. }
  do 15 eexists.
  match goal with |- mended false ?x _ _ => let y := eval vm_compute in x in replace x with y by (vm_compute; reflexivity) end.
  eapply (me_function _ _ _ _ _ [_] _ _ [_; _; _; _; _; _; _; _; _; _; _; _; _; _; _; _; _; _] _ [_; _; _] _ _ _ [_]).
  { apply gpa_one. }
  { eapply (me_faulty _ [_; _; _; _]); [apply f_let; apply (U 9 0); [|repeat constructor]; apply b_none; reflexivity|].
    eapply (me_if _ _ [_; _; _; _; _; _; _; _; _; _] _ _ _ [_; _]); [|reflexivity|apply me_end, gss_return, I; repeat constructor].
    eapply (mc_cond [_] _ _ [_; _; _; _; _] _ [_] [_; _; _]); [apply I; repeat constructor| |].
    - eapply (me_faulty _ [_; _; _; _; _] _ []); [|apply me_end, gss_nil].
      eapply (f_assign [_] _ _ [_; _; _]); [apply I; repeat constructor|]. apply (U 5 4); [|repeat constructor].
      eapply (b_binary 3 OPlus BPlus _ [_] _ [_]); [reflexivity|apply N; repeat constructor|]. apply (U 3 0); [|repeat constructor]. apply b_none. reflexivity.
    - apply ml_else. eapply (me_faulty _ [_; _] _ []); [|apply me_end, gss_nil]. apply f_return; [reflexivity|]. apply (U 9 0); [|repeat constructor]. apply b_none. reflexivity. }
  eapply (me_while _ _ [_] _ _ [_; _; _; _] _ [_] _ _ _ []); [apply I; repeat constructor| |].
  { eapply (me_faulty _ [_; _; _] _ [_]).
    - eapply (f_assign [_] _ _ [_]); [apply I; repeat constructor|]. apply (U 9 0); [|repeat constructor]. apply b_none. reflexivity.
    - apply me_end. eapply (gss_cons _ [_] _ _ []); [apply gs_break|apply gss_nil|discriminate]. }
  apply me_end. rewrite <- (app_nil_r [_; _; _; _]). eapply gss_cons; [|apply gss_nil|reflexivity]. apply gs_expr.
  apply (W 8 1); [|repeat constructor]. eapply (g_call [_] _ _ [_]); [apply I; repeat constructor|]. apply gx_one. apply I. repeat constructor.
Qed.
