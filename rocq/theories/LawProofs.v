(** Proofs of the rules of evaluation. *)
From Coq Require Import Strings.String.
From Verif Require Import Base Lexer Ast Parser Program Sema Value StdLib Exec Runtime SpecRuntime SpecShow SpecLaws FuelProofs.
From Verif Require ShowProofs TailProofs LexerProofs SemaProofs LoopProofs ParserFactsProofs SemaShapeProofs SemaTextProofs SpecProgram.

Section Ends.
Context {S : Type}.
Definition mono {A} (f : nat -> outcome S A) : Prop := forall n m, n <= m -> ole (f n) (f m).
Lemma mono_const {A} (o : outcome S A) : mono (fun _ => o). Proof. intros n m _. now right. Qed.
Lemma ends_const {A} (o r : outcome S A) : ends (fun _ => o) r <-> r <> Fuel /\ o = r.
Proof. split; intros [H K]; split; auto. - now destruct K. - now exists 0. Qed.
Lemma ends_fun {A} (f : nat -> outcome S A) r r' : mono f -> ends f r -> ends f r' -> r = r'.
Proof.
  intros M [H [n <-]] [H' [m <-]]. destruct (M n (max n m) ltac:(lia)) as [?|E]; [contradiction|].
  destruct (M m (max n m) ltac:(lia)) as [?|E']; [contradiction|]. congruence.
Qed.
Lemma ends_shift {A} (f : nat -> outcome S A) r : mono f -> ends (fun n => f (Datatypes.S n)) r <-> ends f r.
Proof.
  intros M. split; intros [H [n E]]; split; auto.
  - now exists (Datatypes.S n).
  - exists n. destruct (M n (Datatypes.S n) ltac:(lia)) as [?|F]; congruence.
Qed.
Lemma ends_ext {A} (f g : nat -> outcome S A) r : (forall n, f n = g n) -> ends f r <-> ends g r.
Proof. intros H. unfold ends. setoid_rewrite H. reflexivity. Qed.
End Ends.

Section Laws.
Context {W : Type}.
Variable X : ext W.
Variable O : os W.
Notation state := (state W).
Notation result := (outcome state flow).

Ltac now_ends := split; [discriminate|exists 0; reflexivity].

(** Sequencing *)
Lemma ends_bind {A B} (m : nat -> M (W:=W) A) (k : nat -> A -> M (W:=W) B) s r :
  mono (fun n => m n s) -> (forall a s1, mono (fun n => k n a s1)) ->
  ends (fun n => bind (m n) (k n) s) r <->
  (exists a s1, ends (fun n => m n s) (Val a s1) /\ ends (fun n => k n a s1) r) \/
  (exists o, ends (fun n => m n s) o /\ fails o r).
Proof.
  intros M1 M2. split.
  - intros [H [n E]]. unfold bind in E. destruct (m n s) as [a s1|p s1|c s1|c|] eqn:F.
    + left. exists a, s1. split; (split; [congruence|now exists n]).
    + right. exists (Pan p s1). split; [split; [congruence|now exists n]|]. subst. constructor.
    + right. exists (Exit c s1). split; [split; [congruence|now exists n]|]. subst. constructor.
    + right. exists (Crash c). split; [split; [congruence|now exists n]|]. subst. constructor.
    + congruence.
  - intros [(a & s1 & [_ [n E]] & [H [m' E']])|(o & [H [n E]] & F)].
    + split; [exact H|]. exists (max n m'). unfold bind.
      destruct (M1 n (max n m') ltac:(lia)) as [?|E1]; [congruence|]. rewrite <- E1, E.
      destruct (M2 a s1 m' (max n m') ltac:(lia)) as [?|E2]; [congruence|]. congruence.
    + split; [destruct F; discriminate|]. exists n. unfold bind. rewrite E. destruct F; reflexivity.
Qed.

(** The interpreter is monotone in its fuel. *)
Let R n m := run_le X O true false n m.
Lemma mono_expr u e s : mono (fun n => ev_expr (interp X O n) u e s).
Proof. intros n m L. apply (el_expr _ _ (R n m L)). Qed.
Lemma mono_statement u st s : mono (fun n => ev_statement (interp X O n) u st s).
Proof. intros n m L. apply (el_statement _ _ (R n m L)). Qed.
Lemma mono_call obj f start p s : mono (fun n => ev_call (interp X O n) obj f start p s).
Proof. intros n m L. apply (el_call _ _ (R n m L)). Qed.
Lemma mono_for u ix g p b s : mono (fun n => ev_for (interp X O n) u ix g p b s).
Proof. intros n m L. apply (el_for _ _ (R n m L)). Qed.
Lemma mono_block u b s : mono (fun n => eval_block (interp X O n) u b s).
Proof. intros n m L. apply block_le, (R n m L). Qed.
Lemma mono_flow u e s : mono (fun n => flow_of (ev_expr (interp X O n) u e s)).
Proof. intros n m L. destruct (mono_expr u e s n m L) as [-> | ->]; [now left|now right]. Qed.

(** Determinism of the judgements *)
Lemma evaluates_fun u e s r r' : evaluates X O u e s r -> evaluates X O u e s r' -> r = r'.
Proof. apply ends_fun, mono_flow. Qed.

(** One step of the definitions *)
Lemma evaluates_step u e s r :
  evaluates X O u e s r <-> ends (fun n => flow_of (eval_expr X O (interp X O n) n u e s)) r.
Proof. symmetry. apply (ends_shift (fun n => flow_of (ev_expr (interp X O n) u e s))), mono_flow. Qed.
Lemma executes_step u st s r :
  executes X O u st s r <-> ends (fun n => eval_statement (interp X O n) n u st s) r.
Proof. symmetry. apply (ends_shift (fun n => ev_statement (interp X O n) u st s)), mono_statement. Qed.
Lemma calls_step obj f start p s r :
  calls X O obj f start p s r <-> ends (fun n => call X true false (interp X O n) n obj f start p s) r.
Proof. symmetry. apply (ends_shift (fun n => ev_call (interp X O n) obj f start p s)), mono_call. Qed.

(** The position an expression reports is its own; only accesses report an object. *)
Lemma expr_place n u e s f p obj s1 :
  ev_expr (interp X O n) u e s = Val (f, p, obj) s1 ->
  p = at_ u (expr_pos e) /\ ((forall o x q, e <> XAccess o x q) -> obj = VNil).
Proof.
  destruct n as [|n]; [discriminate|]. cbn [interp run ev_expr step]. 
  assert (P : forall q (m : M (W:=W) flow),
    bind m (fun f0 => ret (f0, at_ u q, VNil)) s = Val (f, p, obj) s1 ->
    p = at_ u q /\ ((forall o x q, e <> XAccess o x q) -> obj = VNil)).
  { intros q m H. unfold bind in H. destruct (m s); inversion H. auto. }
  destruct e; cbn [eval_expr expr_pos]; try (intros H; exact (P _ _ H)).
  intros H. unfold bind in H. destruct (ev_expr _ u e1 s) as [[[fo op] x] s2| | | |] eqn:E; try discriminate.
  destruct fo as [o|o|]; [|inversion H; split; [reflexivity|now intros N; destruct (N e1 e2 p0)] ..].
  destruct (ev_expr _ u e2 s2) as [[[ff fp] y] s3| | | |] eqn:E2; try discriminate.
  destruct ff as [w|w|]; [|inversion H; split; [reflexivity|now intros N; destruct (N e1 e2 p0)] ..].
  destruct (access _ _ _ _ _ s3); inversion H. split; [reflexivity|]. intros N; now destruct (N e1 e2 p0).
Qed.

(** An expression with a continuation *)
Lemma ends_expr {B} u e (k : nat -> flow -> spos -> M (W:=W) B) s r :
  (forall f p s1, mono (fun n => k n f p s1)) ->
  ends (fun n => bind (ev_expr (interp X O n) u e) (fun '(f, p, _) => k n f p) s) r <->
  (exists f s1, evaluates X O u e s (Val f s1) /\ ends (fun n => k n f (at_ u (expr_pos e)) s1) r) \/
  (exists o, evaluates X O u e s o /\ fails o r).
Proof.
  intros M. rewrite (ends_bind (fun n => ev_expr (interp X O n) u e) (fun n '(f, p, _) => k n f p)).
  2: apply mono_expr. 2: intros [[f p] obj] s1; apply M.
  split.
  - intros [([[f p] obj] & s1 & [H [n E]] & K)|(o & [H [n E]] & F)].
    + left. exists f, s1. destruct (expr_place n u e s f p obj s1 E) as [-> Q]. split; [|exact K].
      split; [discriminate|]. exists n. now rewrite E.
    + right. inversion F; subst.
      * exists (Pan p s0). split; [|constructor]. split; [discriminate|]. exists n. now rewrite <- H0.
      * exists (Exit c s0). split; [|constructor]. split; [discriminate|]. exists n. now rewrite <- H0.
      * exists (Crash c). split; [|constructor]. split; [discriminate|]. exists n. now rewrite <- H0.
  - intros [(f & s1 & [_ [n E]] & K)|(o & [H [n E]] & F)].
    + left. destruct (ev_expr (interp X O n) u e s) as [[[f' p] obj] s2| | | |] eqn:E1; try discriminate. cbn in E. inversion E; subst f' s2.
      destruct (expr_place n u e s f p obj s1 E1) as [-> Q].
      exists (f, at_ u (expr_pos e), obj), s1. split; [|exact K]. split; [discriminate|now exists n].
    + right. destruct (ev_expr (interp X O n) u e s) as [[[f' p] obj] s2|p s2|c s2|c|] eqn:E1; cbn in E; subst o; inversion F; subst.
      * exists (Pan p s2). split; [|constructor]. split; [discriminate|now exists n].
      * exists (Exit c s2). split; [|constructor]. split; [discriminate|now exists n].
      * exists (Crash c). split; [|constructor]. split; [discriminate|now exists n].
Qed.
(** The usual case: on anything but a plain value the expression decides. *)
Lemma fails_same (r : result) : r <> Fuel -> (forall f s, r <> Val f s) -> fails r r.
Proof. destruct r; intros H K; try constructor; [now destruct (K a s)|congruence]. Qed.
Lemma fails_eq (o r : result) : fails o r -> o = r /\ stops r.
Proof. now intros []. Qed.
Lemma ends_value u e (k : nat -> value -> spos -> M (W:=W) flow) s r :
  (forall v p s1, mono (fun n => k n v p s1)) ->
  ends (fun n => bind (ev_expr (interp X O n) u e)
    (fun '(f, p, _) => match f with Reg v => k n v p | f => ret f end) s) r <->
  (exists v s1, evaluates X O u e s (Val (Reg v) s1) /\ ends (fun n => k n v (at_ u (expr_pos e)) s1) r) \/
  (evaluates X O u e s r /\ stops r).
Proof.
  intros M. rewrite (ends_expr u e (fun n f p => match f with Reg v => k n v p | f => ret f end)).
  2: { intros [v|v|] p s1; [apply M|apply mono_const|apply mono_const]. }
  split.
  - intros [([v|v|] & s1 & E & K)|(o & E & F)].
    + left. eauto.
    + right. apply ends_const in K as [_ <-]. split; [exact E|exact I].
    + right. apply ends_const in K as [_ <-]. split; [exact E|exact I].
    + right. apply fails_eq in F as [-> F]. auto.
  - intros [(v & s1 & E & K)|[E F]].
    + left. eauto.
    + destruct r as [[v|v|] s1|p s1|c s1|c|]; try contradiction; try (destruct E; congruence).
      * left. exists (Ret v), s1. split; [exact E|]. now_ends.
      * left. exists Brk, s1. split; [exact E|]. now_ends.
      * right. eexists. split; [exact E|constructor].
      * right. eexists. split; [exact E|constructor].
      * right. eexists. split; [exact E|constructor].
Qed.

(** ** Statements *)

Lemma executes_nonfuel u st s r : executes X O u st s r -> r <> Fuel. Proof. intros H. apply H. Qed.
Lemma sequence_nonfuel u b s r : sequence X O u b s r -> r <> Fuel.
Proof. induction 1; auto; try discriminate; eapply executes_nonfuel; eauto. Qed.
Lemma block_law u b : forall s r, ends (fun n => eval_block (interp X O n) u b s) r <-> sequence X O u b s r.
Proof.
  induction b as [|st b IH]; intros s r.
  - rewrite (ends_ext _ (fun _ => Val (Reg VNil) s)) by reflexivity. rewrite ends_const. split.
    + intros [_ <-]. constructor.
    + intros H. inversion H. split; [discriminate|reflexivity].
  - destruct b as [|st' b].
    + split; [intros H; now apply sq_last|]. intros H. inversion H; subst; try assumption. congruence.
    + rewrite (ends_ext _ (fun n => bind (ev_statement (interp X O n) u st) (fun f => match f with Reg _ => eval_block (interp X O n) u (st' :: b) | f => ret f end) s)) by reflexivity.
      rewrite (ends_bind (fun n => ev_statement (interp X O n) u st) (fun n f => match f with Reg _ => eval_block (interp X O n) u (st' :: b) | f => ret f end)).
      2: apply mono_statement. 2: intros [v|v|] s1; [apply mono_block|apply mono_const|apply mono_const].
      split.
      * intros [([v|v|] & s1 & E & K)|(o & E & F)].
        { apply sq_next with v s1; [discriminate|exact E|]. now apply IH. }
        { apply ends_const in K as [_ <-]. apply sq_stop; [exact E|exact I]. }
        { apply ends_const in K as [_ <-]. apply sq_stop; [exact E|exact I]. }
        { apply fails_eq in F as [-> F]. now apply sq_stop. }
      * intros H. inversion H; subst.
        { left. exists (Reg v), s1. split; [assumption|]. now apply IH. }
        { destruct r as [[v|v|] s1|p s1|c s1|c|]; try contradiction; try (match goal with H : executes _ _ _ _ _ Fuel |- _ => destruct H; congruence end).
          - left. exists (Ret v), s1. split; [assumption|]. now_ends.
          - left. exists Brk, s1. split; [assumption|]. now_ends.
          - right. eexists. split; [eassumption|constructor].
          - right. eexists. split; [eassumption|constructor].
          - right. eexists. split; [eassumption|constructor]. }
Qed.

Lemma flow_plain (m : M (W:=W) flow) p s : flow_of (bind m (fun f => ret (f, p, VNil)) s) = m s.
Proof. unfold bind. destruct (m s); reflexivity. Qed.

Lemma not_boolean v : (forall b, v <> VBool b) -> ~ is_boolean v.
Proof. intros H [b ->]. now apply (H b). Qed.

(** Constructs that report no object *)
Lemma evaluates_plain u e p (m : nat -> M (W:=W) flow) s r :
  (forall n, eval_expr X O (interp X O n) n u e = bind (m n) (fun f => ret (f, at_ u p, VNil))) ->
  evaluates X O u e s r <-> ends (fun n => m n s) r.
Proof. intros H. rewrite evaluates_step. apply ends_ext. intros n. rewrite H. apply flow_plain. Qed.

Lemma boolean_cases v : (exists b, v = VBool b) \/ ~ is_boolean v.
Proof. destruct v; try (right; intros [? ?]; discriminate); left; eauto. Qed.

Theorem if_law u c t e p s r : evaluates X O u (XIf c t e p) s r <-> choice X O u c t e s r.
Proof.
  rewrite (evaluates_plain u (XIf c t e p) p _ s r (fun n => eq_refl)).
  rewrite (ends_ext _ (fun n => bind (ev_expr (interp X O n) u c)
    (fun '(f, cp, _) => match f with Reg v => (fun n v cp => match v with VBool b => eval_block (interp X O n) u (if b then t else e) | v => throw (PInvalidCondition v cp) end) n v cp | f => ret f end) s)).
  2: { intros n. unfold bind. destruct (ev_expr _ u c s) as [[[[[]|v|] q] o] s1| | | |]; reflexivity. }
  rewrite ends_value. 2: { intros [] q s1; try apply mono_const. apply mono_block. }
  split.
  - intros [(v & s1 & E & K)|[E F]]; [|now apply ch_stop].
    destruct (boolean_cases v) as [[b ->]|N].
    + apply block_law in K. destruct b; [eapply ch_then|eapply ch_else]; eauto.
    + replace r with (@Pan state flow (PInvalidCondition v (at_ u (expr_pos c))) s1); [now apply ch_bad|].
      destruct v; try (apply ends_const in K as [_ K]; exact K). destruct N. now eexists.
  - intros H. inversion H; subst.
    + left. do 2 eexists. split; [eassumption|]. now apply block_law.
    + left. do 2 eexists. split; [eassumption|]. now apply block_law.
    + left. do 2 eexists. split; [eassumption|].
      destruct v; try (now_ends). destruct H1. now eexists.
    + right. auto.
Qed.

Theorem return_law u e s r : executes X O u (XReturn e) s r <-> returns X O u e s r.
Proof.
  rewrite executes_step. cbn [eval_statement].
  rewrite (ends_ext _ (fun n => bind (ev_expr (interp X O n) u e)
    (fun '(f, cp, _) => match f with Reg v => (fun (n : nat) v (cp : spos) => ret (Ret v)) n v cp | f => ret f end) s)).
  2: { intros n. unfold bind. destruct (ev_expr _ u e s) as [[[[v|v|] q] o] s1| | | |]; reflexivity. }
  rewrite ends_value. 2: { intros v q s1. apply mono_const. }
  split.
  - intros [(v & s1 & E & K)|[E F]]; [|now apply rt_stop]. apply ends_const in K as [_ <-]. now apply rt_value.
  - intros H. inversion H; subst; [left|right; auto]. do 2 eexists. split; [eassumption|]. now_ends.
Qed.
Theorem break_law u s r : executes X O u XBreak s r <-> r = Val Brk s.
Proof. rewrite executes_step. cbn [eval_statement]. unfold ret. rewrite ends_const. split; [intros [_ <-]; reflexivity|intros ->; split; [discriminate|reflexivity]]. Qed.
Theorem expression_law u e s r : executes X O u (XExpr e) s r <-> evaluates X O u e s r.
Proof.
  rewrite executes_step. cbn [eval_statement]. apply ends_ext. intros n. unfold bind.
  destruct (ev_expr _ u e s) as [[[f q] o] s1| | | |]; reflexivity.
Qed.

(** ** Loops *)
Lemma loop_sound u c b : forall n s r, r <> Fuel -> ev_statement (interp X O n) u (XWhile c b) s = r -> loop X O u c b s r.
Proof.
  induction n as [|n IH]; intros s r N E; [cbn in E; congruence|].
  cbn [interp run step ev_statement eval_statement] in E. fold (interp X O n) in E. unfold bind in E.
  destruct (ev_expr (interp X O n) u c s) as [[[f q] o] s1|e s1|k s1|k|] eqn:EC.
  2-4: subst r; apply lp_stop; [split; [discriminate|exists n; now rewrite EC]|exact I]. 2: congruence.
  destruct (expr_place n u c s f q o s1 EC) as [-> _].
  assert (C : evaluates X O u c s (Val f s1)). { split; [discriminate|]. exists n. now rewrite EC. }
  destruct f as [v|v|]; [|subst r; now apply lp_stop ..].
  destruct (boolean_cases v) as [[[|] ->]|B].
  - change (match eval_block (interp X O n) u b s1 with
      | Val a s => match a with Reg _ => ev_statement (interp X O n) u (XWhile c b) | Ret v => ret (Ret v) | Brk => ret (Reg VNil) end s
      | Pan p s => Pan p s | Exit c s => Exit c s | Crash c => Crash c | Fuel => Fuel end = r) in E.
    assert (S : forall r', r' <> Fuel -> eval_block (interp X O n) u b s1 = r' -> sequence X O u b s1 r').
    { intros r' N' E'. apply block_law. split; [exact N'|now exists n]. }
    destruct (eval_block (interp X O n) u b s1) as [[v|v|] s2|e s2|k s2|k|] eqn:EB.
    + eapply lp_again; [exact C|apply S; [discriminate|reflexivity]|]. now apply IH.
    + subst r. eapply lp_leave; [exact C|apply S; [discriminate|reflexivity]|exact I|discriminate].
    + subst r. eapply lp_break; [exact C|apply S; [discriminate|reflexivity]].
    + subst r. eapply lp_leave; [exact C|apply S; [discriminate|reflexivity]|exact I|discriminate].
    + subst r. eapply lp_leave; [exact C|apply S; [discriminate|reflexivity]|exact I|discriminate].
    + subst r. eapply lp_leave; [exact C|apply S; [discriminate|reflexivity]|exact I|discriminate].
    + congruence.
  - cbn in E. subst r. now apply lp_done.
  - replace r with (@Pan state flow (PInvalidCondition v (at_ u (expr_pos c))) s1); [now apply lp_bad|].
    destruct v; try exact E. destruct B. now eexists.
Qed.
Lemma while_step u c b s r :
  executes X O u (XWhile c b) s r <->
  (exists v s1, evaluates X O u c s (Val (Reg v) s1) /\
     ends (fun n => match v with
        | VBool false => Val (Reg VNil) s1
        | VBool true => bind (eval_block (interp X O n) u b) (fun f =>
          match f with Reg _ => ev_statement (interp X O n) u (XWhile c b) | Ret v => ret (Ret v) | Brk => ret (Reg VNil) end) s1
        | v => Pan (PInvalidCondition v (at_ u (expr_pos c))) s1 end) r) \/
  (evaluates X O u c s r /\ stops r).
Proof.
  rewrite executes_step. cbn [eval_statement].
  rewrite (ends_ext _ (fun n => bind (ev_expr (interp X O n) u c)
    (fun '(f, cp, _) => match f with Reg v => (fun n v cp => match v with
        | VBool false => ret (Reg VNil)
        | VBool true => bind (eval_block (interp X O n) u b) (fun f =>
          match f with Reg _ => ev_statement (interp X O n) u (XWhile c b) | Ret v => ret (Ret v) | Brk => ret (Reg VNil) end)
        | v => throw (PInvalidCondition v cp) end) n v cp | f => ret f end) s)).
  2: { intros n. unfold bind. destruct (ev_expr _ u c s) as [[[[[|[]| | | | | | | |]|v|] q] o] s1| | | |]; reflexivity. }
  rewrite ends_value.
  - split; (intros [(v & s1 & E & K)|K]; [left; exists v, s1; split; [exact E|]|now right]); destruct v as [|[]| | | | | | | |]; exact K.
  - intros [|[]| | | | | | | |] q s1; try apply mono_const. intros n m L. apply mle_bind; [apply block_le, (R n m L)|].
    intros [v|v|]; try apply mle_refl. intros s0. apply mono_statement, L.
Qed.
Theorem while_law u c b s r : executes X O u (XWhile c b) s r <-> loop X O u c b s r.
Proof.
  split; [intros [N [n E]]; eapply loop_sound; eauto|].
  assert (SQ : forall s1 f s2 r, sequence X O u b s1 (Val f s2) ->
    ends (fun n => (match f with Reg _ => ev_statement (interp X O n) u (XWhile c b) | Ret v => ret (Ret v) | Brk => ret (Reg VNil) end) s2) r ->
    ends (fun n => bind (eval_block (interp X O n) u b) (fun f =>
          match f with Reg _ => ev_statement (interp X O n) u (XWhile c b) | Ret v => ret (Ret v) | Brk => ret (Reg VNil) end) s1) r).
  { intros s1 f s2 r' S K. apply (ends_bind (fun n => eval_block (interp X O n) u b) (fun n f => match f with Reg _ => ev_statement (interp X O n) u (XWhile c b) | Ret v => ret (Ret v) | Brk => ret (Reg VNil) end)).
    - apply mono_block.
    - intros [v|v|] s3; [apply mono_statement|apply mono_const|apply mono_const].
    - left. exists f, s2. split; [now apply block_law|exact K]. }
  induction 1; apply while_step.
  - left. do 2 eexists. split; [eassumption|]. now_ends.
  - left. do 2 eexists. split; [eassumption|]. eapply SQ; [eassumption|]. exact IHloop.
  - left. do 2 eexists. split; [eassumption|]. eapply SQ; [eassumption|]. now_ends.
  - left. do 2 eexists. split; [eassumption|].
    destruct r as [[v|v|] s2|e s2|k s2|k|]; try contradiction.
    + eapply SQ; [eassumption|]. now_ends.
    + now destruct (H2 s2).
    + apply block_law in H0 as [_ [n E]]. split; [discriminate|]. exists n. unfold bind. now rewrite E.
    + apply block_law in H0 as [_ [n E]]. split; [discriminate|]. exists n. unfold bind. now rewrite E.
    + apply block_law in H0 as [_ [n E]]. split; [discriminate|]. exists n. unfold bind. now rewrite E.
    + now apply sequence_nonfuel in H0.
  - left. do 2 eexists. split; [eassumption|]. destruct v as [|[]| | | | | | | |]; try (now_ends).
    + destruct H0. now eexists.
    + destruct H0. now eexists.
  - right. auto.
Qed.

(** ** Operands *)
Lemma strict_none u (K : list value -> state -> result -> Prop) s r : strictly X O u [] K s r <-> K [] s r.
Proof.
  split.
  - intros H. inversion H as [vs s1 ? A|? A]; subst; inversion A; subst; assumption.
  - intros H. eapply st_all; [constructor|exact H].
Qed.
Lemma strict_cons u e es (K : list value -> state -> result -> Prop) s r :
  strictly X O u (e :: es) K s r <->
  (exists v s1, evaluates X O u e s (Val (Reg v) s1) /\ strictly X O u es (fun vs => K (v :: vs)) s1 r) \/
  (evaluates X O u e s r /\ stops r).
Proof.
  split.
  - intros H. inversion H as [vs s1 ? A|? A]; subst; inversion A; subst.
    + left. do 2 eexists. split; [eassumption|]. eapply st_all; eassumption.
    + right. auto.
    + left. do 2 eexists. split; [eassumption|]. now apply st_stop.
  - intros [(v & s1 & E & H)|[E F]].
    + inversion H as [vs s2 ? A|? A]; subst.
      * eapply st_all; [econstructor; eassumption|assumption].
      * apply st_stop. eapply os_later; eassumption.
    + apply st_stop. now apply os_here.
Qed.
Lemma ends_operand u e es (k : nat -> value -> spos -> M (W:=W) flow) (K : list value -> state -> result -> Prop) s r :
  (forall v p s1, mono (fun n => k n v p s1)) ->
  (forall v s1, ends (fun n => k n v (at_ u (expr_pos e)) s1) r <-> strictly X O u es (fun vs => K (v :: vs)) s1 r) ->
  ends (fun n => bind (ev_expr (interp X O n) u e)
    (fun '(f, p, _) => match f with Reg v => k n v p | f => ret f end) s) r <->
  strictly X O u (e :: es) K s r.
Proof.
  intros M H. rewrite (ends_value u e k s r M), strict_cons. split.
  - intros [(v & s1 & E & K')|E]; [left|now right]. exists v, s1. split; [exact E|]. now apply H.
  - intros [(v & s1 & E & K')|E]; [left|now right]. exists v, s1. split; [exact E|]. now apply H.
Qed.
Lemma mono_bind {A B} (m : nat -> M (W:=W) A) (k : nat -> A -> M (W:=W) B) s :
  (forall s, mono (fun n => m n s)) -> (forall a s1, mono (fun n => k n a s1)) -> mono (fun n => bind (m n) (k n) s).
Proof. intros M1 M2 n n' L. apply mle_bind; [intros s0; now apply M1|]. intros x s0. now apply M2. Qed.
Lemma mono_of_flow u e (k : nat -> value -> spos -> M (W:=W) flow) s :
  (forall v p s1, mono (fun n => k n v p s1)) ->
  mono (fun n => bind (ev_expr (interp X O n) u e)
    (fun '(f, p, _) => match f with Reg v => k n v p | f => ret f end) s).
Proof.
  intros M. apply mono_bind; [intros; apply mono_expr|]. intros [[[v|v|] p] o] s1; [apply M|apply mono_const|apply mono_const].
Qed.

Lemma eval_list_mono u es s : mono (fun n => eval_list (interp X O n) u es s).
Proof. intros n m L. revert s. change (mle (eval_list (interp X O n) u es) (eval_list (interp X O m) u es)).
  induction es as [|e es IH]; [apply mle_refl|]. cbn [eval_list]. apply mle_bind; [apply (R n m L)|].
  intros [[[v|v|] p] o]; try apply mle_refl. apply mle_bind; [exact IH|]. intros x. apply mle_refl.
Qed.
Lemma eval_list_law u (K : list value -> state -> result -> Prop) (k : list value -> M (W:=W) flow) : forall es s r,
  (forall vs s r, K vs s r <-> ends (fun _ => k vs s) r) ->
  ends (fun n => bind (eval_list (interp X O n) u es) (fun r => match r with inr l => k l | inl f => ret f end) s) r <->
  strictly X O u es K s r.
Proof.
  intros es. revert K k. induction es as [|e es IH]; intros K k s r H.
  - rewrite strict_none, H. reflexivity.
  - rewrite (ends_ext _ (fun n => bind (ev_expr (interp X O n) u e) (fun '(f, p, _) => match f with Reg v =>
      (fun n v (p : spos) => bind (eval_list (interp X O n) u es) (fun r => match r with inr l => k (v :: l) | inl f => ret f end)) n v p | f => ret f end) s)).
    2: { intros n. cbn [eval_list]. unfold bind. destruct (ev_expr _ u e s) as [[[[v|v|] q] o] s1| | | |]; try reflexivity.
         destruct (eval_list _ u es s1) as [[]| | | |]; reflexivity. }
    apply ends_operand.
    + intros v p s1. apply mono_bind; [intros; apply eval_list_mono|]. intros [f|l] s2; apply mono_const.
    + intros v s1. apply (IH (fun vs => K (v :: vs)) (fun vs => k (v :: vs))). intros. apply H.
Qed.
Theorem array_law u es p s r : evaluates X O u (XArray es p) s r <-> strictly X O u es new_array s r.
Proof.
  rewrite (evaluates_plain u (XArray es p) p _ s r (fun n => eq_refl)).
  apply (eval_list_law u new_array (fun l => bind (alloc (fun h => new_arr h l)) (fun v => ret (Reg v)))).
  intros vs s1 r1. rewrite ends_const. unfold bind, alloc, new_arr, ret. split.
  - intros H. inversion H; subst. split; [discriminate|reflexivity].
  - intros [_ <-]. now econstructor.
Qed.

Lemma strict_iff u es (K K' : list value -> state -> result -> Prop) s r :
  (forall vs s r, K vs s r <-> K' vs s r) -> strictly X O u es K s r <-> strictly X O u es K' s r.
Proof. intros H. split; intros []; try (now apply st_stop); (eapply st_all; [eassumption|now apply H]). Qed.
Lemma symbol_put_new k v d : ~ In (VStr k) (map fst d) -> (forall x, In x (map fst d) -> exists k, x = VStr k) ->
  symbol_put k v d = d ++ [(VStr k, v)].
Proof.
  intros N A. unfold symbol_put.
  enough (E : put_entry (fun a b => Known (match a, b with VStr x, VStr y => bytes_eqb x y | _, _ => false end)) (VStr k) v d = Known (d ++ [(VStr k, v)])) by now rewrite E.
  induction d as [|[x w] d IH]; [reflexivity|]. cbn [put_entry].
  destruct (A x) as [k' ->]; [now left|]. cbn [wbind].
  destruct (bytes_eqb k k') eqn:B; [apply LexerProofs.bytes_eqb_eq in B as ->; destruct N; now left|].
  rewrite IH; [reflexivity| |]; [intros I; apply N; now right|intros y I; apply A; now right].
Qed.
Lemma eval_dict_mono u items d s : mono (fun n => eval_dict (interp X O n) u items d s).
Proof. intros n m L. revert s. change (mle (eval_dict (interp X O n) u items d) (eval_dict (interp X O m) u items d)). revert d.
  induction items as [|[k e] es IH]; intros d; [apply mle_refl|]. cbn [eval_dict]. apply mle_bind; [apply (R n m L)|].
  intros [[[v|v|] p] o]; try apply mle_refl. apply IH.
Qed.
Lemma eval_dict_law u items : forall d s r, NoDup (map fst d ++ map VStr (map fst items)) ->
  (forall x, In x (map fst d) -> exists k, x = VStr k) ->
  ends (fun n => bind (eval_dict (interp X O n) u items d) (fun r => match r with inr d => bind (alloc (fun h => new_dict h d)) (fun v => ret (Reg v)) | inl f => ret f end) s) r <->
  strictly X O u (map snd items) (fun vs s r => ends (fun _ => bind (alloc (fun h => new_dict h (d ++ combine (map VStr (map fst items)) vs))) (fun v => ret (Reg v)) s) r) s r.
Proof.
  induction items as [|[k e] items IH]; intros d s r N A.
  - rewrite strict_none. cbn [map combine]. rewrite app_nil_r. reflexivity.
  - rewrite (ends_ext _ (fun n => bind (ev_expr (interp X O n) u e) (fun '(f, p, _) => match f with Reg v =>
      (fun n v (p : spos) => bind (eval_dict (interp X O n) u items (symbol_put k v d)) (fun r => match r with inr d => bind (alloc (fun h => new_dict h d)) (fun v => ret (Reg v)) | inl f => ret f end)) n v p | f => ret f end) s)).
    2: { intros n. cbn [eval_dict]. unfold bind. destruct (ev_expr _ u e s) as [[[[v|v|] q] o] s1| | | |]; reflexivity. }
    cbn [map fst snd] in *. apply ends_operand.
    + intros v p s1. apply mono_bind; [intros; apply eval_dict_mono|]. intros [f|l] s2; apply mono_const.
    + intros v s1. cbn beta.
      assert (N1 : ~ In (VStr k) (map fst d)).
      { intros I. apply NoDup_remove_2 in N. apply N, in_or_app. now left. }
      rewrite (symbol_put_new k v d N1 A). rewrite IH.
      * apply strict_iff. intros vs s2 r2. cbn [map fst combine]. rewrite <- app_assoc. reflexivity.
      * rewrite map_app, <- app_assoc. exact N.
      * intros x I. rewrite map_app in I. apply in_app_or in I as [I|[<-|[]]]; [now apply A|]. now exists k.
Qed.
Theorem dict_law u items p s r : NoDup (map fst items) ->
  evaluates X O u (XDict items p) s r <-> strictly X O u (map snd items) (new_dictionary (map fst items)) s r.
Proof.
  intros N. rewrite (evaluates_plain u (XDict items p) p _ s r (fun n => eq_refl)).
  rewrite eval_dict_law; [|apply FinFun.Injective_map_NoDup; [intros ? ? [=]; auto|exact N]|intros ? []].
  apply strict_iff. intros vs s1 r1. rewrite ends_const. cbn [app]. unfold bind, alloc, new_dict, ret. split.
  - intros [_ <-]. now econstructor.
  - intros H. inversion H; subst. split; [discriminate|reflexivity].
Qed.

Ltac absurd_kind := match goal with
  | N : ~ is_boolean (VBool _) |- _ => apply N; eexists; reflexivity
  | N : forall _, ?x <> _ |- False => eapply N; reflexivity
  | N : forall _ _, ?x <> _ |- False => eapply N; reflexivity
  end.
Theorem unary_law u op e p s r :
  evaluates X O u (XUnary op e p) s r <-> strictly X O u [e] (unary op (at_ u (expr_pos e))) s r.
Proof.
  rewrite (evaluates_plain u (XUnary op e p) p _ s r (fun n => eq_refl)).
  rewrite (ends_ext _ (fun n => bind (ev_expr (interp X O n) u e) (fun '(f, p, _) => match f with Reg v =>
      (fun (n : nat) v p => of_sum (unary_op_value op v p)) n v p | f => ret f end) s)) by reflexivity.
  apply ends_operand; [intros; apply mono_const|].
  intros v s1. rewrite strict_none, ends_const. split.
  - intros [_ <-]. destruct op, v; cbn; try (constructor; auto; try discriminate; intros [? ?]; discriminate); now constructor.
  - intros H. inversion H; subst; try (split; [discriminate|reflexivity]);
      (split; [discriminate|]); destruct v; try reflexivity; exfalso; absurd_kind.
Qed.

(** ** Walks *)
Lemma wbind_free {A B} (w : walk A) (f : A -> walk B) : w <> Busy -> (forall a, f a <> Busy) -> wbind w f <> Busy.
Proof. destruct w; cbn; auto; discriminate. Qed.
Lemma find_free eq k d : (forall x, eq k x <> Busy) -> find_entry eq k d <> Busy.
Proof.
  intros H. induction d as [|[x v] d IH]; [discriminate|]. cbn [find_entry]. apply wbind_free; [apply H|].
  intros []; [discriminate|exact IH].
Qed.
Lemma all2_free {A} (eq : A -> A -> walk bool) : (forall x y, eq x y <> Busy) -> forall a b, all2 eq a b <> Busy.
Proof.
  intros H. induction a as [|x a IH]; intros [|y b]; try discriminate. cbn [all2]. apply wbind_free; [apply H|].
  intros []; [apply IH|discriminate].
Qed.
Lemma eqv_free h n : forall bits a b, eqv h n bits a b <> Busy.
Proof.
  induction n as [|n IH]; intros bits a b; [discriminate|].
  destruct a as [| | | | | |l|l|[u q fi body c p|g]|d c], b as [| | | | | |l'|l'|[u' q' fi' body' c' p'|g']|d' c']; try discriminate.
  - cbn [eqv]. destruct (Nat.eqb _ _); [|discriminate]. apply all2_free, IH.
  - cbn [eqv]. destruct (Nat.eqb _ _); [|discriminate].
    generalize (dict_entries h l). induction l0 as [|[k v] d IHd]; [discriminate|]. cbn.
    apply wbind_free; [apply find_free; intros; apply IH|]. intros [w|]; [|discriminate].
    apply wbind_free; [apply IH|]. intros []; [exact IHd|discriminate].
  - cbn [eqv]. destruct (_ && _)%bool; [|discriminate]. apply all2_free. intros x y. apply wbind_free; [apply IH|discriminate].
  - cbn [eqv]. destruct (bytes_eqb _ _); [apply IH|discriminate].
Qed.
Lemma fold_free {A} (f : A -> walk unit) l : (forall x, f x <> Busy) -> forall w : walk unit, w <> Busy ->
  fold_left (fun acc x => wbind acc (fun _ => f x)) l w <> Busy.
Proof. intros H. induction l as [|x l IH]; intros w N; [exact N|]. cbn [fold_left]. apply IH, wbind_free; auto. Qed.
Lemma hash_free h n : forall v, hash_walk h n LockNone v <> Busy.
Proof.
  induction n as [|n IH]; intros v; [discriminate|]. destruct v; try discriminate; cbn [hash_walk arr_locked dict_locked].
  - apply fold_free; [apply IH|discriminate].
  - apply (fold_free (fun e : value * value => wbind (hash_walk h n LockNone (fst e)) (fun _ => hash_walk h n LockNone (snd e)))); [|discriminate].
    intros x. apply wbind_free; auto.
  - apply IH.
Qed.
Lemma get_free h n l k : dict_get h n l k <> Busy.
Proof. unfold dict_get. apply wbind_free; [apply hash_free|]. intros _. apply find_free. intros. apply eqv_free. Qed.
Lemma get_name h n l k : dict_get h (S n) l (VStr k) = Known (field_of (dict_entries h l) k).
Proof.
  unfold dict_get. cbn [hash_walk wbind]. generalize (dict_entries h l). induction l0 as [|[x v] d IH]; [reflexivity|].
  cbn [find_entry]. destruct x; cbn [eqv wbind field_of]; try exact IH. destruct (bytes_eqb k s); [reflexivity|exact IH].
Qed.
Lemma ends_walk {A} (w : nat -> walk A) s (r : outcome state A) :
  ends (fun n => of_walk (w n) s) r <->
  (exists n a, w n = Known a /\ r = Val a s) \/ (exists n, w n = Busy /\ r = Crash CBorrow).
Proof.
  split.
  - intros [N [n E]]. destruct (w n) as [a| |] eqn:H; cbn in E; subst r; [left; eauto|right; eauto|congruence].
  - intros [(n & a & E & ->)|(n & E & ->)]; (split; [discriminate|exists n; now rewrite E]).
Qed.

Lemma nth_element {A} (l : list A) z x : nth_z l z = Some x <-> element l z x.
Proof.
  unfold nth_z. split.
  - destruct (z <? 0)%Z eqn:Hz; [discriminate|]. intros H. apply nth_error_split in H as (b & a & -> & L).
    replace z with (Z.of_nat (length b)); [now apply el with (after := a)|lia].
  - intros [b y a ->]. rewrite (proj2 (Z.ltb_ge _ _)) by lia. rewrite Nat2Z.id, nth_error_app2, Nat.sub_diag by lia. reflexivity.
Qed.
Lemma nth_none {A} (l : list A) z : nth_z l z = None <-> (z < 0 \/ Z.of_nat (length l) <= z)%Z.
Proof.
  unfold nth_z. destruct (z <? 0)%Z eqn:Hz; [split; [lia|reflexivity]|]. rewrite nth_error_None. lia.
Qed.

Lemma element_fun {A} (l : list A) z x y : element l z x -> element l z y -> x = y.
Proof. rewrite <- !nth_element. congruence. Qed.
Lemma element_out {A} (l : list A) z x : element l z x -> ~ (z < 0 \/ Z.of_nat (length l) <= z)%Z.
Proof. rewrite <- nth_element, <- nth_none. congruence. Qed.
Ltac indexing := match goal with
  | A : element ?l ?z ?x, B : element ?l ?z ?y |- _ => rewrite (element_fun l z x y A B); split; [discriminate|reflexivity]
  | A : element ?l ?z ?x, B : (?z < 0 \/ Z.of_nat (length ?l) <= ?z)%Z |- _ => destruct (element_out l z x A B)
  | A : forall z, VInt ?y <> VInt z |- _ => destruct (A y); reflexivity
  | _ => split; [discriminate|reflexivity]
  end.
Lemma ends_access_const k obj op field fp s (r : outcome state value) :
  (forall n, access n obj op field fp s = access k obj op field fp s) ->
  ends (fun n => access n obj op field fp s) r <-> r <> Fuel /\ access k obj op field fp s = r.
Proof. intros H. rewrite (ends_ext _ (fun _ => access k obj op field fp s)) by exact H. apply ends_const. Qed.
Lemma string_cases v : (exists t, v = VStr t) \/ (forall t, v <> VStr t).
Proof. destruct v; try (right; discriminate); left; eauto. Qed.
Lemma access_law op fp obj field s (r : outcome state value) :
  ends (fun n => access n obj op field fp s) r <->
  (exists v, reads_field op fp (st_heap s) obj field (inl v) /\ r = Val v s) \/
  (exists e, reads_field op fp (st_heap s) obj field (inr e) /\ r = Pan e s).
Proof.
  destruct obj as [|b|c|z|f|t|l|l|g|d c]; try (rewrite (ends_access_const 0) by reflexivity; cbn; split;
    [intros [_ <-]; right; eexists; split; [now apply rf_no_object|reflexivity]
    |intros [(v & H & ->)|(e & H & ->)]; inversion H; subst; try contradiction; (split; [discriminate|reflexivity])]).
  - (* string *)
    destruct field as [|b|c|z|f|t'|l'|l'|g|d c]; try (rewrite (ends_access_const 0) by reflexivity; cbn; split;
      [intros [_ <-]; right; eexists; split; [apply rf_no_index; [exact I|discriminate]|reflexivity]
      |intros [(v & H & ->)|(e & H & ->)]; inversion H; subst; try contradiction; (split; [discriminate|reflexivity])]).
    rewrite (ends_access_const 0) by reflexivity. unfold access, bind, get. destruct (nth_z t z) as [x|] eqn:N; cbn [option_map].
    + apply nth_element in N. split.
      * intros [_ <-]. left. exists (VByte x). split; [now apply rf_string|reflexivity].
      * intros [(v & H & ->)|(e & H & ->)]; inversion H; subst; try contradiction; indexing.
    + apply nth_none in N. split.
      * intros [_ <-]. right. eexists. split; [apply rf_string_out; exact N|reflexivity].
      * intros [(v & H & ->)|(e & H & ->)]; inversion H; subst; try contradiction; indexing.
  - (* array *)
    destruct field as [|b|c|z|f|t'|l'|l'|g|d c]; try (rewrite (ends_access_const 0) by reflexivity; cbn; split;
      [intros [_ <-]; right; eexists; split; [apply rf_no_index; [exact I|discriminate]|reflexivity]
      |intros [(v & H & ->)|(e & H & ->)]; inversion H; subst; try contradiction; (split; [discriminate|reflexivity])]).
    rewrite (ends_access_const 0) by reflexivity. unfold access, bind, get. destruct (nth_z (arr_get (st_heap s) l) z) as [x|] eqn:N; cbn [option_map].
    + apply nth_element in N. split.
      * intros [_ <-]. left. exists x. split; [now apply rf_array|reflexivity].
      * intros [(v & H & ->)|(e & H & ->)]; inversion H; subst; try contradiction; indexing.
    + apply nth_none in N. split.
      * intros [_ <-]. right. eexists. split; [apply rf_array_out; exact N|reflexivity].
      * intros [(v & H & ->)|(e & H & ->)]; inversion H; subst; try contradiction; indexing.
  - (* dict *)
    unfold access. rewrite (ends_ext _ (fun n => bind (of_walk (dict_get (st_heap s) n l field)) (fun r => match r with Some v => ret v | None => throw (PIndexOutOfBounds field fp) end) s)) by reflexivity.
    rewrite (ends_bind (fun n => of_walk (dict_get (st_heap s) n l field)) (fun _ r => match r with Some v => ret v | None => throw (PIndexOutOfBounds field fp) end)).
    2: { intros n m L. now apply of_walk_le, dict_get_le. } 2: { intros [v|] s1; apply mono_const. }
    assert (G : forall n x, dict_get (st_heap s) n l field = Known x ->
       reads_field op fp (st_heap s) (VDict l) field (match x with Some v => inl v | None => inr (PIndexOutOfBounds field fp) end)).
    { intros n x E. destruct (string_cases field) as [[k ->]|N].
      - assert (E' : Known x = Known (field_of (dict_entries (st_heap s) l) k)).
        { destruct (dict_get_le (st_heap s) n (S n) l (VStr k) ltac:(lia)) as [K|K]; [congruence|]. rewrite get_name in K. congruence. }
        inversion E'; subst. destruct (field_of _ k) eqn:F; [now apply rf_name|now apply rf_no_name].
      - destruct x; [eapply rf_key|eapply rf_no_key]; eauto. }
    split.
    + intros [(x & s1 & E & K)|(o & E & F)].
      * apply ends_walk in E as [(n & a & E & [= -> ->])|(n & E & [=])].
        specialize (G n a E). destruct a as [v|]; apply ends_const in K as [_ <-]; [left|right]; eexists; split; eauto.
      * apply ends_walk in E as [(n & a & E & ->)|(n & E & ->)]; [inversion F|]. now apply get_free in E.
    + intros H. left.
      assert (K : exists n x, dict_get (st_heap s) n l field = Known x /\
        r = match x with Some v => Val v s | None => Pan (PIndexOutOfBounds field fp) s end).
      { destruct H as [(v & H & ->)|(e & H & ->)]; inversion H; subst; try contradiction.
        - exists 1. eexists. rewrite get_name. split; [reflexivity|]. match goal with E : field_of _ _ = _ |- _ => now rewrite E end.
        - exists n. eexists. split; [eassumption|reflexivity].
        - exists 1. eexists. rewrite get_name. split; [reflexivity|]. match goal with E : field_of _ _ = _ |- _ => now rewrite E end.
        - exists n. eexists. split; [eassumption|reflexivity]. }
      destruct K as (n & x & E & ->). exists x, s. split; [apply ends_walk; left; eauto|].
      destruct x; now_ends.
  - (* error *)
    assert (D : forall s1, bytes_eqb s1 (bs "description") = true <-> s1 = bs "description") by (intros; apply LexerProofs.bytes_eqb_eq).
    rewrite (ends_access_const 0) by reflexivity. unfold access, bind, get. destruct (error_get d c field) as [v|] eqn:N.
    + assert (G : forall x, reads_field op fp (st_heap s) (VErr d c) field x <-> x = inl v).
      { destruct field; try discriminate. cbn [error_get] in N.
        destruct (bytes_eqb s0 (bs "description")) eqn:B1; [|destruct (bytes_eqb s0 (bs "context")) eqn:B2; [|discriminate]].
        - apply LexerProofs.bytes_eqb_eq in B1. inversion N; subst. intros x. split.
          + intros H. inversion H; subst; try contradiction; auto; try congruence; try discriminate.
          + intros ->. apply rf_description.
        - apply LexerProofs.bytes_eqb_eq in B2. inversion N; subst. intros x. split.
          + intros H. inversion H; subst; try contradiction; auto; try congruence; try discriminate.
          + intros ->. apply rf_context. }
      split.
      * intros [_ <-]. left. exists v. split; [now apply G|reflexivity].
      * intros [(w & H & ->)|(e & H & ->)]; apply G in H; inversion H; subst. split; [discriminate|reflexivity].
    + assert (G : forall x, reads_field op fp (st_heap s) (VErr d c) field x <-> x = inr (PIndexOutOfBounds field fp)).
      { assert (N1 : field <> VStr (bs "description")) by (intros ->; discriminate).
        assert (N2 : field <> VStr (bs "context")) by (intros ->; discriminate).
        intros x. split.
        - intros H. inversion H; subst; try contradiction; auto.
        - intros ->. now apply rf_no_error_field. }
      split.
      * intros [_ <-]. right. eexists. split; [now apply G|reflexivity].
      * intros [(w & H & ->)|(e & H & ->)]; apply G in H; inversion H; subst. split; [discriminate|reflexivity].
Qed.

Lemma access_mono op fp obj field s : mono (fun n => access (W:=W) n obj op field fp s).
Proof. intros n m L. eapply access_le; exact L. Qed.
Theorem access_expr_law u o f p s r :
  evaluates X O u (XAccess o f p) s r <->
  strictly X O u [o; f] (accesses (at_ u (expr_pos o)) (at_ u (expr_pos f))) s r.
Proof.
  rewrite evaluates_step.
  rewrite (ends_ext _ (fun n => bind (ev_expr (interp X O n) u o) (fun '(fo, op, _) => match fo with Reg obj =>
      (fun n obj op => bind (ev_expr (interp X O n) u f) (fun '(ff, fp, _) => match ff with Reg field =>
        (fun n field fp => bind (access n obj op field fp) (fun v => ret (Reg v))) n field fp | f => ret f end)) n obj op | f => ret f end) s)).
  2: { intros n. cbn [eval_expr]. unfold bind. destruct (ev_expr _ u o s) as [[[[v|v|] q] ob] s1| | | |]; try reflexivity.
       destruct (ev_expr _ u f s1) as [[[[w|w|] q'] ob'] s2| | | |]; try reflexivity.
       destruct (access n v q w q' s2); reflexivity. }
  assert (M : forall obj op v p s1, mono (fun n => bind (access (W:=W) n obj op v p) (fun v => ret (Reg v)) s1)).
  { intros. apply mono_bind; [intros; apply access_mono|intros; apply mono_const]. }
  apply ends_operand.
  - intros v q s1. apply mono_of_flow. intros; apply M.
  - intros obj s1. cbn beta. apply ends_operand; [intros; apply M|].
    intros field s2. cbn beta. rewrite strict_none.
    rewrite (ends_bind (fun n => access n obj (at_ u (expr_pos o)) field (at_ u (expr_pos f))) (fun _ v => ret (Reg v))); [|apply access_mono|intros; apply mono_const].
    split.
    + intros [(v & s3 & E & K)|(x & E & F)].
      * apply access_law in E as [(w & E & [= -> ->])|(w & E & [=])]. apply ends_const in K as [_ <-]. now constructor.
      * apply access_law in E as [(w & E & ->)|(w & E & ->)]; inversion F; subst. now constructor.
    + intros H. inversion H; subst.
      * left. exists v, s2. split; [apply access_law; left; eauto|]. now_ends.
      * right. exists (Pan e s2). split; [apply access_law; right; eauto|]. constructor.
Qed.

Lemma ends_pure (m : M (W:=W) flow) s r : ends (fun _ => m s) r <-> r <> Fuel /\ m s = r.
Proof. apply ends_const. Qed.
Theorem binary_law u l op r p s x : lazy op = false ->
  evaluates X O u (XBinary l op r p) s x <->
  strictly X O u [l; r] (binary op (at_ u p) (at_ u (expr_pos l)) (at_ u (expr_pos r))) s x.
Proof.
  intros Z. rewrite (evaluates_plain u (XBinary l op r p) p _ s x (fun n => eq_refl)).
  pose (k := fun n a lp b rp => 
      match op with
      | BPlus | BMinus | BTimes | BDiv | BMod => of_sum (W:=W) (arithmetic_op op (at_ u p) a lp b rp)
      | BGreater | BGreaterEquals | BLower | BLowerEquals => of_sum (ord_op op a lp b rp)
      | BEquals => bind get (fun s => bind (of_walk (eqv (st_heap s) n false a b)) (fun e => ret (VBool e)))
      | BNotEquals => bind get (fun s => bind (of_walk (eqv (st_heap s) n false a b)) (fun e => ret (VBool (negb e))))
      | _ => of_sum (concat_op a lp b rp)
      end).
  rewrite (ends_ext _ (fun n => bind (ev_expr (interp X O n) u l) (fun '(fl, lp, _) => match fl with Reg a =>
      (fun n a lp => bind (ev_expr (interp X O n) u r) (fun '(fr, rp, _) => match fr with Reg b =>
        (fun n b rp => bind (k n a lp b rp) (fun v => ret (Reg v))) n b rp | f => ret f end)) n a lp | f => ret f end) s)).
  2: { intros n. unfold eval_binary, k. destruct op; try discriminate; reflexivity. }
  assert (M : forall a lp b rp s1, mono (fun n => bind (k n a lp b rp) (fun v => ret (Reg v)) s1)).
  { intros. apply mono_bind; [|intros; apply mono_const]. intros s2. unfold k.
    destruct op; try discriminate; try apply mono_const; intros n m L; unfold bind, get;
      (destruct (of_walk_le (W:=W) _ _ (eqv_le (st_heap s2) n m L false a b) s2) as [-> | ->]; [now left|now right]). }
  apply ends_operand.
  - intros v q s1. apply mono_of_flow. intros; apply M.
  - intros a s1. cbn beta. apply ends_operand; [intros; apply M|].
    intros b s2. cbn beta. rewrite strict_none.
    assert (A : arithmetic op = true -> k = fun n a lp b rp => of_sum (arithmetic_op op (at_ u p) a lp b rp)) by (destruct op; try discriminate; reflexivity).
    assert (W1 : forall g, (forall n, bind (k n a (at_ u (expr_pos l)) b (at_ u (expr_pos r))) (fun v => ret (Reg v)) s2 =
        bind (of_walk (eqv (st_heap s2) n false a b)) (fun e => ret (Reg (VBool (g e)))) s2) ->
      ends (fun n => bind (k n a (at_ u (expr_pos l)) b (at_ u (expr_pos r))) (fun v => ret (Reg v)) s2) x <->
      exists n e, eqv (st_heap s2) n false a b = Known e /\ x = Val (Reg (VBool (g e))) s2).
    { intros g E. rewrite (ends_ext _ _ _ E). split.
      - intros [N [n <-]]. unfold bind in N |- *. destruct (eqv (st_heap s2) n false a b) as [e| |] eqn:Q; cbn; [eauto|now apply eqv_free in Q|now destruct N].
      - intros (n & e & Q & ->). split; [discriminate|]. exists n. unfold bind. now rewrite Q. }
    assert (W2 : forall o : value + panic, (forall n, k n a (at_ u (expr_pos l)) b (at_ u (expr_pos r)) = of_sum o) ->
      ends (fun n => bind (k n a (at_ u (expr_pos l)) b (at_ u (expr_pos r))) (fun v => ret (Reg v)) s2) x <->
      x = match o with inl v => Val (Reg v) s2 | inr e => Pan e s2 end).
    { intros o E. rewrite (ends_ext _ (fun _ => bind (of_sum o) (fun v => ret (Reg v)) s2)) by (intros; now rewrite E).
      rewrite ends_const. destruct o; (split; [intros [_ <-]; reflexivity|intros ->; split; [discriminate|reflexivity]]). }
    destruct (arithmetic op) eqn:AR; [|destruct op; try discriminate].
    + rewrite (W2 (arithmetic_op op (at_ u p) a (at_ u (expr_pos l)) b (at_ u (expr_pos r)))) by now rewrite A.
      split.
      * intros ->. destruct (arithmetic_op _ _ _ _ _ _) eqn:E; [now apply bi_arithmetic|now apply bi_arithmetic_panic].
      * intros H. inversion H; subst; try discriminate; try (now rewrite H1); try (destruct op; try discriminate; contradiction).
        all: match goal with E : arithmetic_op _ _ _ _ _ _ = _ |- _ => now rewrite E end.
    + rewrite (W1 (fun e => e)) by (intros; unfold k, bind, get; destruct (of_walk _ s2); reflexivity). split.
      * intros (n & e & Q & ->). now apply bi_equals with n.
      * intros H. inversion H; subst; try discriminate; try contradiction. eauto.
    + rewrite (W1 negb) by (intros; unfold k, bind, get; destruct (of_walk _ s2); reflexivity). split.
      * intros (n & e & Q & ->). now apply bi_differs with n.
      * intros H. inversion H; subst; try discriminate; try contradiction. eauto.
    + rewrite (W2 (ord_op BGreater a (at_ u (expr_pos l)) b (at_ u (expr_pos r)))) by reflexivity. split.
      * intros ->. destruct (ord_op _ _ _ _ _) eqn:E; [now apply bi_order|now apply bi_order_panic].
      * intros H. inversion H; subst; try discriminate; match goal with E : ord_op _ _ _ _ _ = _ |- _ => now rewrite E end.
    + rewrite (W2 (ord_op BGreaterEquals a (at_ u (expr_pos l)) b (at_ u (expr_pos r)))) by reflexivity. split.
      * intros ->. destruct (ord_op _ _ _ _ _) eqn:E; [now apply bi_order|now apply bi_order_panic].
      * intros H. inversion H; subst; try discriminate; match goal with E : ord_op _ _ _ _ _ = _ |- _ => now rewrite E end.
    + rewrite (W2 (ord_op BLower a (at_ u (expr_pos l)) b (at_ u (expr_pos r)))) by reflexivity. split.
      * intros ->. destruct (ord_op _ _ _ _ _) eqn:E; [now apply bi_order|now apply bi_order_panic].
      * intros H. inversion H; subst; try discriminate; match goal with E : ord_op _ _ _ _ _ = _ |- _ => now rewrite E end.
    + rewrite (W2 (ord_op BLowerEquals a (at_ u (expr_pos l)) b (at_ u (expr_pos r)))) by reflexivity. split.
      * intros ->. destruct (ord_op _ _ _ _ _) eqn:E; [now apply bi_order|now apply bi_order_panic].
      * intros H. inversion H; subst; try discriminate; match goal with E : ord_op _ _ _ _ _ = _ |- _ => now rewrite E end.
    + rewrite (W2 (concat_op a (at_ u (expr_pos l)) b (at_ u (expr_pos r)))) by reflexivity. split.
      * intros ->. destruct (string_cases a) as [[t ->]|N].
        -- destruct (string_cases b) as [[t' ->]|N]; [now apply bi_concat|].
           replace (concat_op (VStr t) (at_ u (expr_pos l)) b (at_ u (expr_pos r))) with (inr value (PTypeError b (bs "string") (at_ u (expr_pos r)))); [now apply bi_concat_right|].
           destruct b; try reflexivity. now destruct (N s0).
        -- replace (concat_op a (at_ u (expr_pos l)) b (at_ u (expr_pos r))) with (inr value (PTypeError a (bs "string") (at_ u (expr_pos l)))); [now apply bi_concat_left|].
           destruct a; try reflexivity. now destruct (N s0).
      * intros H. inversion H; subst; try discriminate; try contradiction; try reflexivity.
        -- destruct a; try reflexivity. exfalso; absurd_kind.
        -- destruct b; try reflexivity. exfalso; absurd_kind.
Qed.

(** ** Assignments *)
Lemma set_split {A} (before : list A) x after y : list_set (before ++ x :: after) (length before) y = before ++ y :: after.
Proof. induction before as [|z b IH]; [reflexivity|]. cbn. now rewrite IH. Qed.
Lemma nth_split {A} (before : list A) x after : nth_error (before ++ x :: after) (length before) = Some x.
Proof. rewrite nth_error_app2, Nat.sub_diag by lia. reflexivity. Qed.
Lemma split_fun {A} (b : list A) : forall x a b' x' a', b ++ x :: a = b' ++ x' :: a' -> length b = length b' -> b = b' /\ x = x' /\ a = a'.
Proof.
  induction b as [|y b IH]; intros x a [|y' b'] x' a' H L; try discriminate; cbn in *.
  - now inversion H.
  - inversion H as [[H1 H2]]. inversion L as [L1]. destruct (IH _ _ _ _ _ H2 L1) as (-> & -> & ->). auto.
Qed.
Lemma store_law ix v (s s1 : state) : store ix v s = Val tt s1 <-> assigned ix v s s1.
Proof.
  unfold store. split.
  - destruct (nth_error (st_stack s) ix) as [[id old|c]|] eqn:E; intros H; inversion H; subst.
    + apply nth_error_split in E as (b & a & E & L). rewrite E, <- L, set_split. now apply as_own with (old := old).
    + now apply as_shared.
  - intros [id old b a E L|c E].
    + rewrite E, <- L, nth_split, set_split. reflexivity.
    + now rewrite E.
Qed.
Lemma store_crash ix v (s : state) : length (st_stack s) <= ix <-> store ix v s = Crash CSlot.
Proof.
  unfold store. rewrite <- nth_error_None. destruct (nth_error (st_stack s) ix) as [[]|]; split; congruence.
Qed.
Lemma store_cases ix v (s : state) : (exists s1, store ix v s = Val tt s1) \/ store ix v s = Crash CSlot.
Proof. unfold store. destruct (nth_error (st_stack s) ix) as [[]|]; eauto. Qed.

Theorem variable_law u ix p s r :
  evaluates X O u (XIdent ix p) s r <->
  r = match nth_error (st_stack s) ix with
      | Some (Regular _ v) => Val (Reg v) s
      | Some (Closed c) => Val (Reg (nth c (h_cells (st_heap s)) VNil)) s
      | None => Crash CSlot
      end.
Proof.
  rewrite (evaluates_plain u (XIdent ix p) p _ s r (fun n => eq_refl)). rewrite ends_const. unfold bind, fetch, ret.
  destruct (nth_error (st_stack s) ix) as [[]|]; (split; [intros [_ <-]; reflexivity|intros ->; split; [discriminate|reflexivity]]).
Qed.
Theorem assign_variable_law u ix q e s r :
  executes X O u (XAssign (LIdent ix q) e) s r <-> sets_variable X O u ix e s r.
Proof.
  rewrite executes_step. cbn [eval_statement].
  rewrite (ends_ext _ (fun n => bind (ev_expr (interp X O n) u e)
    (fun '(f, cp, _) => match f with Reg v => (fun (n : nat) v (cp : spos) => bind (store ix v) (fun _ => ret (Reg VNil))) n v cp | f => ret f end) s)) by reflexivity.
  rewrite ends_value. 2: { intros v p s1. apply mono_const. }
  split.
  - intros [(v & s1 & E & K)|[E F]]; [|now apply sv_stop]. apply ends_const in K as [_ <-]. unfold bind.
    destruct (store_cases ix v s1) as [[s2 H]|H]; rewrite H.
    + apply store_law in H. eapply sv_value; eassumption.
    + apply store_crash in H. eapply sv_no_slot; eassumption.
  - intros H. inversion H; subst; [left|left|right; auto]; (do 2 eexists; split; [eassumption|]); apply ends_const; (split; [discriminate|]); unfold bind.
    + apply store_law in H1. now rewrite H1.
    + apply (store_crash ix v) in H1. now rewrite H1.
Qed.

Lemma assign_field_mono obj op field fp v p s : mono (fun n => assign_field (W:=W) n obj op field fp v p s).
Proof.
  intros n m L. unfold assign_field, bind, get. destruct obj; try now right.
  destruct (of_walk_le (W:=W) _ _ (dict_put_le (st_heap s) n m l field v L) s) as [-> | ->]; [now left|now right].
Qed.
Lemma int_cases v : (exists z, v = VInt z) \/ (forall z, v <> VInt z).
Proof. destruct v; try (right; discriminate); left; eauto. Qed.
Ltac no_int := match goal with A : forall z, VInt ?y <> VInt z |- _ => destruct (A y); reflexivity end.
Lemma assign_field_law op fp p v obj field (s : state) (r : result) :
  ends (fun n => bind (assign_field n obj op field fp v p) (fun _ => ret (Reg VNil)) s) r <->
  writes_field op fp p v s obj field r.
Proof.
  assert (C : forall w, (forall n, assign_field n obj op field fp v p s = w) -> 
    ends (fun n => bind (assign_field n obj op field fp v p) (fun _ => ret (Reg VNil)) s) r <->
    match w with Val _ s1 => r = Val (Reg VNil) s1 | Pan e s1 => r = Pan e s1 | Exit c s1 => r = Exit c s1 | Crash c => r = Crash c | Fuel => False end).
  { intros w H. rewrite (ends_ext _ (fun _ => match w with Val _ s1 => Val (Reg VNil) s1 | Pan e s1 => Pan e s1 | Exit c s1 => Exit c s1 | Crash c => Crash c | Fuel => Fuel end)).
    2: { intros n. unfold bind. rewrite H. destruct w; reflexivity. }
    rewrite ends_const. destruct w; split; try (intros [_ <-]; reflexivity); try (intros ->; split; [discriminate|reflexivity]).
    - intros [N E]. congruence.
    - contradiction. }
  destruct obj as [|b|c|z|f|t|l|l|g|d c]; try (rewrite (C (Pan _ s) (fun n => eq_refl)); split;
    [intros ->; now constructor|intros H; inversion H; subst; try contradiction; reflexivity]).
  - (* array *)
    destruct (int_cases field) as [[z ->]|N].
    + destruct (Z.of_nat (length (arr_get (st_heap s) l)) <=? z)%Z eqn:Z1.
      * rewrite (C (Pan (PIndexOutOfBounds (VInt z) fp) s)). 2: { intros n. unfold assign_field, bind, get. now rewrite Z1. }
        apply Z.leb_le in Z1. split; [intros ->; apply wf_array_above; lia|]. intros H; inversion H; subst; try contradiction; try reflexivity; try lia.
        { rewrite H2, app_length in Z1. cbn [length] in Z1. lia. } { no_int. }
      * destruct (z <? 0)%Z eqn:Z2.
        { rewrite (C (Pan (PIndexOutOfBounds (VInt z) p) s)). 2: { intros n. unfold assign_field, bind, get. now rewrite Z1, Z2. }
          apply Z.leb_gt in Z1. apply Z.ltb_lt in Z2. split; [intros ->; apply wf_array_below; lia|]. intros H; inversion H; subst; try contradiction; try reflexivity; try lia. no_int. }
        { rewrite (C (Val tt (set_heap s (arr_set (st_heap s) l (list_set (arr_get (st_heap s) l) (Z.to_nat z) v))))).
          2: { intros n. unfold assign_field, bind, get. now rewrite Z1, Z2. }
          apply Z.leb_gt in Z1. apply Z.ltb_ge in Z2. assert (E : exists x, nth_error (arr_get (st_heap s) l) (Z.to_nat z) = Some x).
          { destruct (nth_error _ _) eqn:E; [eauto|]. apply nth_error_None in E. lia. }
          destruct E as [x E]. apply nth_error_split in E as (b & a & E & L).
          assert (z = Z.of_nat (length b)) by lia. subst z. rewrite Nat2Z.id, E, set_split. split.
          - intros ->. now apply wf_array with (old := x).
          - intros H; inversion H; subst; try contradiction; try reflexivity; try lia.
            + match goal with Q : arr_get _ _ = ?b' ++ _ :: _, L : Z.of_nat (length ?b') = Z.of_nat (length b) |- _ =>
                rewrite E in Q; apply Nat2Z.inj in L; apply split_fun in Q as (-> & -> & ->); [reflexivity|now symmetry] end.
            + no_int. }
    + rewrite (C (Pan (PTypeError field (bs "int") fp) s)). 2: { intros n. destruct field; try reflexivity. now destruct (N z). }
      split; [intros ->; now apply wf_no_index|]. intros H; inversion H; subst; try contradiction; try reflexivity; now destruct (N _ eq_refl).
  - (* dict *)
    unfold assign_field. rewrite (ends_ext _ (fun n => bind (of_walk (dict_put (st_heap s) n l field v)) (fun d => bind (put (set_heap s (dict_set (st_heap s) l d))) (fun _ => ret (Reg VNil))) s)).
    2: { intros n. unfold bind, get. destruct (of_walk _ s); reflexivity. }
    rewrite (ends_bind (fun n => of_walk (dict_put (st_heap s) n l field v)) (fun _ d => bind (put (set_heap s (dict_set (st_heap s) l d))) (fun _ => ret (Reg VNil)))).
    2: { intros n m L. now apply of_walk_le, dict_put_le. } 2: { intros d s1. apply mono_const. }
    split.
    + intros [(x & s1 & E & K)|(o & E & F)].
      * apply ends_walk in E as [(n & a & E & [= -> ->])|(n & E & [=])]. apply ends_const in K as [_ <-]. now apply wf_dict with n.
      * apply ends_walk in E as [(n & a & E & ->)|(n & E & ->)]; inversion F; subst. now apply wf_dict_itself with n.
    + intros H. inversion H; subst; try contradiction.
      * left. exists d, s. split; [apply ends_walk; left; eauto|]. now_ends.
      * right. exists (Crash CBorrow). split; [apply ends_walk; right; eauto|constructor].
Qed.
Theorem assign_field_statement_law u o f q e s r :
  executes X O u (XAssign (LAccess o f q) e) s r <-> strictly X O u [e; o; f] (sets_field u o f q) s r.
Proof.
  rewrite executes_step. cbn [eval_statement].
  assert (M : forall v obj op field fp s1, mono (fun n => bind (assign_field (W:=W) n obj op field fp v (at_ u q)) (fun _ => ret (Reg VNil)) s1)).
  { intros. apply mono_bind; [intros; apply assign_field_mono|intros; apply mono_const]. }
  apply (ends_operand u e [o; f] (fun n v _ => bind (ev_expr (interp X O n) u o) (fun '(fo, op, _) => match fo with Reg obj =>
    bind (ev_expr (interp X O n) u f) (fun '(ff, fp, _) => match ff with Reg field => bind (assign_field n obj op field fp v (at_ u q)) (fun _ => ret (Reg VNil)) | f => ret f end) | f => ret f end))).
  - intros v p s1. apply (mono_of_flow u o (fun n obj op => bind (ev_expr (interp X O n) u f) (fun '(ff, fp, _) => match ff with Reg field => bind (assign_field n obj op field fp v (at_ u q)) (fun _ => ret (Reg VNil)) | f => ret f end))).
    intros obj op s2. apply (mono_of_flow u f (fun n field fp => bind (assign_field n obj op field fp v (at_ u q)) (fun _ => ret (Reg VNil)))). intros; apply M.
  - intros v s1. apply (ends_operand u o [f] (fun n obj op => bind (ev_expr (interp X O n) u f) (fun '(ff, fp, _) => match ff with Reg field => bind (assign_field n obj op field fp v (at_ u q)) (fun _ => ret (Reg VNil)) | f => ret f end))).
    + intros obj op s2. apply (mono_of_flow u f (fun n field fp => bind (assign_field n obj op field fp v (at_ u q)) (fun _ => ret (Reg VNil)))). intros; apply M.
    + intros obj s2. apply (ends_operand u f [] (fun n field fp => bind (assign_field n obj (at_ u (expr_pos o)) field fp v (at_ u q)) (fun _ => ret (Reg VNil)))); [intros; apply M|].
      intros field s3. rewrite strict_none, assign_field_law. split; [now constructor|]. intros H. now inversion H.
Qed.

(** ** for *)
Section For.
Variables (u : uinfo) (ix : slot) (g : func) (p : spos) (b : list xstatement).
Definition after_body n (f : flow) : M (W:=W) flow :=
  match f with Reg _ => ev_for (interp X O n) u ix g p b | Ret v => ret (Ret v) | Brk => ret (Reg VNil) end.
Definition after_call n (d : loc) (s1 : state) : result :=
  match field_of (dict_entries (st_heap s1) d) (bs "finished") with
  | None => Pan (PIndexOutOfBounds (VStr (bs "finished")) p) s1
  | Some (VBool true) => Val (Reg VNil) s1
  | Some (VBool false) =>
      match field_of (dict_entries (st_heap s1) d) (bs "value") with
      | None => Pan (PIndexOutOfBounds (VStr (bs "value")) p) s1
      | Some x => bind (store ix x) (fun _ => bind (eval_block (interp X O n) u b) (after_body n)) s1
      end
  | Some v => Pan (PTypeError v (bs "bool") p) s1
  end.
Lemma after_call_mono d s1 : mono (fun n => after_call n d s1).
Proof.
  intros n m L. unfold after_call. destruct (field_of _ _) as [[|[]| | | | | | | |]|]; try now right.
  destruct (field_of _ _) as [x|]; [|now right]. apply mle_bind; [apply mle_refl|]. intros _.
  apply mle_bind; [apply block_le, (R n m L)|]. intros [v|v|]; try apply mle_refl. apply (R n m L).
Qed.
Lemma for_step n s : ev_for (interp X O (S (S n))) u ix g p b s =
  match ev_call (interp X O (S n)) VNil g (length (st_args s)) p s with
  | Val (VDict d) s1 => after_call (S n) d s1
  | Val v s1 => Pan (PTypeError v (bs "dict") p) s1
  | Pan e s1 => Pan e s1
  | Exit c s1 => Exit c s1
  | Crash c => Crash c
  | Fuel => Fuel
  end.
Proof.
  change (ev_for (interp X O (S (S n)))) with (eval_for (interp X O (S n)) (S n)).
  set (E := interp X O (S n)). unfold eval_for, bind at 1, get. unfold bind at 1.
  destruct (ev_call E VNil g (length (st_args s)) p s) as [v s1| | | |]; try reflexivity.
  destruct v; try reflexivity.
  unfold after_call, bind. rewrite !get_name. cbn [of_walk ret].
  destruct (field_of _ (bs "finished")) as [[|[]| | | | | | | |]|]; try reflexivity.
  unfold get, ret; cbv beta iota; rewrite get_name; cbn [of_walk]; unfold ret; cbv beta iota. destruct (field_of _ (bs "value")) as [x|]; [|reflexivity].
  fold E. unfold ret. destruct (store ix x s1) as [[] s2| | | |]; reflexivity.
Qed.
Lemma for_ends s r :
  ends (fun n => ev_for (interp X O n) u ix g p b s) r <->
  (exists d s1, calls X O VNil g (length (st_args s)) p s (Val (VDict d) s1) /\ ends (fun n => after_call n d s1) r) \/
  (exists v s1, calls X O VNil g (length (st_args s)) p s (Val v s1) /\ (forall d, v <> VDict d) /\ r = Pan (PTypeError v (bs "dict") p) s1) \/
  (exists o, calls X O VNil g (length (st_args s)) p s o /\ fails o r).
Proof.
  rewrite <- (ends_shift _ _ (mono_for u ix g p b s)).
  rewrite <- (ends_shift (fun n => ev_for (interp X O (S n)) u ix g p b s)).
  2: { intros n m L. apply (mono_for u ix g p b s). lia. }
  rewrite (ends_ext _ _ _ (fun n => for_step n s)).
  rewrite (ends_shift (fun n => match ev_call (interp X O n) VNil g (length (st_args s)) p s with
    | Val (VDict d) s1 => after_call n d s1 | Val v s1 => Pan (PTypeError v (bs "dict") p) s1 | Pan e s1 => Pan e s1 | Exit c s1 => Exit c s1 | Crash c => Crash c | Fuel => Fuel end)).
  2: { intros n m L. destruct (mono_call VNil g (length (st_args s)) p s n m L) as [E|E]; rewrite E; [now left|].
       destruct (ev_call (interp X O m) VNil g (length (st_args s)) p s) as [[]| | | |]; try (now right). now apply after_call_mono. }
  rewrite (ends_ext _ (fun n => bind (ev_call (interp X O n) VNil g (length (st_args s)) p) (fun v => match v with VDict d => after_call n d | v => throw (PTypeError v (bs "dict") p) end) s)).
  2: { intros n. unfold bind. destruct (ev_call (interp X O n) VNil g (length (st_args s)) p s) as [[]| | | |]; reflexivity. }
  rewrite (ends_bind (fun n => ev_call (interp X O n) VNil g (length (st_args s)) p) (fun n v => match v with VDict d => after_call n d | v => throw (PTypeError v (bs "dict") p) end)).
  2: apply mono_call. 2: { intros [] s1; try apply mono_const. apply after_call_mono. }
  split.
  - intros [(v & s1 & C & K)|F]; [|right; right; exact F].
    assert (D : (exists d, v = VDict d) \/ forall d, v <> VDict d) by (destruct v; try (right; discriminate); left; eauto).
    destruct D as [[d ->]|N]; [left; exists d, s1; now split|right; left; exists v, s1].
    split; [exact C|]. split; [exact N|]. destruct v; try (apply ends_const in K as [_ <-]; reflexivity). now destruct (N l).
  - intros [(d & s1 & C & K)|[(v & s1 & C & N & ->)|F]]; [left; exists (VDict d), s1; now split| |now right].
    left. exists v, s1. split; [exact C|]. destruct v; try now_ends. now destruct (N l).
Qed.
Lemma for_sound : forall n s r, r <> Fuel -> ev_for (interp X O n) u ix g p b s = r -> for_each X O u ix g p b s r.
Proof.
  induction n as [|[|n] IH]; intros s r N E; [cbn in E; congruence| |].
  { exfalso. apply N. rewrite <- E. reflexivity. }
  rewrite for_step in E.
  assert (CL : forall o, o <> Fuel -> ev_call (interp X O (S n)) VNil g (length (st_args s)) p s = o -> calls X O VNil g (length (st_args s)) p s o).
  { intros o N' E'. split; [exact N'|now exists (S n)]. }
  destruct (ev_call (interp X O (S n)) VNil g (length (st_args s)) p s) as [v s1|e s1|c s1|c|] eqn:EC.
  2-4: subst r; eapply fe_call; [eapply CL; [|reflexivity]; discriminate|constructor]. 2: congruence.
  assert (CL' := CL (Val v s1) ltac:(discriminate) eq_refl). clear CL. rename CL' into CL.
  assert (D : (exists d, v = VDict d) \/ forall d, v <> VDict d) by (destruct v; try (right; discriminate); left; eauto).
  destruct D as [[d ->]|ND].
  2: { replace r with (@Pan state flow (PTypeError v (bs "dict") p) s1); [now apply fe_no_dict|]. destruct v; try exact E. now destruct (ND l). }
  unfold after_call in E. destruct (field_of _ (bs "finished")) as [f|] eqn:F.
  2: { subst r. now eapply fe_no_finished; eauto. }
  destruct (boolean_cases f) as [[[|] ->]|B].
  3: { replace r with (@Pan state flow (PTypeError f (bs "bool") p) s1); [eapply fe_no_bool; eauto|]. destruct f; try exact E. destruct B. now eexists. }
  { subst r. eapply fe_done; eauto. }
  destruct (field_of _ (bs "value")) as [x|] eqn:V.
  2: { subst r. eapply fe_no_value; eauto. }
  unfold bind at 1 in E. destruct (store_cases ix x s1) as [[s2 H]|H]; rewrite H in E.
  2: { subst r. eapply fe_no_slot; eauto. now apply store_crash with x. }
  apply store_law in H. unfold bind in E.
  assert (SQ : forall r', r' <> Fuel -> eval_block (interp X O (S n)) u b s2 = r' -> sequence X O u b s2 r').
  { intros r' N' E'. apply block_law. split; [exact N'|now exists (S n)]. }
  destruct (eval_block (interp X O (S n)) u b s2) as [[v|v|] s3|e s3|k s3|k|] eqn:EB; cbn [after_body ret] in E; unfold ret in E.
  - eapply fe_again; [exact CL|exact F|exact V|exact H|apply SQ; [discriminate|reflexivity]|]. now apply IH.
  - subst r. eapply fe_leave; [exact CL|exact F|exact V|exact H|apply SQ; [discriminate|reflexivity]|exact I|discriminate].
  - subst r. eapply fe_break; [exact CL|exact F|exact V|exact H|apply SQ; [discriminate|reflexivity]].
  - subst r. eapply fe_leave; [exact CL|exact F|exact V|exact H|apply SQ; [discriminate|reflexivity]|exact I|discriminate].
  - subst r. eapply fe_leave; [exact CL|exact F|exact V|exact H|apply SQ; [discriminate|reflexivity]|exact I|discriminate].
  - subst r. eapply fe_leave; [exact CL|exact F|exact V|exact H|apply SQ; [discriminate|reflexivity]|exact I|discriminate].
  - congruence.
Qed.
Lemma after_value d s1 x s2 r :
  field_of (dict_entries (st_heap s1) d) (bs "finished") = Some (VBool false) ->
  field_of (dict_entries (st_heap s1) d) (bs "value") = Some x -> assigned ix x s1 s2 ->
  ends (fun n => bind (eval_block (interp X O n) u b) (after_body n) s2) r -> ends (fun n => after_call n d s1) r.
Proof.
  intros F V H [N [n K]]. split; [exact N|]. exists n. unfold after_call. rewrite F, V. apply store_law in H.
  unfold bind at 1. rewrite H. exact K.
Qed.
Lemma after_sequence s1 f s2 r : sequence X O u b s1 (Val f s2) -> ends (fun n => after_body n f s2) r ->
  ends (fun n => bind (eval_block (interp X O n) u b) (after_body n) s1) r.
Proof.
  intros S K. apply (ends_bind (fun n => eval_block (interp X O n) u b) after_body).
  - apply mono_block.
  - intros [v|v|] s3; [apply mono_for|intros n m L; now right|intros n m L; now right].
  - left. exists f, s2. split; [now apply block_law|exact K].
Qed.
Lemma for_each_law s r : ends (fun n => ev_for (interp X O n) u ix g p b s) r <-> for_each X O u ix g p b s r.
Proof.
  split; [intros [N [n E]]; eapply for_sound; eauto|].
  induction 1; apply for_ends.
  - left. exists d, s1. split; [assumption|]. split; [discriminate|]. exists 0. unfold after_call. now rewrite H0.
  - left. exists d, s1. split; [assumption|]. eapply after_value; eauto. eapply after_sequence; eauto.
  - left. exists d, s1. split; [assumption|]. eapply after_value; eauto. eapply after_sequence; eauto. now_ends.
  - left. exists d, s1. split; [assumption|]. eapply after_value; eauto.
    destruct r as [[v|v|] s3|e s3|k s3|k|]; try contradiction.
    + eapply after_sequence; eauto. now_ends.
    + now destruct (H5 s3).
    + apply block_law in H3 as [_ [n E]]. split; [discriminate|]. exists n. unfold bind. now rewrite E.
    + apply block_law in H3 as [_ [n E]]. split; [discriminate|]. exists n. unfold bind. now rewrite E.
    + apply block_law in H3 as [_ [n E]]. split; [discriminate|]. exists n. unfold bind. now rewrite E.
    + now apply sequence_nonfuel in H3.
  - right. right. eauto.
  - right. left. eauto.
  - left. exists d, s1. split; [assumption|]. split; [discriminate|]. exists 0. unfold after_call. now rewrite H0.
  - left. exists d, s1. split; [assumption|]. split; [discriminate|]. exists 0. unfold after_call. rewrite H0.
    destruct v as [|[]| | | | | | | |]; try reflexivity; destruct H1; now eexists.
  - left. exists d, s1. split; [assumption|]. split; [discriminate|]. exists 0. unfold after_call. now rewrite H0, H1.
  - left. exists d, s1. split; [assumption|]. split; [discriminate|]. exists 0. unfold after_call. rewrite H0, H1.
    apply (store_crash ix x) in H2. unfold bind. now rewrite H2.
Qed.
End For.
Theorem for_law u ix e b s r : executes X O u (XFor ix e b) s r <-> for_loop X O u ix e b s r.
Proof.
  rewrite executes_step. cbn [eval_statement].
  rewrite (ends_ext _ (fun n => bind (ev_expr (interp X O n) u e)
    (fun '(f, cp, _) => match f with Reg v => (fun n v cp => match v with VFun g => ev_for (interp X O n) u ix g cp b | v => throw (PTypeError v (bs "function") cp) end) n v cp | f => ret f end) s)).
  2: { intros n. unfold bind. destruct (ev_expr _ u e s) as [[[[[]|v|] q] o] s1| | | |]; reflexivity. }
  rewrite ends_value. 2: { intros [] q s1; try apply mono_const. apply mono_for. }
  split.
  - intros [(v & s1 & E & K)|[E F]]; [|now apply fo_stop].
    assert (D : (exists g, v = VFun g) \/ forall g, v <> VFun g) by (destruct v; try (right; discriminate); left; eauto).
    destruct D as [[g ->]|N].
    + apply for_each_law in K. eapply fo_loop; eauto.
    + replace r with (@Pan state flow (PTypeError v (bs "function") (at_ u (expr_pos e))) s1); [now apply fo_bad|].
      destruct v; try (apply ends_const in K as [_ K]; exact K). now destruct (N f).
  - intros H. inversion H; subst.
    + left. do 2 eexists. split; [eassumption|]. now apply for_each_law.
    + left. do 2 eexists. split; [eassumption|]. destruct v; try now_ends. now destruct (H1 f).
    + right. auto.
Qed.

(** ** Calls *)
Lemma all_give_fun u es : forall s vs s1 vs' s1', all_give X O u es s vs s1 -> all_give X O u es s vs' s1' -> vs = vs' /\ s1 = s1'.
Proof.
  induction es as [|e es IH]; intros s vs s1 vs' s1' H H'; inversion H; inversion H'; subst; [auto|].
  match goal with A : evaluates X O u e s ?a, B : evaluates X O u e s ?b |- _ => assert (E := evaluates_fun u e s a b A B) end.
  inversion E; subst. match goal with A : all_give X O u es _ _ _, B : all_give X O u es _ _ _ |- _ => destruct (IH _ _ _ _ _ A B) as [-> ->] end. auto.
Qed.
Lemma callee_sound u f s v p obj s1 :
  ends (fun n => ev_expr (interp X O n) u f s) (Val (Reg v, p, obj) s1) -> callee X O u f s obj v s1.
Proof.
  intros [_ [n E]]. destruct (expr_place n u f s (Reg v) p obj s1 E) as [_ P].
  destruct f as [ix q|l q|x q|es q|es q|ps fi body q|op e q|l op r q|c t e q|o x q|f args q|b q];
    try (rewrite P by discriminate; apply ca_plain; [discriminate|split; [discriminate|exists n; now rewrite E]]).
  destruct n as [|n]; [discriminate|]. change (eval_expr X O (interp X O n) n u (XAccess o x q) s = Val (Reg v, p, obj) s1) in E.
  cbn [eval_expr] in E. unfold bind in E.
  destruct (ev_expr (interp X O n) u o s) as [[[fo op] ob] s2| | | |] eqn:E1; try discriminate.
  destruct fo as [ov|ov|]; try discriminate.
  destruct (ev_expr (interp X O n) u x s2) as [[[ff fp] ob'] s3| | | |] eqn:E2; try discriminate.
  destruct ff as [fv|fv|]; try discriminate.
  destruct (access n ov op fv fp s3) as [w s4| | | |] eqn:E3; try discriminate. inversion E; subst.
  destruct (expr_place _ _ _ _ _ _ _ _ E1) as [-> _]. destruct (expr_place _ _ _ _ _ _ _ _ E2) as [-> _].
  assert (A : ends (fun n => access n obj (at_ u (expr_pos o)) fv (at_ u (expr_pos x)) s3) (Val v s1)) by (split; [discriminate|now exists n]).
  apply access_law in A as [(w & A & [= -> ->])|(w & A & [=])].
  apply ca_method with fv; [|exact A].
  eapply ag_next; [split; [discriminate|exists n; now rewrite E1]|].
  eapply ag_next; [split; [discriminate|exists n; now rewrite E2]|]. constructor.
Qed.
Lemma callee_evaluates u f s v obj s1 : callee X O u f s obj v s1 -> evaluates X O u f s (Val (Reg v) s1).
Proof.
  intros [o x q ? ob fd w s2 A B|g ? w s2 N E]; [|exact E]. apply access_expr_law. eapply st_all; [exact A|]. now constructor.
Qed.
Lemma callee_fun u f s v obj s1 v' obj' s1' : callee X O u f s obj v s1 -> callee X O u f s obj' v' s1' -> obj = obj' /\ v = v' /\ s1 = s1'.
Proof.
  intros H H'. assert (E := evaluates_fun _ _ _ _ _ (callee_evaluates _ _ _ _ _ _ H) (callee_evaluates _ _ _ _ _ _ H')).
  inversion E; subst. split; [|auto]. destruct H as [o x q ? ob fd w s2 A B|g ? w s2 N E'].
  - inversion H'; subst; [|now destruct (H o x q)]. 
    match goal with C : all_give _ _ _ _ _ [obj'; _] _ |- _ => destruct (all_give_fun _ _ _ _ _ _ _ A C) as [[= ->] _] end. reflexivity.
  - inversion H'; subst; [|reflexivity]. exfalso. eapply N. reflexivity.
Qed.
Lemma callee_law u f s v p obj s1 :
  ends (fun n => ev_expr (interp X O n) u f s) (Val (Reg v, p, obj) s1) <->
  callee X O u f s obj v s1 /\ p = at_ u (expr_pos f).
Proof.
  split.
  - intros H. split; [now apply callee_sound in H|]. destruct H as [_ [n E]]. now apply expr_place in E.
  - intros [H ->]. destruct (callee_evaluates _ _ _ _ _ _ H) as [_ [n E]].
    destruct (ev_expr (interp X O n) u f s) as [[[f' p] obj'] s2| | | |] eqn:E1; try discriminate. cbn in E. inversion E; subst f' s2.
    assert (A : ends (fun n => ev_expr (interp X O n) u f s) (Val (Reg v, p, obj') s1)) by (split; [discriminate|now exists n]).
    destruct (expr_place _ _ _ _ _ _ _ _ E1) as [-> _]. destruct (callee_fun _ _ _ _ _ _ _ _ _ H (callee_sound _ _ _ _ _ _ _ A)) as [-> _]. exact A.
Qed.

Lemma push_mono u start es s : mono (fun n => push_args (interp X O n) u start es s).
Proof. intros n m L. apply push_le. apply (R n m L). Qed.
Lemma push_law u start (k : nat -> M (W:=W) flow) : (forall s, mono (fun n => k n s)) -> forall args s r,
  ends (fun n => bind (push_args (interp X O n) u start args) (fun o => match o with None => k n | Some f => ret f end) s) r <->
  (exists s2, passes X O u args s s2 /\ ends (fun n => k n s2) r) \/ passing_stops X O u start args s r.
Proof.
  intros M. induction args as [|e es IH]; intros s r.
  - rewrite (ends_ext _ (fun n => k n s)) by reflexivity. split.
    + intros H. left. exists s. split; [constructor|exact H].
    + intros [(s2 & H & K)|H]; inversion H; subst. exact K.
  - rewrite (ends_ext _ (fun n => bind (ev_expr (interp X O n) u e) (fun '(f, p, _) => (fun n f (p : spos) s1 =>
      match f with
      | Reg v => bind (push_args (interp X O n) u start es) (fun o => match o with None => k n | Some f => ret f end) (set_args s1 (st_args s1 ++ [v]))
      | f => Val f (set_args s1 (firstn start (st_args s1)))
      end) n f p) s)).
    2: { intros n. cbn [push_args]. unfold bind. destruct (ev_expr _ u e s) as [[[[v|v|] q] o] s1| | | |]; reflexivity. }
    rewrite ends_expr.
    2: { intros [v|v|] p s1; try apply mono_const. apply mono_bind; [intros; apply push_mono|]. intros [f|] s2; [apply mono_const|apply M]. }
    split.
    + intros [([v|v|] & s1 & E & K)|(o & E & F)].
      * apply IH in K as [(s2 & P & K)|K]; [left; exists s2; split; [econstructor; eassumption|exact K]|right; eapply pt_later; eassumption].
      * apply ends_const in K as [_ <-]. right. now apply pt_flow.
      * apply ends_const in K as [_ <-]. right. now apply pt_flow.
      * right. now apply pt_fail with o.
    + intros [(s2 & P & K)|P].
      * inversion P; subst. left. do 2 eexists. split; [eassumption|]. apply IH. left. eauto.
      * inversion P; subst.
        -- left. do 2 eexists. split; [eassumption|]. destruct f; [contradiction|now_ends|now_ends].
        -- right. eexists. split; eassumption.
        -- left. do 2 eexists. split; [eassumption|]. apply IH. now right.
Qed.
Lemma function_cases v : (exists g, v = VFun g) \/ forall g, v <> VFun g.
Proof. destruct v; try (right; discriminate); left; eauto. Qed.
(** What follows the evaluation of the function expression *)
Definition with_callee u args (K : nat -> value -> func -> nat -> M (W:=W) flow) n (x : flow * spos * value) : M (W:=W) flow :=
  let '(fl, fp, obj) := x in
  match fl with
  | Reg (VFun g) => fun s => bind (push_args (interp X O n) u (length (st_args s)) args)
      (fun r => match r with None => K n obj g (length (st_args s)) | Some f => ret f end) s
  | Reg v => throw (PInvalidCall v fp)
  | f => ret f
  end.
Lemma prepare_law u f args (K : nat -> value -> func -> nat -> M (W:=W) flow) s r :
  (forall obj g start s, mono (fun n => K n obj g start s)) ->
  ends (fun n => bind (prepare_call (interp X O n) u f args) (fun r => match r with inr (obj, g, start) => K n obj g start | inl f => ret f end) s) r <->
  (exists obj g s1 s2, callee X O u f s obj (VFun g) s1 /\ passes X O u args s1 s2 /\ ends (fun n => K n obj g (length (st_args s1)) s2) r) \/
  (exists obj g s1, callee X O u f s obj (VFun g) s1 /\ passing_stops X O u (length (st_args s1)) args s1 r) \/
  (exists obj v s1, callee X O u f s obj v s1 /\ (forall g, v <> VFun g) /\ r = Pan (PInvalidCall v (at_ u (expr_pos f))) s1) \/
  (evaluates X O u f s r /\ stops r).
Proof.
  intros M. rewrite (ends_ext _ (fun n => bind (ev_expr (interp X O n) u f) (with_callee u args K n) s)).
  2: { intros n. unfold prepare_call, with_callee, bind. destruct (ev_expr _ u f s) as [[[[[]|v|] q] o] s1| | | |]; try reflexivity.
       unfold get. cbv beta iota. destruct (push_args _ u _ args s1) as [[]| | | |]; reflexivity. }
  rewrite (ends_bind (fun n => ev_expr (interp X O n) u f) (with_callee u args K)).
  2: apply mono_expr.
  2: { intros [[[[]|v|] q] o] s1; try (intros n m L; now right). cbn [with_callee].
       apply (mono_bind (fun n => push_args (interp X O n) u (length (st_args s1)) args) (fun n r => match r with None => K n o f0 (length (st_args s1)) | Some f => ret f end)); [intros; apply push_mono|]. intros [?|] s2; [apply mono_const|apply M]. }
  split.
  - intros [([[fl p] obj] & s1 & E & H)|(o & E & F)].
    + destruct fl as [v|v|].
      * apply callee_law in E as [C ->]. destruct (function_cases v) as [[g ->]|N].
        -- apply (push_law u (length (st_args s1)) (fun n => K n obj g (length (st_args s1)))) in H; [|intros; apply M].
           destruct H as [(s2 & P & H)|P]; [left|right; left]; eauto 8.
        -- right. right. left. exists obj, v, s1. split; [exact C|]. split; [exact N|].
           destruct v; try (destruct H as [_ [n <-]]; reflexivity). now destruct (N f0).
      * right. right. right. destruct H as [_ [n' <-]]. destruct E as [_ [n E]]. split; [|exact I]. split; [discriminate|exists n; now rewrite E].
      * right. right. right. destruct H as [_ [n' <-]]. destruct E as [_ [n E]]. split; [|exact I]. split; [discriminate|exists n; now rewrite E].
    + right. right. right. destruct E as [N [n E]]. destruct F; (split; [split; [discriminate|exists n; now rewrite E]|exact I]).
  - intros [(obj & g & s1 & s2 & C & P & H)|[(obj & g & s1 & C & P)|[(obj & v & s1 & C & N & ->)|[E S]]]].
    + left. exists (Reg (VFun g), at_ u (expr_pos f), obj), s1. split; [now apply callee_law|].
      apply (push_law u (length (st_args s1)) (fun n => K n obj g (length (st_args s1)))); [intros; apply M|]. left. eauto.
    + left. exists (Reg (VFun g), at_ u (expr_pos f), obj), s1. split; [now apply callee_law|].
      apply (push_law u (length (st_args s1)) (fun n => K n obj g (length (st_args s1)))); [intros; apply M|]. now right.
    + left. exists (Reg v, at_ u (expr_pos f), obj), s1. split; [now apply callee_law|].
      destruct v; try now_ends. now destruct (N f0).
    + destruct E as [N [n E]]. destruct (ev_expr (interp X O n) u f s) as [[[fl p] obj] s1|e s1|c s1|c|] eqn:E1; cbn in E; subst r.
      * left. exists (fl, p, obj), s1. split; [split; [discriminate|now exists n]|]. destruct fl; [contradiction|now_ends|now_ends].
      * right. exists (Pan e s1). split; [split; [discriminate|now exists n]|constructor].
      * right. exists (Exit c s1). split; [split; [discriminate|now exists n]|constructor].
      * right. exists (Crash c). split; [split; [discriminate|now exists n]|constructor].
      * congruence.
Qed.
Lemma prepare_none u f args (K : nat -> value -> func -> nat -> M (W:=W) flow) s r :
  (forall obj g start s, mono (fun n => K n obj g start s)) ->
  ends (fun n => bind (prepare_call (interp X O n) u f args) (fun r => match r with inr (obj, g, start) => K n obj g start | inl f => ret f end) s) r <->
  (exists obj g s1 s2, callee X O u f s obj (VFun g) s1 /\ passes X O u args s1 s2 /\ ends (fun n => K n obj g (length (st_args s1)) s2) r) \/
  no_call X O u f args s r.
Proof.
  intros M. rewrite (prepare_law u f args K s r M). split.
  - intros [H|[(obj & g & s1 & H & K')|[(obj & v & s1 & H & N & ->)|[H S]]]]; [now left|right ..].
    + eapply nc_argument; eassumption.
    + eapply nc_no_function; eassumption.
    + now apply nc_stop.
  - intros [H|H]; [now left|right]. inversion H; subst; [left|right; left|right; right]; eauto 8.
Qed.
Lemma call_ends obj g start p s r : ends (fun n => bind (ev_call (interp X O n) obj g start p) (fun v => ret (Reg v)) s) r <->
    (exists v s3, calls X O obj g start p s (Val v s3) /\ r = Val (Reg v) s3) \/ (exists o, calls X O obj g start p s o /\ fails o r).
Proof.
  rewrite (ends_bind (fun n => ev_call (interp X O n) obj g start p) (fun _ v => ret (Reg v))); [|apply mono_call|intros; apply mono_const].
  split; (intros [(v & s3 & A & B)|B]; [left; exists v, s3; split; [exact A|]|now right]).
  - now apply ends_const in B as [_ <-].
  - subst r. now_ends.
Qed.
Lemma call_ends_mono obj g start p s : mono (fun n => bind (ev_call (interp X O n) obj g start p) (fun v => ret (Reg v)) s).
Proof. apply mono_bind; [intros; apply mono_call|intros; apply mono_const]. Qed.
Theorem call_law u f args p s r :
  evaluates X O u (XCall f args p) s r <-> call_expression X O u f args p s r.
Proof.
  rewrite (evaluates_plain u (XCall f args p) p _ s r (fun n => eq_refl)).
  rewrite (prepare_none u f args (fun n obj g start => bind (ev_call (interp X O n) obj g start (at_ u p)) (fun v => ret (Reg v))) s r (fun obj g start s => call_ends_mono obj g start (at_ u p) s)).
  split.
  - intros [(obj & g & s1 & s2 & CA & P & H)|H]; [|now apply cx_none].
    apply call_ends in H as [(v & s3 & H & ->)|(o & H & F)]; [eapply cx_value; eassumption|eapply cx_fail; eassumption].
  - intros H. inversion H; subst.
    + left. do 4 eexists. split; [eassumption|]. split; [eassumption|]. apply call_ends. left. eauto.
    + left. do 4 eexists. split; [eassumption|]. split; [eassumption|]. apply call_ends. right. eauto.
    + now right.
Qed.

(** The new activation *)
Lemma map_seq_set {A} (F : nat -> A) n : forall k ix x, ix < n ->
  list_set (map F (seq k n)) ix x = map (fun i => if Nat.eqb i (k + ix) then x else F i) (seq k n).
Proof.
  induction n as [|n IH]; intros k ix x L; [lia|]. cbn [seq map]. destruct ix as [|ix]; cbn [list_set].
  - rewrite Nat.add_0_r, Nat.eqb_refl. f_equal. apply map_ext_in. intros i I. apply in_seq in I.
    destruct (Nat.eqb_spec i k); [lia|reflexivity].
  - destruct (Nat.eqb_spec k (k + S ix)); [lia|]. f_equal. rewrite IH by lia. now replace (S k + ix) with (k + S ix) by lia.
Qed.
Lemma nth_map_seq {A} (F : nat -> A) n k rest : k < n -> nth_error (map F (seq 0 n) ++ rest) k = Some (F k).
Proof.
  intros L. rewrite nth_error_app1 by (rewrite map_length, seq_length; exact L). rewrite nth_error_map.
  rewrite (nth_error_nth' _ 0) by now rewrite seq_length. cbn. now rewrite seq_nth.
Qed.
Lemma set_frame {A} (F : nat -> A) n rest ix x : ix < n ->
  list_set (map F (seq 0 n) ++ rest) ix x = map (fun i => if Nat.eqb i ix then x else F i) (seq 0 n) ++ rest.
Proof.
  intros L. rewrite TailProofs.list_set_app by (rewrite map_length, seq_length; exact L). now rewrite map_seq_set.
Qed.
Lemma seq_plus n : forall a, seq a n = map (fun i => a + i) (seq 0 n).
Proof.
  induction n as [|n IH]; intros a; [reflexivity|]. cbn [seq map]. rewrite Nat.add_0_r, (IH (S a)), <- seq_shift, map_map.
  f_equal. apply map_ext. intros i. lia.
Qed.
Definition framed (F : nat -> vslot) n (s : state) : state := set_stack s (map F (seq 0 n) ++ skipn n (st_stack s)).
Lemma framed_stack F n s : n <= length (st_stack s) -> skipn n (st_stack (framed F n s)) = skipn n (st_stack s).
Proof.
  intros L. cbn. rewrite skipn_app, map_length, seq_length, Nat.sub_diag.
  rewrite (skipn_all2 (map F (seq 0 n))) by (now rewrite map_length, seq_length). reflexivity.
Qed.
Lemma framed_ext F G n s : (forall i, i < n -> F i = G i) -> framed F n s = framed G n s.
Proof. intros H. unfold framed. f_equal. f_equal. apply map_ext_in. intros i I. apply in_seq in I. apply H. lia. Qed.
Lemma framed_again F G n s : n <= length (st_stack s) -> framed G n (framed F n s) = framed G n s.
Proof. intros L. unfold framed at 1. rewrite framed_stack by exact L. reflexivity. Qed.
Lemma store_framed F n s ix v id old : ix < n -> F ix = Regular id old ->
  store ix v (framed F n s) = Val tt (framed (fun i => if Nat.eqb i ix then Regular id v else F i) n s).
Proof. intros L E. unfold store. cbn [framed set_stack st_stack]. rewrite nth_map_seq, E, set_frame by exact L. reflexivity. Qed.
Lemma place_framed F n s ix c : ix < n ->
  place ix c (framed F n s) = Val tt (framed (fun i => if Nat.eqb i ix then Closed c else F i) n s).
Proof. intros L. unfold place. cbn [framed set_stack st_stack]. rewrite nth_map_seq, set_frame by exact L. reflexivity. Qed.
Lemma store_all_framed first n (s : state) args : forall k F, k + length args <= n ->
  (forall i, k <= i < n -> F i = Regular (first + i) VNil) ->
  store_all k args (framed F n s) =
  Val tt (framed (fun i => if (k <=? i) && (i <? k + length args) then Regular (first + i) (nth (i - k) args VNil) else F i) n s).
Proof.
  induction args as [|v args IH]; intros k F L H.
  - cbn [store_all]. unfold ret. f_equal. apply framed_ext. intros i Li. cbn [length]. destruct (Nat.leb_spec k i), (Nat.ltb_spec i (k + 0)); cbn; try reflexivity; lia.
  - cbn [length] in L. change (store_all k (v :: args)) with (bind (W:=W) (store k v) (fun _ => store_all (S k) args)).
    unfold bind. rewrite (store_framed F n s k v (first + k) VNil) by (try apply H; lia).
    rewrite IH; [|lia|].
    + f_equal. apply framed_ext. intros i Li. cbn [length].
      destruct (Nat.eqb_spec i k) as [->|Ne].
      * rewrite Nat.sub_diag. destruct (Nat.leb_spec (S k) k), (Nat.leb_spec k k), (Nat.ltb_spec k (k + S (length args))); cbn; try lia; reflexivity.
      * destruct (Nat.leb_spec (S k) i), (Nat.leb_spec k i), (Nat.ltb_spec i (S k + length args)), (Nat.ltb_spec i (k + S (length args))); cbn; try lia; try reflexivity.
        replace (i - k) with (S (i - S k)) by lia. reflexivity.
    + intros i Li. destruct (Nat.eqb_spec i k); [lia|]. apply H. lia.
Qed.
Lemma shared_as_in context i c : shared_as context i = Some c -> In i (map snd context).
Proof. induction context as [|[d ix] context IH]; cbn; [discriminate|]. destruct (Nat.eqb_spec i ix); [auto|]. intros H. right. auto. Qed.
Lemma place_all_framed n (s : state) context : forall F, (forall ix, In ix (map snd context) -> ix < n) -> NoDup (map snd context) ->
  place_all context (framed F n s) =
  Val tt (framed (fun i => match shared_as context i with Some c => Closed c | None => F i end) n s).
Proof.
  induction context as [|[c ix] context IH]; intros F L N; [reflexivity|].
  change (place_all ((c, ix) :: context)) with (bind (W:=W) (place ix c) (fun _ => place_all context)). unfold bind.
  rewrite place_framed by (apply L; now left). cbn [map snd] in N. inversion N; subst. rewrite IH; [|intros; apply L; now right|assumption].
  f_equal. apply framed_ext. intros i Li. cbn [shared_as]. destruct (Nat.eqb_spec i ix) as [->|Ne]; [|reflexivity].
  destruct (shared_as context ix) eqn:E; [|reflexivity]. apply shared_as_in in E. contradiction.
Qed.
Lemma enter_law obj params fi context start p s : tidy params fi context -> length (skipn start (st_args s)) = params ->
  bind (extend X false (fi_slots fi) p) (fun _ => bind (store_all 0 (skipn start (st_args s))) (fun _ => bind (place_all context) (fun _ =>
    match fi_self fi with Some ix => store ix obj | None => ret tt end))) (set_args s (firstn start (st_args s))) =
  (if overflows X (length (st_stack s) + fi_slots fi) then Pan (PStackOverflow p) (set_args s (firstn start (st_args s)))
   else Val tt (entered obj fi context start s)).
Proof.
  intros [T1 T2 T3 T4] L. set (args := skipn start (st_args s)) in *. set (n := fi_slots fi) in *. set (first := length (h_cells (st_heap s))).
  unfold bind at 1. unfold extend. cbn [set_args st_stack st_heap st_args]. destruct (overflows X _); [reflexivity|].
  set (s0 := mkstate (map (new_slot false) (seq (length (h_cells (st_heap s))) n) ++ st_stack s) (firstn start (st_args s))
    (mkheap (h_cells (st_heap s) ++ repeat VNil n) (h_arrs (st_heap s)) (h_dicts (st_heap s)) (h_iters (st_heap s)))
    (st_modules s) (st_units s) (st_leaked s) (st_world s)).
  assert (E0 : s0 = framed (fun i => Regular (first + i) VNil) n s0).
  { unfold framed. unfold s0 at 1 2. cbn [st_stack]. unfold set_stack. cbn. f_equal.
    rewrite skipn_app, map_length, seq_length, Nat.sub_diag, (skipn_all2 (map _ _)) by (now rewrite map_length, seq_length). cbn [app skipn]. f_equal.
    fold first. rewrite (seq_plus n first), map_map. reflexivity. }
  change (mkstate _ _ _ _ _ _ _) with s0. rewrite E0. unfold bind at 1.
  rewrite (store_all_framed first n s0 args 0) by (auto; lia). unfold bind at 1.
  rewrite place_all_framed; [|intros ix I; now apply T2|exact T3].
  match goal with |- context [framed ?G n s0] => set (F := G) end.
  assert (R1 : forall G, (forall i, i < n -> G i = own_variable first args obj fi context i) -> framed G n s0 = entered obj fi context start s).
  { intros G H. rewrite (framed_ext G _ n s0 H). unfold framed, entered, s0. cbn [st_stack set_stack st_args st_heap st_modules st_units st_leaked st_world].
    unfold set_stack. cbn. f_equal. f_equal.
    rewrite skipn_app, map_length, seq_length, Nat.sub_diag, (skipn_all2 (map _ _)) by (now rewrite map_length, seq_length). reflexivity. }
  assert (V : forall i, i < n -> (if (0 <=? i) && (i <? 0 + length args) then Regular (first + i) (nth (i - 0) args VNil) else Regular (first + i) VNil) = Regular (first + i) (nth i args VNil)).
  { intros i Li. rewrite Nat.sub_0_r. destruct (Nat.leb_spec 0 i), (Nat.ltb_spec i (0 + length args)); cbn [andb]; try reflexivity; try lia.
    rewrite nth_overflow by lia. reflexivity. }
  destruct (fi_self fi) as [ix|] eqn:SF.
  - destruct (T4 ix eq_refl) as [T5 T6].
    assert (SN : shared_as context ix = None). { destruct (shared_as context ix) eqn:E; [|reflexivity]. apply shared_as_in in E. contradiction. }
    rewrite (store_framed F n s0 ix obj (first + ix) (nth ix args VNil)); [|lia|unfold F; rewrite SN; apply V; lia].
    f_equal. apply R1. intros i Li. unfold F, own_variable. rewrite SF. destruct (Nat.eqb_spec i ix) as [->|Ne].
    + now rewrite SN.
    + destruct (shared_as context i); [reflexivity|]. apply V, Li.
  - unfold ret. f_equal. apply R1. intros i Li. unfold F, own_variable. rewrite SF. destruct (shared_as context i); [reflexivity|]. apply V, Li.
Qed.

(** The body *)
Lemma shrink_dropped n (s : state) : shrink n s = dropped n s. Proof. reflexivity. Qed.
Lemma push_some E u start args : forall s fl s1, push_args (W:=W) E u start args s = Val (Some fl) s1 -> forall v, fl <> Reg v.
Proof.
  induction args as [|e es IH]; intros s fl s1 H v; [discriminate|]. cbn [push_args] in H. unfold bind, get, put in H.
  destruct (ev_expr E u e s) as [[[[w|w|] q] o] s2| | | |]; try discriminate.
  - eapply IH; eassumption.
  - inversion H; discriminate.
  - inversion H; discriminate.
Qed.
Lemma prepare_inl E u f args s fl s1 : prepare_call (W:=W) E u f args s = Val (inl fl) s1 -> forall v, fl <> Reg v.
Proof.
  unfold prepare_call, bind, get. destruct (ev_expr E u f s) as [[[[[]|v|] q] o] s2| | | |]; try discriminate.
  - destruct (push_args E u _ args s2) as [[x|] s3| | | |] eqn:P; try discriminate. intros [= -> ->]. eapply push_some; eassumption.
  - intros [= <- _]. discriminate.
  - intros [= <- _]. discriminate.
Qed.
Lemma no_call_value u f args s v s1 : ~ no_call X O u f args s (Val (Reg v) s1).
Proof.
  intros H. inversion H as [obj g s2 r C P|obj w s2 C N|r E S]; subst; [|contradiction].
  clear -P. remember (Val (Reg v) s1) as r eqn:Q. induction P; auto; subst.
  - inversion Q; subst. contradiction.
  - inversion H0.
Qed.
Lemma no_call_nonfuel u f args s : ~ no_call X O u f args s Fuel.
Proof.
  intros H. inversion H as [obj g s2 r C P|obj w s2 C N|r E S]; subst; [|destruct E; congruence].
  clear -P. remember Fuel as r eqn:Q. induction P; auto; subst; try discriminate. inversion H0.
Qed.
(** A value that says which call was prepared *)
Definition mark (obj : value) (g : func) (start : nat) : value := VErr (repeat x00 start) (VFun (FRust (NBind obj g))).
Lemma mark_inj obj g start obj' g' start' : mark obj g start = mark obj' g' start' -> obj = obj' /\ g = g' /\ start = start'.
Proof.
  unfold mark. intros H. injection H as H1 H2 H3. repeat split; auto.
  apply (f_equal (@length _)) in H1. now rewrite !repeat_length in H1.
Qed.
Definition unmade (r : result) : outcome state (flow + value * func * nat) :=
  match r with Val f s => Val (inl f) s | Pan p s => Pan p s | Exit c s => Exit c s | Crash c => Crash c | Fuel => Fuel end.
Lemma prepare_iff u f args s x :
  ends (fun n => prepare_call (interp X O n) u f args s) x <->
  (exists obj g s1 s2, callee X O u f s obj (VFun g) s1 /\ passes X O u args s1 s2 /\ x = Val (inr (obj, g, length (st_args s1))) s2) \/
  (exists r, no_call X O u f args s r /\ x = unmade r).
Proof.
  assert (PM := fun r => prepare_none u f args (fun n obj g start => ret (Reg (mark obj g start))) s r (fun obj g start s => fun n m L => or_intror eq_refl)).
  cbv beta in PM.
  split.
  - intros [N [n E]].
    assert (Q : forall r, bind (fun _ => x) (fun r => match r with inr (obj, g, start) => ret (Reg (mark obj g start)) | inl f => ret f end) s = r -> r <> Fuel ->
      (exists obj g s1 s2, callee X O u f s obj (VFun g) s1 /\ passes X O u args s1 s2 /\
        ends (fun n => ret (Reg (mark obj g (length (st_args s1)))) s2) r) \/ no_call X O u f args s r).
    { intros r E' N'. apply PM. split; [exact N'|]. exists n. unfold bind in *. rewrite E. exact E'. }
    destruct x as [[fl|[[obj g] start]] s2|e s2|c s2|c|]; cbn in Q.
    + right. exists (Val fl s2). split; [|reflexivity]. destruct (Q _ eq_refl ltac:(discriminate)) as [(o & g & s1 & s3 & C & P & K)|H]; [|exact H].
      apply ends_const in K as [_ K]. inversion K; subst. exfalso. eapply prepare_inl; [exact E|reflexivity].
    + left. destruct (Q _ eq_refl ltac:(discriminate)) as [(o & g' & s1 & s3 & C & P & K)|H]; [|now apply no_call_value in H].
      apply ends_const in K as [_ K]. unfold ret in K. injection K as K1 K2 K3 ->. exists obj, g, s1, s2.
      apply (f_equal (@length _)) in K1. rewrite !repeat_length in K1. subst. auto.
    + right. exists (Pan e s2). split; [|reflexivity]. destruct (Q _ eq_refl ltac:(discriminate)) as [(o & g & s1 & s3 & C & P & K)|H]; [|exact H].
      apply ends_const in K as [_ K]. discriminate.
    + right. exists (Exit c s2). split; [|reflexivity]. destruct (Q _ eq_refl ltac:(discriminate)) as [(o & g & s1 & s3 & C & P & K)|H]; [|exact H].
      apply ends_const in K as [_ K]. discriminate.
    + right. exists (Crash c). split; [|reflexivity]. destruct (Q _ eq_refl ltac:(discriminate)) as [(o & g & s1 & s3 & C & P & K)|H]; [|exact H].
      apply ends_const in K as [_ K]. discriminate.
    + congruence.
  - intros [(obj & g & s1 & s2 & C & P & ->)|(r & H & ->)].
    + destruct (PM (Val (Reg (mark obj g (length (st_args s1)))) s2)) as [_ PM'].
      destruct PM' as [_ [n E]]; [left; exists obj, g, s1, s2; split; [exact C|split; [exact P|now_ends]]|].
      unfold bind in E. destruct (prepare_call (interp X O n) u f args s) as [[fl|[[obj' g'] start']] s3|e s3|c s3|c|] eqn:EP; try discriminate.
      * inversion E; subst. exfalso. eapply prepare_inl; [exact EP|reflexivity].
      * unfold ret in E. injection E as K1 K2 K3 ->. apply (f_equal (@length _)) in K1. rewrite !repeat_length in K1. subst.
        split; [discriminate|now exists n].
    + destruct (PM r) as [_ PM']. destruct PM' as [N [n E]]; [now right|].
      unfold bind in E. destruct (prepare_call (interp X O n) u f args s) as [[fl|[[obj' g'] start']] s3|e s3|c s3|c|] eqn:EP; subst r.
      * split; [discriminate|now exists n].
      * now apply no_call_value in H.
      * split; [discriminate|now exists n].
      * split; [discriminate|now exists n].
      * split; [discriminate|now exists n].
      * congruence.
Qed.
Lemma prepare_mono u f args s : mono (fun n => prepare_call (interp X O n) u f args s).
Proof. intros n m L. apply prepare_le. apply (R n m L). Qed.
Lemma tail_call_ends u slots f args p s r :
  ends (fun n => tail_call (interp X O n) u slots f args p s) r <->
  (exists obj g s1 s2, callee X O u f s obj (VFun g) s1 /\ passes X O u args s1 s2 /\
     ends (fun n => bind (ev_call (interp X O n) obj g (length (st_args s1)) (at_ u p)) (fun v => ret (Reg v)) (dropped slots s2)) r) \/
  (exists r0, no_call X O u f args s r0 /\ r = leave slots r0).
Proof.
  split.
  - intros [N [n E]]. unfold tail_call in E.
    assert (PI : forall x, prepare_call (interp X O n) u f args s = x -> x <> Fuel -> ends (fun n => prepare_call (interp X O n) u f args s) x) by (intros x Ex Nx; split; [exact Nx|now exists n]).
    destruct (prepare_call (interp X O n) u f args s) as [[fl|[[obj g] start]] s2|e s2|c s2|c|] eqn:EP; [| | | | |congruence];
      specialize (PI _ eq_refl ltac:(discriminate)); apply prepare_iff in PI as [(o & g' & s1 & s3 & C & P & Q)|([fl'|?|?|?|] & H & Q)]; inversion Q; subst;
      try (right; eexists; split; [exact H|reflexivity]).
    left. do 4 eexists. split; [exact C|]. split; [exact P|]. split; [exact N|now exists n].
  - intros [(obj & g & s1 & s2 & C & P & [N [m E]])|(r0 & H & ->)].
    + assert (PI : ends (fun n => prepare_call (interp X O n) u f args s) (Val (inr (obj, g, length (st_args s1))) s2)) by (apply prepare_iff; left; eauto 8).
      destruct PI as [_ [n EP]]. split; [exact N|]. exists (max n m). unfold tail_call.
      destruct (prepare_mono u f args s n (max n m) ltac:(lia)) as [Q|Q]; [congruence|]. rewrite <- Q, EP.
      destruct (call_ends_mono obj g (length (st_args s1)) (at_ u p) (dropped slots s2) m (max n m) ltac:(lia)) as [Q'|Q']; [congruence|].
      rewrite shrink_dropped. congruence.
    + assert (PI : ends (fun n => prepare_call (interp X O n) u f args s) (unmade r0)) by (apply prepare_iff; right; eauto).
      destruct PI as [N [n EP]]. split; [destruct r0; try discriminate; now destruct N|]. exists n. unfold tail_call. rewrite EP. destruct r0; reflexivity.
Qed.
Lemma body_mono u slots b s : mono (fun n => eval_body true (interp X O n) u slots b s).
Proof. intros n m L. apply body_le, (R n m L). Qed.
Lemma finish_law (m : nat -> M (W:=W) flow) slots s r : mono (fun n => m n s) ->
  ends (fun n => finish slots (m n) s) r <-> exists r0, ends (fun n => m n s) r0 /\ r = leave slots r0.
Proof.
  intros M. split.
  - intros [N [n E]]. exists (m n s). unfold finish in E. split; [split; [|now exists n]|].
    + intros Q. rewrite Q in E. congruence.
    + subst r. destruct (m n s); reflexivity.
  - intros (r0 & [N [n E]] & ->). split; [destruct r0; cbn; congruence|]. exists n. unfold finish. rewrite E. destruct r0; reflexivity.
Qed.
Lemma body_law u slots b : forall s r, ends (fun n => eval_body true (interp X O n) u slots b s) r <-> body_runs X O u slots b s r.
Proof.
  induction b as [|st b IH]; intros s r.
  - rewrite (ends_ext _ (fun _ => Val (Reg VNil) (dropped slots s))) by reflexivity. rewrite ends_const. split.
    + intros [_ <-]. constructor.
    + intros H. inversion H. split; [discriminate|reflexivity].
  - destruct b as [|st' b].
    + destruct (in_tail st) as [[[[f args] p] k]|] eqn:T.
      * assert (D : forall r, ends (fun n => eval_body true (interp X O n) u slots [st] s) r <->
          exists r1, ends (fun n => tail_call (interp X O n) u slots f args p s) r1 /\
            r = match r1 with Val (Reg v) s1 => Val (given k v) s1 | r1 => r1 end).
        { intros r1. destruct st as [| | | | |e]; try discriminate; (destruct e; try discriminate); inversion T; subst; cbn [eval_body].
          - split.
            + intros [N [n E]]. exists (tail_call (interp X O n) u slots f args p s). unfold bind in E. split; [split; [|now exists n]|].
              * intros Q. rewrite Q in E. cbn in E. congruence.
              * subst r1. destruct (tail_call _ u slots f args p s) as [[]| | | |]; reflexivity.
            + intros (r2 & [N [n E]] & ->). split; [destruct r2 as [[]| | | |]; congruence|]. exists n. unfold bind. rewrite E. destruct r2 as [[]| | | |]; reflexivity.
          - split.
            + intros H. exists r1. split; [exact H|]. destruct r1 as [[]| | | |]; reflexivity.
            + intros (r2 & H & ->). destruct r2 as [[]| | | |]; exact H. }
        rewrite D. split.
        -- intros (r1 & H & ->). apply tail_call_ends in H as [(obj & g & s1 & s2 & C & P & H)|(r0 & H & ->)].
           ++ apply call_ends in H as [(v & s3 & H & ->)|(o & H & F)]; [eapply bo_call; eassumption|].
              eapply bo_call_fails; try eassumption. destruct F; constructor.
           ++ match goal with |- body_runs _ _ _ _ _ _ ?x => assert (Q : x = leave slots r0) end; [|rewrite Q; eapply bo_no_call; eassumption].
              destruct r0 as [[]| | | |]; try reflexivity. now apply no_call_value in H.
        -- intros H. inversion H; subst; try congruence.
           ++ match goal with A : in_tail st = Some _ |- _ => lazymatch A with T => fail | _ => rewrite T in A; inversion A; subst end end. exists (Val (Reg v) s3). split; [|reflexivity]. apply tail_call_ends. left. do 4 eexists. split; [eassumption|]. split; [eassumption|].
              apply call_ends. left. eauto.
           ++ match goal with A : in_tail st = Some _ |- _ => lazymatch A with T => fail | _ => rewrite T in A; inversion A; subst end end. exists r. split; [|match goal with F : fails _ r |- _ => destruct F; reflexivity end]. apply tail_call_ends. left. do 4 eexists. split; [eassumption|]. split; [eassumption|].
              apply call_ends. right. eauto.
           ++ match goal with A : in_tail st = Some _ |- _ => lazymatch A with T => fail | _ => rewrite T in A; inversion A; subst end end. exists (leave slots r0). split; [apply tail_call_ends; right; eauto|].
              destruct r0 as [[]| | | |]; try reflexivity. match goal with F : no_call _ _ _ _ _ _ _ |- _ => now apply no_call_value in F end.
      * rewrite (ends_ext _ (fun n => finish slots (ev_statement (interp X O n) u st) s)).
        2: { intros n. destruct st as [| | | | |e]; try reflexivity; destruct e; try reflexivity; discriminate. }
        rewrite finish_law by apply mono_statement. split.
        -- intros (r0 & H & ->). now apply bo_last.
        -- intros H. inversion H; subst; try congruence. eexists. split; [eassumption|reflexivity].
    + set (b1 := st' :: b) in *.
      rewrite (ends_ext _ (fun n => match ev_statement (interp X O n) u st s with Val (Reg _) s1 => eval_body true (interp X O n) u slots b1 s1
         | Val f s1 => Val f (shrink slots s1) | Pan p s1 => Pan p (shrink slots s1) | r => r end)) by reflexivity.
      split.
      * intros [N [n E]].
        assert (EX : forall x, ev_statement (interp X O n) u st s = x -> x <> Fuel -> executes X O u st s x) by (intros x Ex Nx; split; [exact Nx|now exists n]).
        destruct (ev_statement (interp X O n) u st s) as [[v|v|] s1|e s1|c s1|c|]; [| | | | | |congruence]; specialize (EX _ eq_refl ltac:(discriminate)).
        -- eapply bo_next; [discriminate|exact EX|]. apply IH. split; [exact N|now exists n].
        -- subst r. apply (bo_stop X O u slots st b1 s _ ltac:(discriminate) EX I).
        -- subst r. apply (bo_stop X O u slots st b1 s _ ltac:(discriminate) EX I).
        -- subst r. apply (bo_stop X O u slots st b1 s _ ltac:(discriminate) EX I).
        -- subst r. apply (bo_stop X O u slots st b1 s _ ltac:(discriminate) EX I).
        -- subst r. apply (bo_stop X O u slots st b1 s _ ltac:(discriminate) EX I).
      * intros H. inversion H; subst.
        -- match goal with A : body_runs _ _ _ _ b1 _ _ |- _ => apply IH in A as [N [m E]] end.
           match goal with A : executes _ _ _ _ _ _ |- _ => destruct A as [_ [n E']] end.
           split; [exact N|]. exists (max n m).
           destruct (mono_statement u st s n (max n m) ltac:(lia)) as [Q|Q]; [congruence|]. rewrite <- Q, E'.
           destruct (body_mono u slots b1 s1 m (max n m) ltac:(lia)) as [Q'|Q']; congruence.
        -- match goal with A : executes _ _ _ _ _ _ |- _ => destruct A as [N [n E']] end.
           split; [destruct r0 as [[]| | | |]; cbn; congruence|]. exists n. rewrite E'. destruct r0 as [[]| | | |]; try reflexivity. contradiction.
Qed.
Lemma function_ends obj unit params fi body context fp start p s r :
  length (skipn start (st_args s)) = params ->
  (forall max, x_stack_size X = Some max -> length (st_stack s) + fi_slots fi <= max) ->
  (forall max, x_stack_size X = Some max -> max < length (st_stack s) + fi_slots fi -> False) ->
  ends (fun n => bind (eval_body true (interp X O n) (mkuinfo unit (sp_path fp)) (fi_slots fi) body) (fun f => match f with Reg v | Ret v => ret v | Brk => crash_with CFlow end) (entered obj fi context start s)) r <->
  function_call X O obj unit params fi body context fp start p s r.
Proof.
  intros L FIT NO. set (u := mkuinfo unit (sp_path fp)).
  rewrite (ends_bind (fun n => eval_body true (interp X O n) u (fi_slots fi) body) (fun _ f => match f with Reg v | Ret v => ret v | Brk => crash_with CFlow end)); [|apply body_mono|intros [] ?; apply mono_const].
  split.
  - intros [(f & s1 & B & K)|(o & B & F)]; apply body_law in B.
    + destruct f as [v|v|]; apply ends_const in K as [_ <-]; [eapply fc_value; eauto|eapply fc_value; eauto|eapply fc_break; eauto].
    + eapply fc_fail; eauto.
  - intros H. inversion H; subst; try congruence.
    + exfalso. eauto.
    + left. do 2 eexists. split; [apply body_law; eassumption|]. match goal with D : _ \/ _ |- _ => destruct D as [-> | ->] end; now_ends.
    + right. eexists. split; [apply body_law; eassumption|eassumption].
    + left. do 2 eexists. split; [apply body_law; eassumption|]. now_ends.
Qed.
Theorem function_law obj unit params fi body context fp start p s r : tidy params fi context ->
  calls X O obj (FHush unit params fi body context fp) start p s r <->
  function_call X O obj unit params fi body context fp start p s r.
Proof.
  intros T. rewrite calls_step. cbn [call].
  set (u := mkuinfo unit (sp_path fp)). set (s0 := set_args s (firstn start (st_args s))).
  destruct (Nat.eqb_spec (length (skipn start (st_args s))) params) as [L|L].
  - assert (EN := enter_law obj params fi context start p s T L). fold s0 in EN.
    rewrite (ends_ext _ (fun n => if overflows X (length (st_stack s) + fi_slots fi) then Pan (PStackOverflow p) s0
      else bind (eval_body true (interp X O n) u (fi_slots fi) body) (fun f => match f with Reg v | Ret v => ret v | Brk => crash_with CFlow end) (entered obj fi context start s))).
    2: { intros n. unfold call_hush, bind at 1 2, get, put. fold s0. rewrite (proj2 (Nat.eqb_eq _ _) L).
         transitivity (bind (bind (extend X false (fi_slots fi) p) (fun _ => bind (store_all 0 (skipn start (st_args s))) (fun _ => bind (place_all context) (fun _ =>
            match fi_self fi with Some ix => store ix obj | None => ret tt end)))) (fun _ => bind (eval_body true (interp X O n) u (fi_slots fi) body) (fun f => match f with Reg v | Ret v => ret v | Brk => crash_with CFlow end)) s0).
         - unfold bind. destruct (extend X false (fi_slots fi) p s0) as [[] s1| | | |]; try reflexivity.
           destruct (store_all 0 _ s1) as [[] s2| | | |]; try reflexivity. destruct (place_all context s2) as [[] s3| | | |]; try reflexivity.
         - unfold bind at 1. rewrite EN. destruct (overflows X _); reflexivity. }
    unfold overflows. destruct (x_stack_size X) as [mx|] eqn:SX; [destruct (Nat.ltb_spec mx (length (st_stack s) + fi_slots fi)) as [LT|LT]|].
    + rewrite ends_const. split.
      * intros [_ <-]. now apply fc_overflow with mx.
      * intros H. inversion H; subst; try congruence; try (match goal with A : forall max, _ = Some max -> _ |- _ => specialize (A mx SX); lia end).
        split; [discriminate|reflexivity].
    + assert (FIT : forall max, x_stack_size X = Some max -> length (st_stack s) + fi_slots fi <= max) by (intros ? Q; rewrite SX in Q; inversion Q; lia).
      assert (NO : forall max, x_stack_size X = Some max -> max < length (st_stack s) + fi_slots fi -> False) by (intros ? Q; rewrite SX in Q; inversion Q; lia).
      revert FIT NO. clear SX LT EN. intros. 
      apply (function_ends obj unit params fi body context fp start p s r L FIT NO).
    + assert (FIT : forall max, x_stack_size X = Some max -> length (st_stack s) + fi_slots fi <= max) by (intros ? Q; rewrite SX in Q; inversion Q).
      assert (NO : forall max, x_stack_size X = Some max -> max < length (st_stack s) + fi_slots fi -> False) by (intros ? Q; rewrite SX in Q; inversion Q).
      apply (function_ends obj unit params fi body context fp start p s r L FIT NO).
  - rewrite (ends_ext _ (fun _ => Pan (PInvalidArgs (length (skipn start (st_args s))) params p) s0)).
    2: { intros n. unfold call_hush, bind at 1 2, get, put. now rewrite (proj2 (Nat.eqb_neq _ _) L). }
    rewrite ends_const. split.
    + intros [_ <-]. now apply fc_arity.
    + intros H. inversion H; subst; try congruence. split; [discriminate|reflexivity].
Qed.

(** Functions of the library *)
Lemma truncated_law {A} (m : nat -> M (W:=W) A) start s r :
  ends (fun n => truncated start (m n) s) r <->
  (exists a s1, ends (fun n => m n s) (Val a s1) /\ r = Val a (without_args start s1)) \/
  (exists e s1, ends (fun n => m n s) (Pan e s1) /\ r = Pan e (without_args start s1)) \/
  (exists c s1, ends (fun n => m n s) (Exit c s1) /\ r = Exit c s1) \/
  (exists c, ends (fun n => m n s) (Crash c) /\ r = Crash c).
Proof.
  split.
  - intros [N [n E]]. unfold truncated in E. destruct (m n s) eqn:F; subst.
    + left. do 2 eexists. split; [split; [discriminate|eauto]|reflexivity].
    + right; left. do 2 eexists. split; [split; [discriminate|eauto]|reflexivity].
    + right; right; left. do 2 eexists. split; [split; [discriminate|eauto]|reflexivity].
    + right; right; right. eexists. split; [split; [discriminate|eauto]|reflexivity].
    + contradiction.
  - intros [(a & s1 & [_ [n E]] & ->)|[(a & s1 & [_ [n E]] & ->)|[(a & s1 & [_ [n E]] & ->)|(a & [_ [n E]] & ->)]]];
      (split; [discriminate|]); exists n; unfold truncated; now rewrite E.
Qed.
Theorem bind_law obj' obj g start p s r :
  calls X O obj' (FRust (NBind obj g)) start p s r <-> rebound X O obj g start p s r.
Proof.
  rewrite calls_step. unfold call, bind, get. cbn [native_body]. rewrite truncated_law. split.
  - intros [(a & s1 & E & ->)|[(a & s1 & E & ->)|[(a & s1 & E & ->)|(a & E & ->)]]]; now constructor.
  - intros H. inversion H; subst; eauto 10.
Qed.
Lemma catch_ends (g : func) start p s r :
  ends (fun n => truncated start (catch X n (ev_call (interp X O n) VNil g (start + 1) p)) s) r <->
  caught X O start p s [VFun g] r.
Proof.
  rewrite (truncated_law (fun n => catch X n (ev_call (interp X O n) VNil g (start + 1) p))). split.
  - intros [(a & s1 & [_ [n E]] & ->)|[(a & s1 & [_ [n E]] & ->)|[(a & s1 & [_ [n E]] & ->)|(a & [_ [n E]] & ->)]]];
      unfold catch in E; destruct (ev_call _ _ _ _ _ _) as [| e s' | | |] eqn:F;
      try (destruct (panic_text X n (st_heap s') e) as [t| |] eqn:Q; [|now apply ShowProofs.panic_text_not_busy in Q|discriminate]); inversion E; subst.
    + eapply cg_value. split; [discriminate|eauto].
    + eapply cg_panic; [split; [discriminate|eauto]|eapply ShowProofs.panic_text_message, Q].
    + eapply cg_exit. split; [discriminate|eauto].
    + eapply cg_crash. split; [discriminate|eauto].
  - intros H. inversion H; subst; try (match goal with A : forall g', VFun g <> VFun g' |- _ => exfalso; now apply (A g) end);
      try (exfalso; match goal with A : _ <> 1 |- _ => now apply A end);
      match goal with A : calls _ _ _ _ _ _ _ _ |- _ => destruct A as [_ [n E]] end.
    + left. do 2 eexists. split; [|reflexivity]. split; [discriminate|]. exists n. unfold catch. now rewrite E.
    + match goal with A : message _ _ _ _ |- _ => destruct (ShowProofs.message_panic_text _ _ _ _ A) as [k K] end.
      left. do 2 eexists. split; [|reflexivity]. split; [discriminate|]. exists (max n k). unfold catch.
      destruct (mono_call VNil g (start + 1) p s n (max n k) ltac:(lia)) as [F|F]; [congruence|]. rewrite <- F, E.
      rewrite (ShowProofs.panic_text_more X _ _ k (max n k) _ ltac:(lia) K). reflexivity.
    + right; right; left. do 2 eexists. split; [|reflexivity]. split; [discriminate|]. exists n. unfold catch. now rewrite E.
    + right; right; right. eexists. split; [|reflexivity]. split; [discriminate|]. exists n. unfold catch. now rewrite E.
Qed.
Theorem catch_law obj start p s r :
  calls X O obj (FRust (NStd SCatch)) start p s r <-> caught X O start p s (skipn start (st_args s)) r.
Proof.
  rewrite calls_step. unfold call, bind, get. cbn [native_body]. destruct (skipn start (st_args s)) as [|v [|w l]].
  - cbn [truncated throw]. rewrite ends_const. split.
    + intros [_ <-]. now apply (cg_arity X O start p s []).
    + intros H. inversion H; subst. split; [discriminate|reflexivity].
  - destruct (function_cases v) as [[g ->]|NF].
    + apply catch_ends.
    + rewrite (ends_ext _ (fun _ => Pan (PTypeError v (bs "function") p) (without_args start s))).
      2: { intros n. destruct v; try reflexivity. exfalso. eapply NF. reflexivity. }
      rewrite ends_const. split.
      * intros [_ <-]. now apply cg_type.
      * intros H. inversion H; subst; try (exfalso; eapply NF; reflexivity); [|now exfalso]. split; [discriminate|reflexivity].
  - rewrite (ends_ext _ (fun _ => Pan (PInvalidArgs (length (v :: w :: l)) 1 p) (without_args start s))).
    2: { intros n. destruct v; reflexivity. }
    rewrite ends_const. split.
    + intros [_ <-]. now apply (cg_arity X O start p s (v :: w :: l)).
    + intros H. inversion H; subst. split; [discriminate|reflexivity].
Qed.

(** Function values *)
Lemma capture_all_length l : forall (s : state) r s1, capture_all l s = Val r s1 -> length (st_stack s1) = length (st_stack s).
Proof.
  induction l as [|k l IH]; intros s r s1 H; cbn [capture_all] in H; [now inversion H|].
  unfold bind in H. destruct (capture (cap_from k) s) as [c s2| | | |] eqn:C; try discriminate.
  destruct (capture_all l s2) as [r2 s3| | | |] eqn:F; try discriminate. inversion H; subst. rewrite (IH _ _ _ F).
  unfold capture in C. destruct (nth_error (st_stack s) (cap_from k)) as [[id v|c']|]; inversion C; subst; [|reflexivity].
  cbn. clear. generalize (cap_from k). induction (st_stack s) as [|x l' IHl]; intros [|n]; cbn; auto.
Qed.
Lemma shares_law l : forall (s : state) context s1, capture_all l s = Val context s1 <-> shares l s context s1.
Proof.
  induction l as [|k l IH]; intros s context s1.
  - cbn. split; intros H; inversion H; subst; [constructor|reflexivity].
  - change (capture_all (k :: l)) with (bind (W:=W) (capture (cap_from k)) (fun x => bind (capture_all l) (fun r => ret ((x, cap_to k) :: r)))).
    unfold bind, ret. split.
    + intros H. destruct (capture (cap_from k) s) as [c s2| | | |] eqn:C; try discriminate.
      destruct (capture_all l s2) as [r2 s3| | | |] eqn:F; try discriminate. inversion H; subst. apply IH in F.
      unfold capture in C. destruct (nth_error (st_stack s) (cap_from k)) as [[id v|c']|] eqn:N; inversion C; subst.
      * destruct (nth_error_split _ _ N) as (before & after & E & L). eapply sh_now; [exact E|exact L|].
        rewrite E, <- L in F. rewrite set_split in F. exact F.
      * now apply sh_already.
    + intros H. inversion H; subst.
      * unfold capture. match goal with A : nth_error _ _ = _ |- _ => rewrite A end.
        match goal with A : shares _ _ _ _ |- _ => apply IH in A; rewrite A end. reflexivity.
      * match goal with A : st_stack s = _ |- _ => rename A into E end.
        match goal with A : length _ = _ |- _ => rename A into L end.
        match goal with A : shares _ _ _ _ |- _ => apply IH in A; rename A into F end.
        unfold capture. rewrite E, <- L, nth_split. rewrite set_split. unfold set_heap, set_stack, cell_set. cbn. now rewrite F.
Qed.
Lemma capture_all_cases l : forall s : state, (exists context s1, capture_all l s = Val context s1) \/
  (capture_all l s = Crash CSlot /\ exists k, In k l /\ length (st_stack s) <= cap_from k).
Proof.
  induction l as [|k l IH]; intros s; [left; do 2 eexists; reflexivity|].
  change (capture_all (k :: l)) with (bind (W:=W) (capture (cap_from k)) (fun x => bind (capture_all l) (fun r => ret ((x, cap_to k) :: r)))).
  unfold bind, ret. destruct (capture (cap_from k) s) as [c s2| | | |] eqn:C;
    try (unfold capture in C; destruct (nth_error (st_stack s) (cap_from k)) as [[]|]; discriminate).
  - assert (L2 : length (st_stack s2) = length (st_stack s)).
    { apply (capture_all_length [k] s [(c, cap_to k)]). cbn [capture_all]. unfold bind, ret. now rewrite C. }
    destruct (IH s2) as [(ctx & s1 & ->)|[-> (k' & I & L)]].
    + left. do 2 eexists. reflexivity.
    + right. split; [reflexivity|]. exists k'. split; [now right|lia].
  - right. unfold capture in C. destruct (nth_error (st_stack s) (cap_from k)) as [[]|] eqn:N; inversion C; subst.
    split; [reflexivity|]. exists k. split; [now left|]. now apply nth_error_None.
Qed.
Lemma capture_all_fits l : forall (s : state) context s1, capture_all l s = Val context s1 -> forall k, In k l -> cap_from k < length (st_stack s).
Proof.
  induction l as [|k l IH]; intros s context s1 H k' I; [destruct I|].
  change (capture_all (k :: l)) with (bind (W:=W) (capture (cap_from k)) (fun x => bind (capture_all l) (fun r => ret ((x, cap_to k) :: r)))) in H.
  unfold bind, ret in H. destruct (capture (cap_from k) s) as [c s2| | | |] eqn:C; try discriminate.
  destruct (capture_all l s2) as [r2 s3| | | |] eqn:F; try discriminate.
  assert (L2 : length (st_stack s2) = length (st_stack s)).
  { apply (capture_all_length [k] s [(c, cap_to k)]). cbn [capture_all]. unfold bind, ret. now rewrite C. }
  destruct I as [->|I].
  - unfold capture in C. destruct (nth_error (st_stack s) (cap_from k')) eqn:N; [|discriminate]. apply nth_error_Some. congruence.
  - rewrite <- L2. eapply IH; eauto.
Qed.
Theorem function_expression_law u params fi body p s r :
  evaluates X O u (XFunction params fi body p) s r <-> makes_function u params fi body p s r.
Proof.
  rewrite (evaluates_plain u _ p (fun _ => bind (capture_all (fi_captures fi)) (fun context => ret (Reg (VFun (FHush (u_number u) params fi body context (at_ u p))))))) by reflexivity.
  rewrite ends_const. unfold bind, ret. split.
  - intros [N <-]. destruct (capture_all_cases (fi_captures fi) s) as [(context & s1 & E)|[E (k & I & L)]]; rewrite E.
    + constructor. now apply shares_law.
    + econstructor; eassumption.
  - intros H. inversion H; subst.
    + match goal with A : shares _ _ _ _ |- _ => apply shares_law in A; rewrite A end. split; [discriminate|reflexivity].
    + split; [discriminate|]. destruct (capture_all_cases (fi_captures fi) s) as [(context & s1 & E)|[E _]]; rewrite E; [|reflexivity].
      exfalso. match goal with I : In k _ |- _ => assert (Q := capture_all_fits _ _ _ _ E _ I) end. lia.
Qed.
Theorem function_tidy n params fi (s : state) context s1 : SpecProgram.valid_frame n params fi ->
  shares (fi_captures fi) s context s1 -> tidy params fi context.
Proof.
  intros V H. assert (Q : map snd context = map cap_to (fi_captures fi)).
  { clear V. induction H; cbn; congruence. }
  destruct V as (V1 & V2 & V3 & V4). rewrite Forall_forall in V2, V4. constructor; rewrite ?Q; auto.
  - intros ix I. apply in_map_iff in I as (c & <- & I). now apply V2.
  - clear - V3. induction (map cap_to (fi_captures fi)) as [|x l IH]; [constructor|]. cbn in V3. inversion V3; subst. constructor; [|now apply IH].
    intros I. match goal with A : ~ In _ _ |- _ => apply A end. apply in_or_app. now left.
  - intros ix E. rewrite E in *. split; [apply V4; now left|]. intros I. cbn in V3. apply NoDup_remove_2 with (l' := []) in V3. apply V3. now rewrite app_nil_r.
Qed.

(** Programs *)
Lemma fits_overflows n (s : state) : fits X n s <-> overflows X (length (st_stack s) + n) = false.
Proof.
  unfold fits, overflows. destruct (x_stack_size X) as [mx|].
  - split.
    + intros H. apply Nat.ltb_ge. now apply H.
    + intros H m [= <-]. now apply Nat.ltb_ge.
  - split; [reflexivity|]. intros _ m [=].
Qed.
Lemma start_law prog (s : state) p : 0 < pr_root_slots prog ->
  bind (extend X false (pr_root_slots prog) p) (fun _ => store 0 std_value) s =
  if overflows X (length (st_stack s) + pr_root_slots prog) then Pan (PStackOverflow p) s else Val tt (started prog s).
Proof.
  intros L. unfold bind, extend. destruct (overflows X _); [reflexivity|].
  unfold started. destruct (pr_root_slots prog) as [|n]; [lia|].
  unfold store. cbn [map seq app st_stack nth_error new_slot set_stack list_set]. unfold set_stack. cbn [st_args st_heap st_modules st_units st_leaked st_world].
  cbn [Nat.eqb]. f_equal. f_equal. rewrite Nat.add_0_r. cbn [app]. f_equal. f_equal.
  rewrite <- !seq_shift, map_map. set (k := length (h_cells (st_heap s))). rewrite (seq_plus n k), !map_map.
  apply map_ext. intros i. cbn. f_equal. lia.
Qed.
Lemma program_mono u prog s : mono (fun n => eval_program X false (interp X O n) u prog s).
Proof. intros n m L. apply program_le, (R n m L). Qed.
Theorem program_law u prog s r : 0 < pr_root_slots prog ->
  ends (fun n => eval_program X false (interp X O n) u prog s) r <-> program_runs X O u prog s r.
Proof.
  intros L.
  rewrite (ends_ext _ (fun n => if overflows X (length (st_stack s) + pr_root_slots prog) then Pan (PStackOverflow (at_ u (mkpos 0 0))) s
    else match eval_block (interp X O n) u (pr_statements prog) (started prog s) with
      | Val (Reg v) s => Val v (shrink (pr_root_slots prog) s)
      | Val _ _ => Crash CFlow
      | Pan p s => Pan p s
      | Exit c s => Exit c s
      | Crash c => Crash c
      | Fuel => Fuel
      end)).
  2: { intros n. assert (SL := start_law prog s (at_ u (mkpos 0 0)) L). unfold eval_program, bind in *.
       destruct (extend X false (pr_root_slots prog) (at_ u (mkpos 0 0)) s) as [[] s1| | | |].
       - destruct (store 0 std_value s1) as [[] s2| | | |]; destruct (overflows X _); try discriminate; inversion SL; subst; reflexivity.
       - destruct (overflows X _); try discriminate; inversion SL; subst; reflexivity.
       - destruct (overflows X _); try discriminate; inversion SL; subst; reflexivity.
       - destruct (overflows X _); try discriminate; inversion SL; subst; reflexivity.
       - destruct (overflows X _); try discriminate; inversion SL; subst; reflexivity. }
  assert (F := fits_overflows (pr_root_slots prog) s). destruct (overflows X _).
  - rewrite ends_const. split.
    + intros [_ <-]. apply pg_overflow. intros Q. apply F in Q. discriminate.
    + intros H. inversion H; subst; try (exfalso; match goal with A : fits _ _ _ |- _ => apply F in A; discriminate end).
      split; [discriminate|reflexivity].
  - assert (FT : fits X (pr_root_slots prog) s) by now apply F. split.
    + intros [N [n E]].
      assert (B : eval_block (interp X O n) u (pr_statements prog) (started prog s) <> Fuel -> sequence X O u (pr_statements prog) (started prog s) (eval_block (interp X O n) u (pr_statements prog) (started prog s))).
      { intros NF. apply block_law. split; [exact NF|now exists n]. }
      destruct (eval_block _ _ _ _) as [[v|v|] s1| | | |]; subst; try (now exfalso); specialize (B ltac:(discriminate)).
      * now apply pg_value.
      * eapply pg_flow; eauto. congruence.
      * eapply pg_flow; eauto. congruence.
      * eapply pg_fail; eauto. constructor.
      * eapply pg_fail; eauto. constructor.
      * eapply pg_fail; eauto. constructor.
    + intros H. inversion H; subst; try (match goal with A : ~ fits _ _ _ |- _ => contradiction end);
        match goal with A : sequence _ _ _ _ _ _ |- _ => apply block_law in A as [_ [n E]] end.
      * split; [discriminate|]. exists n. now rewrite E.
      * match goal with A : fails _ _ |- _ => destruct A end; (split; [discriminate|]); exists n; now rewrite E.
      * split; [discriminate|]. exists n. rewrite E. destruct f as [v|v|]; [|reflexivity..]. exfalso. match goal with A : forall w, Reg v <> Reg w |- _ => now apply (A v) end.
Qed.

(** Imports *)
Lemma module_known path v l : module_get path l = Some v <-> known path v l.
Proof.
  induction l as [|[k w] l IH]; cbn.
  - split; intros H; [discriminate|inversion H].
  - destruct (bytes_eqb path k) eqn:E.
    + apply LexerProofs.bytes_eqb_eq in E. subst k. split.
      * intros [= <-]. constructor.
      * intros H. inversion H; subst; [reflexivity|contradiction].
    + assert (Ne : k <> path). { intros ->. rewrite (proj2 (LexerProofs.bytes_eqb_eq path path) eq_refl) in E. discriminate. }
      rewrite IH. split; intros H; [now constructor|]. inversion H; subst; [contradiction|assumption].
Qed.
Lemma module_unknown path l : module_get path l = None <-> forall v, ~ known path v l.
Proof.
  split.
  - intros E v H. apply module_known in H. congruence.
  - intros H. destruct (module_get path l) eqn:E; [|reflexivity]. apply module_known in E. now apply H in E.
Qed.
Lemma import_ends t start p s r :
  ends (fun n => truncated start (import X false (interp X O n) t p) s) r <-> imported X O start p s [VStr t] r.
Proof.
  destruct (x_resolve X t (sp_path p) (st_world s)) as [e|path] eqn:RE.
  { rewrite (ends_ext _ (fun _ => Pan (PIo e p) (without_args start s))).
    2: { intros n. unfold truncated, import, bind, get. now rewrite RE. }
    rewrite ends_const. split.
    - intros [_ <-]. now eapply im_no_path.
    - intros H. inversion H; subst; try (exfalso; match goal with A : forall t', VStr t <> VStr t' |- _ => now apply (A t) end); try (exfalso; match goal with A : _ <> 1 |- _ => now apply A end); try congruence.
      + match goal with A : x_resolve _ _ _ _ = inl _ |- _ => rewrite RE in A; inversion A; subst end. split; [discriminate|reflexivity]. }
  destruct (module_get path (st_modules s)) as [v|] eqn:MG.
  { rewrite (ends_ext _ (fun _ => Val v (without_args start s))).
    2: { intros n. unfold truncated, import, bind, get. now rewrite RE, MG. }
    apply module_known in MG.
    rewrite ends_const. split.
    - intros [_ <-]. now eapply im_known; eauto.
    - intros H. inversion H; subst; try (exfalso; match goal with A : forall t', VStr t <> VStr t' |- _ => now apply (A t) end); try (exfalso; match goal with A : _ <> 1 |- _ => now apply A end); try congruence;
        try (match goal with A : x_resolve _ _ _ _ = inr _ |- _ => rewrite RE in A; inversion A; subst end);
        try (exfalso; match goal with A : forall w, ~ known _ _ _ |- _ => now apply (A v) end).
      + match goal with A : known _ ?w _ |- _ => assert (w = v) by (apply module_known in A; apply module_known in MG; congruence) end. subst.
        split; [discriminate|reflexivity]. }
  assert (UN := proj1 (module_unknown _ _) MG).
  destruct (x_file X path (st_world s)) as [e|text] eqn:FI.
  { rewrite (ends_ext _ (fun _ => Pan (PIo e p) (without_args start s))).
    2: { intros n. unfold truncated, import, bind, get. rewrite RE, MG. unfold load, bind, get. now rewrite FI. }
    rewrite ends_const. split.
    - intros [_ <-]. now eapply im_no_file; eauto.
    - intros H. inversion H; subst; try (exfalso; match goal with A : forall t', VStr t <> VStr t' |- _ => now apply (A t) end); try (exfalso; match goal with A : _ <> 1 |- _ => now apply A end); try congruence;
        try (match goal with A : x_resolve _ _ _ _ = inr _ |- _ => rewrite RE in A; inversion A; subst end); try congruence;
        try (exfalso; match goal with A : known _ _ _ |- _ => now apply UN in A end).
      + match goal with A : x_file _ _ _ = inl _ |- _ => rewrite FI in A; inversion A; subst end. split; [discriminate|reflexivity]. }
  assert (COMMON : forall o, (forall n, truncated start (import X false (interp X O n) t p) s = o n) ->
      ends (fun n => truncated start (import X false (interp X O n) t p) s) r <-> ends o r) by (intros o Q; now apply ends_ext).
  destruct (analyze text) as [b es es'| |] eqn:AN.
  3: { exfalso. now apply (ParserFactsProofs.analyze_total text). }
  2: { rewrite (COMMON (fun _ => Crash CLexer)).
    2: { intros n. unfold truncated, import, bind, get. rewrite RE, MG. unfold load, bind, get. now rewrite FI, AN. }
    rewrite ends_const. split.
    - intros [_ <-]. now eapply im_bad_text; eauto.
    - intros H. inversion H; subst; try (exfalso; match goal with A : forall t', VStr t <> VStr t' |- _ => now apply (A t) end); try (exfalso; match goal with A : _ <> 1 |- _ => now apply A end); try congruence;
        try (match goal with A : x_resolve _ _ _ _ = inr _ |- _ => rewrite RE in A; inversion A; subst end); try congruence;
        try (exfalso; match goal with A : known _ _ _ |- _ => now apply UN in A end);
        try (exfalso; match goal with A : x_file _ _ _ = inr _ |- _ => rewrite FI in A; inversion A; subst; congruence end).
      + split; [discriminate|reflexivity]. }
  assert (BAD : es <> [] \/ es' <> [] -> ends (fun n => truncated start (import X false (interp X O n) t p) s) r <-> imported X O start p s [VStr t] r).
  { intros NE. rewrite (COMMON (fun _ => Pan (PImportFailed path p) (without_args start s))).
    2: { intros n. unfold truncated, import, bind, get. rewrite RE, MG. unfold load, bind, get. rewrite FI, AN.
         destruct es; [destruct es'; [destruct NE; contradiction|reflexivity]|reflexivity]. }
    rewrite ends_const. split.
    - intros [_ <-]. now eapply im_syntax; eauto.
    - intros H. inversion H; subst; try (exfalso; match goal with A : forall t', VStr t <> VStr t' |- _ => now apply (A t) end); try (exfalso; match goal with A : _ <> 1 |- _ => now apply A end); try congruence;
        try (match goal with A : x_resolve _ _ _ _ = inr _ |- _ => rewrite RE in A; inversion A; subst end); try congruence;
        try (exfalso; match goal with A : known _ _ _ |- _ => now apply UN in A end);
        try (match goal with A : x_file _ _ _ = inr _ |- _ => rewrite FI in A; inversion A; subst end);
        try (match goal with A : analyze _ = _ |- _ => rewrite AN in A; inversion A; subst end);
        try (destruct NE; contradiction).
      + split; [discriminate|reflexivity]. }
  destruct es as [|e1 es]; [|apply BAD; left; discriminate]. destruct es' as [|e1 es']; [|apply BAD; right; discriminate].
  clear BAD. destruct (sema b) as [prog|er|] eqn:SE.
  3: { exfalso. now apply (SemaShapeProofs.sema_no_crash b). }
  2: { rewrite (COMMON (fun _ => Pan (PImportFailed path p) (without_args start s))).
    2: { intros n. unfold truncated, import, bind, get. rewrite RE, MG. unfold load, bind, get. now rewrite FI, AN, SE. }
    rewrite ends_const. split.
    - intros [_ <-]. now eapply im_static; eauto.
    - intros H. inversion H; subst; try (exfalso; match goal with A : forall t', VStr t <> VStr t' |- _ => now apply (A t) end); try (exfalso; match goal with A : _ <> 1 |- _ => now apply A end); try congruence;
        try (match goal with A : x_resolve _ _ _ _ = inr _ |- _ => rewrite RE in A; inversion A; subst end); try congruence;
        try (exfalso; match goal with A : known _ _ _ |- _ => now apply UN in A end);
        try (match goal with A : x_file _ _ _ = inr _ |- _ => rewrite FI in A; inversion A; subst end);
        try (match goal with A : analyze _ = _ |- _ => rewrite AN in A; inversion A; subst end);
        try congruence; try (match goal with A : _ \/ _ |- _ => destruct A; contradiction end).
      + split; [discriminate|reflexivity]. }
  assert (VP := SemaTextProofs.text_valid _ _ _ _ AN SE). assert (PL := fun r => program_law (mkuinfo (st_units s) path) prog (next_unit s) r (proj1 VP)).
  rewrite (COMMON (fun n => truncated start (fun s' => match leaking (eval_program X false (interp X O n) (mkuinfo (st_units s) path) prog) (next_unit s') with
      | Val v s1 => Val v (with_module path v s1) | Pan e s1 => Pan e s1 | Exit c s1 => Exit c s1 | Crash c => Crash c | Fuel => Fuel end) s)).
  2: { intros n. unfold truncated, import, bind, get, put, ret. rewrite RE, MG. unfold load, bind, get, put. rewrite FI, AN, SE. unfold next_unit.
       destruct (leaking _ _); reflexivity. }
  split.
  - intros [N [n E]]. unfold truncated, leaking in E.
    destruct (eval_program X false (interp X O n) (mkuinfo (st_units s) path) prog (next_unit s)) eqn:F; subst; try (now exfalso).
    + eapply im_value; eauto. apply PL. split; [discriminate|eauto].
    + eapply im_panic; eauto. apply PL. split; [discriminate|eauto].
    + eapply im_exit; eauto. apply PL. split; [discriminate|eauto].
    + eapply im_crash; eauto. apply PL. split; [discriminate|eauto].
  - intros H. inversion H; subst; try (exfalso; match goal with A : forall t', VStr t <> VStr t' |- _ => now apply (A t) end); try (exfalso; match goal with A : _ <> 1 |- _ => now apply A end); try congruence;
      try (match goal with A : x_resolve _ _ _ _ = inr _ |- _ => rewrite RE in A; inversion A; subst end); try congruence;
      try (exfalso; match goal with A : known _ _ _ |- _ => now apply UN in A end);
      try (match goal with A : x_file _ _ _ = inr _ |- _ => rewrite FI in A; inversion A; subst end);
      try (match goal with A : analyze _ = _ |- _ => rewrite AN in A; inversion A; subst end);
      try congruence; try (match goal with A : _ \/ _ |- _ => destruct A; contradiction end);
      try (match goal with A : sema _ = _ |- _ => rewrite SE in A; inversion A; subst end);
      try (match goal with A : program_runs _ _ _ _ _ _ |- _ => apply PL in A as [_ [n E]]; (split; [discriminate|]); exists n; unfold truncated, leaking; now rewrite E end).
Qed.
Theorem import_law obj start p s r :
  calls X O obj (FRust (NStd SImport)) start p s r <-> imported X O start p s (skipn start (st_args s)) r.
Proof.
  rewrite calls_step. unfold call, bind at 1, get. cbn [native_body]. destruct (skipn start (st_args s)) as [|v [|w l]].
  - cbn [truncated throw]. rewrite ends_const. split.
    + intros [_ <-]. now apply (im_arity X O start p s []).
    + intros H. inversion H; subst. split; [discriminate|reflexivity].
  - destruct (string_cases v) as [[t ->]|NS].
    + apply import_ends.
    + rewrite (ends_ext _ (fun _ => Pan (PTypeError v (bs "string") p) (without_args start s))).
      2: { intros n. destruct v; try reflexivity. exfalso. eapply NS. reflexivity. }
      rewrite ends_const. split.
      * intros [_ <-]. now apply im_type.
      * intros H. inversion H; subst; try (exfalso; eapply NS; reflexivity); [|now exfalso]. split; [discriminate|reflexivity].
  - rewrite (ends_ext _ (fun _ => Pan (PInvalidArgs (length (v :: w :: l)) 1 p) (without_args start s))).
    2: { intros n. destruct v; reflexivity. }
    rewrite ends_const. split.
    + intros [_ <-]. now apply (im_arity X O start p s (v :: w :: l)).
    + intros H. inversion H; subst. split; [discriminate|reflexivity].
Qed.
Lemma denotes_law l v : denotes X l v <-> lit_value X l = v.
Proof.
  split.
  - intros []; cbn; try reflexivity; now rewrite H.
  - intros <-. destruct l; cbn; try (now constructor). destruct (x_parse_float X text) eqn:E; [now apply de_float|now apply de_no_float].
Qed.
Theorem literal_law u l p s r : evaluates X O u (XLit l p) s r <-> exists v, denotes X l v /\ r = Val (Reg v) s.
Proof.
  rewrite (evaluates_plain u _ p (fun _ => ret (Reg (lit_value X l)))) by reflexivity. rewrite ends_const. split.
  - intros [_ <-]. exists (lit_value X l). split; [now apply denotes_law|reflexivity].
  - intros (v & D & ->). apply denotes_law in D as <-. split; [discriminate|reflexivity].
Qed.
Theorem name_law u k p s r : evaluates X O u (XFieldName k p) s r <-> r = Val (Reg (VStr k)) s.
Proof.
  rewrite (evaluates_plain u _ p (fun _ => ret (Reg (VStr k)))) by reflexivity. rewrite ends_const. split.
  - intros [_ <-]. reflexivity.
  - intros ->. split; [discriminate|reflexivity].
Qed.
End Laws.
