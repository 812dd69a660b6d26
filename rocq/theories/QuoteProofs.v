(** From the text of a command to what its program is given. *)
From Coq Require Import Strings.String.
From Verif Require Import Base Lexer Ast Parser Program Sema Value Text StdLib Exec SpecLexer SpecParser SpecExec
  LexerFactsProofs TextProofs ParserFactsProofs ExecProofs Demo.

Lemma ends_not_run c : ends_argument c = true -> run_byte c = false.
Proof. destruct c; vm_compute; congruence. Qed.

Definition lit_arg (s : bytes) (p : pos) : ast_argument := mkarg [APUnit (AULiteral s)] p.
Definition lit_parts (ps : list arg_part) (s : bytes) : Prop :=
  is_assignment ps = false /\ (forall p, argument_of ps p = lit_arg s p).

Lemma spelling_nil plain esc t : spelling plain esc [] t -> t = [].
Proof. now inversion 1. Qed.

Lemma word_parts pre t s r : word_text t s -> s <> [] -> starts_with ends_argument r ->
  exists ps, argument_text true pre t r ps /\ lit_parts ps s /\ t <> [] /\ ~ starts_with (fun c => Byte.eqb c x7c) t.
Proof.
  intros Wt Ns Er. destruct Wt as [t s Sp|t s Sp|t s Sp Nt].
  - exists [PSingleQuoted s]. split; [apply at_single; [exact Sp|now constructor]|]. split; [|split; [discriminate|intros H; discriminate]].
    split; [reflexivity|]. intros p. unfold argument_of, lit_arg. cbn. destruct s; [congruence|reflexivity].
  - exists [PDoubleQuoted [AULiteral s]]. split; [|split; [|split; [discriminate|intros H; discriminate]]].
    + apply at_double; [|now constructor]. rewrite <- (app_nil_r t). apply du_literal; auto; [|constructor].
      intros ->. apply Ns. eapply spelling_nil; eauto.
    + split; [reflexivity|]. intros p. unfold argument_of, lit_arg. cbn. destruct s; [congruence|reflexivity].
  - assert (Nt' : t <> []) by (intros ->; apply Ns; eapply spelling_nil; eauto).
    assert (A : forall c t', t = c :: t' -> Byte.eqb c x7e = false /\ Byte.eqb c x7c = false).
    { intros c t' ->. cbn in Nt. destruct (Byte.eqb c x7e), (Byte.eqb c x7c); cbn in Nt; auto; exfalso; auto. }
    exists [PUnquoted (AULiteral s)]. split; [|split; [|split; [exact Nt'|]]].
    + rewrite <- (app_nil_r t). apply at_literal; auto.
      * intros _ H. destruct t as [|c t']; [exact H|]. destruct (A c t' eq_refl) as [A1 _]. cbn in H. congruence.
      * cbn [app]. destruct r as [|c r']; [exact (fun x => x)|]. cbn in Er |- *. intros H. rewrite (ends_not_run c Er) in H. discriminate.
      * now constructor.
    + split; [reflexivity|]. intros p. unfold argument_of, lit_arg. cbn. destruct s; [congruence|reflexivity].
    + intros H. destruct t as [|c t']; [exact H|]. destruct (A c t' eq_refl) as [_ A2]. cbn in H. congruence.
Qed.

Lemma blank_layout m b : blanks b -> forall pre t ts, layout m (pre ++ b) t ts -> layout m pre (b ++ t) ts.
Proof.
  induction 1 as [|c b Hc F IH]; intros pre t ts L; [now rewrite app_nil_r in L|]. cbn [app]. constructor; [exact Hc|].
  apply IH. rewrite <- app_assoc. exact L.
Qed.

Lemma words_layout t ss : words_text t ss -> forall pre, exists toks q,
  layout InCommand pre t (toks ++ [tok TCloseCommand q]) /\
  Forall2 (fun tk s => exists ps p, tk = tok (TArgument ps) p /\ lit_parts ps s /\ (1 <= line p)%N) toks ss.
Proof.
  induction 1 as [b Hb|b t s r ss Hb Wt Ns Er Ws IH]; intros pre.
  - exists [], (position_of (pre ++ b)). split; [|constructor]. apply blank_layout; [exact Hb|]. apply ly_close. constructor.
  - destruct (word_parts (pre ++ b) t s r Wt Ns Er) as (ps & A & Lp & Nt & Np).
    destruct (IH ((pre ++ b) ++ t)) as (toks & q & L & F).
    exists (tok (TArgument ps) (position_of (pre ++ b)) :: toks), q. split.
    + apply blank_layout; [exact Hb|]. cbn [app]. apply ly_argument; auto.
    + constructor; [|exact F]. eexists _, _. split; [reflexivity|]. split; [exact Lp|]. unfold position_of; cbn [line]; lia.
Qed.

Definition is_lit (a : ast_argument) (s : bytes) : Prop := exists p, a = lit_arg s p /\ (1 <= line p)%N.

Lemma words_arguments toks ss rest :
  Forall2 (fun tk s => exists ps p, tk = tok (TArgument ps) p /\ lit_parts ps s /\ (1 <= line p)%N) toks ss -> ~ redirects rest ->
  rest = [] -> exists args, garguments rest toks args /\ Forall2 is_lit args ss.
Proof.
  intros F Nr ->. induction F as [|tk s toks ss (ps & p & -> & [_ A] & Hp) F (args & G & Fa)].
  - exists []. split; constructor.
  - exists (argument_of ps p :: args). split.
    + constructor; [|exact G]. intros _ H. destruct toks as [|[k pp] toks]; [exact H|]. inversion F as [|? ? ? ? (? & ? & E & _) ?]; subst. inversion E; subst. exact H.
    + constructor; [|exact Fa]. exists p. rewrite A. auto.
Qed.

Lemma literal_analyzed a s st : is_lit a s -> exists p, analyze_argument a st = Some (Some (mkxarg [XPUnit (XULiteral s)] p), st).
Proof.
  intros (p & -> & Hp). exists p. unfold analyze_argument, is_ill_argument, is_ill_pos, lit_arg. cbn [arg_pos].
  replace (line p =? 0)%N with false by (symmetry; apply N.eqb_neq; lia). reflexivity.
Qed.
Definition is_xlit (a : xargument) (s : bytes) : Prop := xa_parts a = [XPUnit (XULiteral s)].
Lemma literals_analyzed args ss : Forall2 is_lit args ss -> forall st, exists xs, items analyze_argument args st = Some (Some xs, st) /\ Forall2 is_xlit xs ss.
Proof.
  induction 1 as [|a s args ss A F IH]; intros st; [exists []; split; [reflexivity|constructor]|].
  destruct (literal_analyzed a s st A) as [p E]. destruct (IH st) as (xs & E2 & F2). eexists. cbn [items]. unfold bind. rewrite E, E2.
  split; [reflexivity|]. constructor; [reflexivity|exact F2].
Qed.

Section Built.
Context {W : Type} (X : ext W) (fetch : slot -> option value) (h : heap) (w : W) (path : bytes).
Lemma literal_argument a s : is_xlit a s -> build_argument X fetch h w path a = Built [ELiteral s].
Proof. unfold is_xlit, build_argument. intros ->. reflexivity. Qed.
Lemma literal_arguments xs ss : Forall2 is_xlit xs ss -> build_arguments X fetch h w path xs = Built (map ELiteral ss).
Proof.
  unfold build_arguments. intros F.
  replace (bmap (build_argument X fetch h w path) xs) with (Built (map (fun s => [ELiteral s]) ss)).
  - cbn [bbind]. f_equal. clear. induction ss; cbn; congruence.
  - symmetry. induction F as [|a s xs ss A F IH]; [reflexivity|]. cbn [bmap]. rewrite (literal_argument _ _ A). cbn [bbind]. now rewrite IH.
Qed.
End Built.

Lemma not_builtin s : ~ In s builtin_names -> builtin_of_bytes s = None.
Proof.
  intros N. unfold builtin_of_bytes.
  assert (E : forall t, In t builtin_names -> bytes_eqb s t = false).
  { intros t I. destruct (bytes_eqb s t) eqn:Q; [|reflexivity]. apply bytes_eqb_eq in Q. subst. contradiction. }
  rewrite !E by (cbn; auto 10). reflexivity.
Qed.

(** A block of one command with quoted words only. *)
Lemma quoted_command t s0 ss : words_text t (s0 :: ss) -> ~ In s0 builtin_names ->
  exists prog b p, compile (x7b :: t) = Some prog /\ pr_statements prog = [XExpr (XCommand b p)] /\ xc_kind b = Synchronous /\
    forall (W : Type) (X : ext W) fetch h w path, exists q,
      build_command_block X fetch h w path b =
      Built (mkeblock (EExternal (mkebasic (ELiteral s0) [] (map ELiteral ss) [] true q) []) []).
Proof.
  intros Wt Nb. destruct (words_layout _ _ Wt [x7b]) as (toks & q & L & F).
  inversion F as [|tk s toks' ss' (ps & p & -> & [As Ag] & Hp) F']; subst.
  destruct (words_arguments toks' ss [] F' (fun x => x) eq_refl) as (args & G & Fa).
  set (bc := mkbasic (argument_of ps p) [] args [] true p).
  set (blk := mkblock Synchronous (mkcommand bc []) []).
  set (p0 := position_of []).
  assert (Lay : layout InRoot [] (x7b :: t) (tok TCommand p0 :: tok (TArgument ps) p :: toks' ++ [tok TCloseCommand q])).
  { apply (ly_token [] [x7b] TCommand t); [apply tt_symbol; cbn; tauto|destruct t; exact I|exact L]. }
  assert (Gr : gprogram (tok TCommand p0 :: tok (TArgument ps) p :: toks' ++ [tok TCloseCommand q]) (BBlock [SExpr (ECommand blk p0)])).
  { apply gp_last. rewrite <- (app_nil_r (tok TCommand p0 :: _)). eapply gss_cons; [|constructor|reflexivity]. constructor.
    do 9 (apply g_up; [lia|]). apply g_command.
    change (tok TCommand p0 :: tok (TArgument ps) p :: toks' ++ [tok TCloseCommand q])
      with (tok TCommand p0 :: (tok (TArgument ps) p :: toks') ++ [tok TCloseCommand q]).
    apply gcb_one; [reflexivity|]. rewrite <- (app_nil_r (tok (TArgument ps) p :: toks')). apply gc; [|constructor].
    rewrite <- (app_nil_r toks'). apply (gb [] [] ps p toks' args [] [] true); auto; constructor. }
  pose proof (layout_analyze _ _ _ Lay Gr) as An.
  assert (Pl : is_lit (argument_of ps p) s0) by (exists p; rewrite Ag; auto).
  set (st := mksstate (ss_stack (match declare (bs "std"%string) (mkpos 0 0) (mksstate [frame_new] [] []) with Some (_, s) => s | None => mksstate [] [] [] end)) [] []).
  destruct (literals_analyzed _ _ Fa st) as (xs & Ea & Fx). destruct (literal_analyzed _ _ st Pl) as (p1 & Ep).
  set (xb := mkxblock Synchronous (XExternal (mkxbasic (mkxarg [XPUnit (XULiteral s0)] p1) [] xs [] true p) []) []).
  assert (Eb : analyze_command_block blk st = Some (Some xb, st)).
  { unfold analyze_command_block, bind, analyze_command, blk, bc. cbn [cb_kind cb_head cb_tail cmd_head cmd_tail bc_program].
    unfold builtin_of. rewrite Ag. cbn [arg_parts lit_arg]. rewrite (not_builtin _ Nb).
    unfold analyze_basic, bind. cbn [bc_program bc_env bc_arguments bc_redirections bc_abort bc_pos]. rewrite <- Ag with (p := p).
    unfold builtin_of. rewrite Ag. cbn [arg_parts lit_arg]. rewrite (not_builtin _ Nb). rewrite <- Ag with (p := p), Ep. cbn [items ret]. rewrite Ea. reflexivity. }
  exists (mkprogram [XExpr (XCommand xb p0)] 1), xb, p0. split; [|split; [reflexivity|split; [reflexivity|]]].
  - unfold compile. rewrite An. unfold sema.
    assert (S0 : (bind enter_frame (fun _ => declare (bs "std"%string) (mkpos 0 0))) (mksstate [] [] []) = Some (Some 0, st)) by (vm_compute; reflexivity).
    unfold bind in S0 |- *. destruct (enter_frame (mksstate [] [] [])) as [[u0 s1]|]; [|discriminate]. rewrite S0.
    cbn [analyze_block items]. unfold bind. cbn [analyze_statement]. unfold bind. cbn [analyze_expr]. unfold bind. rewrite Eb. reflexivity.
  - intros W X fetch h w path. exists (mkspos path p). unfold build_command_block. cbn [xc_head xc_tail xb build_command]. unfold build_basic_command, build_single_argument.
    cbn [xb_program xb_env xb_arguments xb_redirections xb_abort xb_pos]. rewrite (literal_argument X fetch h w path (mkxarg [XPUnit (XULiteral s0)] p1) s0 eq_refl). cbn [bbind bmap].
    rewrite (literal_arguments X fetch h w path xs ss Fx). reflexivity.
Qed.

Lemma waits_started kids rs : started (waits kids rs) = [].
Proof. unfold waits. generalize (combine kids rs). intros x. induction x as [|y x IH]; [reflexivity|]. exact IH. Qed.
Lemma one_started c l ess n : block_ran [EExternal c []] l ess n -> exists r child, started l = [(r, child)] /\ request_for c r.
Proof.
  assert (G : forall es ab, ran_as (EExternal c []) l es ab -> exists r child, started l = [(r, child)] /\ request_for c r).
  { intros es ab R. inversion R as [head tail before reqs kids rs cmds F Lk Lr Nw St| |]; subst. subst cmds. inversion F as [|? r ? ? Rq F']; subst. inversion F'; subst.
    destruct kids as [|k [|]]; try discriminate. exists r, k. split; [|exact Rq]. rewrite started_app, St, waits_started. reflexivity. }
  intros B. inversion B as [|? ? ? ? R Ne|? ? l1 es l2 ess' n' R B']; subst; [eauto|]. inversion B'; subst. rewrite app_nil_r in *.
  inversion R as [head tail before reqs kids rs cmds F Lk Lr Nw St| |]; subst. eauto.
Qed.

Lemma quoted_run t s0 ss : words_text t (s0 :: ss) -> ~ In s0 builtin_names ->
  exists prog b p, compile (x7b :: t) = Some prog /\ pr_statements prog = [XExpr (XCommand b p)] /\ xc_kind b = Synchronous /\
    forall (W : Type) (X : ext W) (O : os W) fetch h w path, exists eb,
      build_command_block X fetch h w path b = Built eb /\
      forall out err st ess st', commands_exec X O (ek_head eb :: ek_tail eb) out err [] st = Ran ess st' ->
      exists l r child, xs_log st' = xs_log st ++ l /\ started l = [(r, child)] /\
        r_program r = s0 /\ r_arguments r = ss /\ r_env r = [] /\ r_arg0 r = None.
Proof.
  intros Wt Nb. destruct (quoted_command t s0 ss Wt Nb) as (prog & b & p & Ec & Es & Ek & Eb).
  exists prog, b, p. split; [exact Ec|]. split; [exact Es|]. split; [exact Ek|]. intros W X O fetch h w path.
  destruct (Eb W X fetch h w path) as [q E]. eexists. split; [exact E|]. cbn [ek_head ek_tail]. intros out err st ess st' R.
  apply commands_ran in R. destruct R as (l & ess' & n & L & _ & B). apply one_started in B. destruct B as (r & child & S & P & A & V & Z).
  exists l, r, child. split; [exact L|]. split; [exact S|]. split; [now apply P|]. split; [now apply A|]. split; [now apply V|exact Z].
Qed.

Lemma every_word s : s <> [] -> (exists t, word_text (x27 :: t ++ [x27]) s) /\ (exists t, word_text (QUOTE :: t ++ [QUOTE]) s).
Proof.
  intros _. split.
  - destruct (every_string_single_quoted s) as [t H]. exists t. now constructor.
  - destruct (every_string_double_quoted s) as [t H]. exists t. now constructor.
Qed.
