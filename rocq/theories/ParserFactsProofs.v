(** Consequences of the parser recognising exactly the grammar. *)
From Coq Require Import Strings.String.
From Verif Require Import Base Lexer Ast Parser SpecLexer SpecParser SpecPrinter LexerTermProofs LexerPosProofs LexerCleanProofs LexerFactsProofs
  ParserTermProofs ParserSoundProofs ParserCompleteProofs.
From Coq Require Import Lia.

Lemma parse_tokens_iff ts b : (exists r, parse_tokens ts = Parsed b [] r) <-> gprogram ts b.
Proof.
  split; [intros (r & H); eapply parse_tokens_sound; eauto|apply parse_tokens_complete].
Qed.

Lemma gprogram_unique ts b1 b2 : gprogram ts b1 -> gprogram ts b2 -> b1 = b2.
Proof.
  intros H1 H2. apply parse_tokens_complete in H1 as (r1 & E1). apply parse_tokens_complete in H2 as (r2 & E2). congruence.
Qed.

Lemma analyze_total src : analyze src <> AnalysisFuel.
Proof.
  unfold analyze. pose proof (lex_total src) as Hl. destruct (lex src) as [os|os|]; [..|congruence];
    destruct (parse_tokens_total (tokens_of os)) as (b & es & r & ->); [discriminate|destruct r; discriminate].
Qed.

(** ** No placeholders *)

Definition tok_wf (t : token) : Prop := plain_token t /\ wf_pos (tk_pos t).

Lemma pieces_wf p : plain_part p -> Forall wf_part (pieces p).
Proof.
  destruct p; cbn; auto. intros H. induction H; cbn; constructor; auto.
Qed.

Lemma joined_wf ps : Forall wf_part ps -> Forall wf_part (joined ps).
Proof.
  induction 1 as [|p ps H Hps IH]; cbn [joined]; [constructor|].
  destruct p as [[a|s p]|e]; [|constructor; auto..].
  destruct (joined ps) as [|[[b|s p]|e] r]; [| |destruct a; auto..].
  - destruct a; auto.
  - inversion IH; subst. constructor; auto.
Qed.

Lemma argument_wf ps p : tok_wf (tok (TArgument ps) p) -> wf_argument (argument_of ps p).
Proof.
  intros [H1 H2]. split; [|exact H2]. apply joined_wf. cbn in H1.
  induction H1; cbn; [constructor|]. apply Forall_app. split; auto. now apply pieces_wf.
Qed.

Lemma value_wf key ps p :
  tok_wf (tok (TArgument (PUnquoted key :: PEnvAssign :: ps)) p) ->
  plain_unit key /\ wf_argument (argument_of ps p).
Proof.
  intros [H1 H2]. cbn in H1. inversion H1 as [|? ? H3 H4]; subst. inversion H4; subst.
  split; auto. apply argument_wf. split; auto.
Qed.
Local Hint Resolve argument_wf value_wf : core.

Lemma all_of_Forall {A} (f : A -> Prop) l : all_of f l <-> Forall f l.
Proof.
  induction l; cbn; split; auto.
  - intros [H1 H2]. constructor; [auto|]. apply IHl; auto.
  - intros H; inversion H; subst. split; auto. apply IHl; auto.
Qed.

Ltac fsplit :=
  repeat match goal with
  | H : Forall _ (_ ++ _) |- _ => apply Forall_app in H; destruct H
  | H : Forall _ (_ :: _) |- _ => inversion H; clear H; subst
  end.

Lemma name_wf s p : tok_wf (tok (TIdentifier s) p) -> wf_name (s, p).
Proof. intros H; exact H. Qed.
Local Hint Resolve name_wf : core.

Lemma params_wf ts ps : gparams ts ps -> Forall tok_wf ts -> all_of wf_name ps.
Proof. induction 1; intros Hf; fsplit; cbn; auto. Qed.

Lemma source_wf a ts R : gredirection a ts R -> Forall tok_wf ts -> wf_redirection R.
Proof. destruct 1; intros Hf; fsplit; cbn; auto. Qed.

Lemma operators_wf a ts rs abort : goperators a ts rs abort -> Forall tok_wf ts -> Forall wf_redirection rs.
Proof. induction 1; intros Hf; fsplit; constructor; auto. eapply source_wf; eauto. Qed.

Lemma arguments_wf tail ts args : garguments tail ts args -> Forall tok_wf ts -> Forall wf_argument args.
Proof. induction 1; intros Hf; fsplit; constructor; auto. Qed.

Lemma environment_wf ts env : genvironment ts env -> Forall tok_wf ts -> Forall (fun kv => plain_unit (fst kv) /\ wf_argument (snd kv)) env.
Proof. induction 1; intros Hf; fsplit; constructor; eauto; cbn; eauto using value_wf. Qed.

Lemma basic_wf ts b : gbasic ts b -> Forall tok_wf ts -> wf_basic b.
Proof.
  destruct 1; intros Hf; fsplit. unfold wf_basic; cbn.
  split; [auto|]. split; [eapply environment_wf; eauto|]. split; [eapply arguments_wf; eauto|].
  split; [eapply operators_wf; eauto|]. match goal with H : tok_wf _ |- _ => apply H end.
Qed.

Lemma pipe_wf ts bs : gpipe ts bs -> Forall tok_wf ts -> Forall wf_basic bs.
Proof. induction 1; intros Hf; fsplit; constructor; auto. eapply basic_wf; eauto. Qed.

Lemma command_wf ts c : gcommand ts c -> Forall tok_wf ts -> wf_command c.
Proof. destruct 1; intros Hf; fsplit. split; cbn; [eapply basic_wf|eapply pipe_wf]; eauto. Qed.

Lemma commands_wf ts cs : gcommands ts cs -> Forall tok_wf ts -> Forall wf_command cs.
Proof. induction 1; intros Hf; fsplit; constructor; auto; eapply command_wf; eauto. Qed.

Lemma command_block_wf ts b p : gcommand_block ts b p -> Forall tok_wf ts -> wf_command_block b /\ wf_pos p.
Proof.
  destruct 1; intros Hf; fsplit; (split; [split; cbn|match goal with H : tok_wf (tok _ p) |- _ => apply H end]).
  - eapply command_wf; eauto.
  - constructor.
  - eapply command_wf; eauto.
  - eapply commands_wf; eauto.
Qed.

Lemma grammar_wf :
  (forall l ts e, gexpr l ts e -> Forall tok_wf ts -> wf_expr e) /\
  (forall ts es, gexprs ts es -> Forall tok_wf ts -> all_of wf_expr es) /\
  (forall ts items, gitems ts items -> Forall tok_wf ts -> all_of (fun kv => wf_name (fst kv) /\ wf_expr (snd kv)) items) /\
  (forall ts ps b, gfunction ts ps b -> Forall tok_wf ts -> all_of wf_name ps /\ wf_block b) /\
  (forall ts c t e, gcond ts c t e -> Forall tok_wf ts -> wf_expr c /\ wf_block t /\ wf_block e) /\
  (forall ts e, gelse ts e -> Forall tok_wf ts -> wf_block e) /\
  (forall ts s b, gstatement ts s b -> Forall tok_wf ts -> wf_statement s) /\
  (forall nested ts ss, gstatements nested ts ss -> Forall tok_wf ts -> all_of wf_statement ss).
Proof.
  apply grammar_ind; intros; fsplit; cbn [wf_expr wf_statement wf_block all_of fst snd];
    repeat match goal with
    | IH : Forall tok_wf ?ts -> _, H : Forall tok_wf ?ts |- _ => specialize (IH H)
    end;
    repeat match goal with
    | H : _ /\ _ |- _ => destruct H
    | H : tok_wf _ |- _ => let H1 := fresh in let H2 := fresh in destruct H as [H1 H2]; cbn [tk_pos tk_kind plain_token] in H1, H2
    end; try (unfold wf_name; cbn [fst snd]; auto 7; fail).
  - eapply command_block_wf; eauto.
  - split; auto. eapply params_wf; eauto.
Qed.

Lemma gprogram_wf ts b : gprogram ts b -> Forall tok_wf ts -> wf_block b.
Proof.
  destruct grammar_wf as (_ & _ & _ & _ & _ & _ & _ & Hss).
  induction 1; intros Hf; fsplit; auto. cbn. eapply Hss; eauto.
Qed.

Lemma placed_wf pre rest os : placed pre rest os -> Forall plain_output os -> Forall tok_wf (tokens_of os).
Proof.
  induction 1; intros Hf; inversion Hf; subst; cbn; auto. constructor; auto. split; [assumption|]. rewrite H1. unfold position_of, wf_pos. cbn [line]. lia.
Qed.

Lemma analyze_wf src b les : analyze src = Analysis b les [] -> wf_block b.
Proof.
  unfold analyze. pose proof (placed_wf _ _ _ (placed_outputs src) (lex_plain src)) as Hp.
  destruct (lex src) as [os|os|]; cbn [outputs] in Hp; [..|discriminate];
    destruct (parse_tokens (tokens_of os)) as [b' es r|] eqn:E; try discriminate.
  - intros [= -> _ ->]. eapply gprogram_wf; eauto. eapply parse_tokens_sound; eauto.
  - destruct r; [discriminate|]. intros [= -> _ ->]. eapply gprogram_wf; eauto. eapply parse_tokens_sound; eauto.
Qed.

(** ** Dropped statements *)

Lemma gstatements_returns nested ts ss : gstatements nested ts ss -> existsb is_return (removelast ss) = false.
Proof.
  induction 1; cbn; auto. destruct ss; cbn in *; auto.
  rewrite IHgstatements. rewrite orb_false_r. destruct H; reflexivity.
Qed.

Lemma after_return_none ss : existsb is_return (removelast ss) = false -> after_return ss = ss.
Proof. destruct ss; cbn [after_return]; auto. intros ->. reflexivity. Qed.

Lemma after_return_app ss e p ss' : ss' <> [] -> after_return ((ss ++ [SReturn e p]) ++ ss') = after_return ss'.
Proof.
  intros Hne. induction ss as [|s ss IH].
  - cbn [app after_return]. destruct ss'; [congruence|]. reflexivity.
  - cbn [app after_return].
    assert (existsb is_return (removelast (s :: (ss ++ [SReturn e p]) ++ ss')) = true) as ->; [|exact IH].
    rewrite <- app_assoc. change (s :: ss ++ [SReturn e p] ++ ss') with ((s :: ss) ++ ([SReturn e p] ++ ss')).
    rewrite removelast_app by discriminate. rewrite existsb_app.
    cbn [app]. destruct ss'; [congruence|]. cbn. rewrite !orb_true_r. reflexivity.
Qed.

Lemma written_nonempty ts ss : written ts ss -> ts <> [] -> ss <> [].
Proof.
  intros H Hne ->. remember [] as ss. destruct H; subst.
  - inversion H; subst; congruence.
  - destruct H0 as (? & ? & ? & ->). destruct x; discriminate.
Qed.

Lemma gprogram_written ts b : gprogram ts b -> exists all, written ts all /\ b = BBlock (after_return all).
Proof.
  induction 1 as [ts ss H|t1 ss t2 b H1 Hret Hne Hc H2 (all & Hw & ->)].
  - exists ss. split; [now constructor|]. rewrite after_return_none; auto. eapply gstatements_returns; eauto.
  - exists (ss ++ all). split; [now apply wr_more|]. destruct Hret as (ss' & e & p & ->).
    rewrite after_return_app; auto. eapply written_nonempty; eauto.
Qed.

Lemma parse_written ts b r :
  parse_tokens ts = Parsed b [] r ->
  exists all, written ts all /\ b = BBlock (after_return all) /\
    (existsb is_return (removelast all) = false -> b = BBlock all).
Proof.
  intros H. apply parse_tokens_sound, gprogram_written in H as (all & Hw & ->).
  exists all. repeat split; auto. intros H. now rewrite after_return_none.
Qed.

(** ** The printer *)

Lemma gexpr_raise l l' ts e : l <= l' -> l' <= 9 -> gexpr l ts e -> gexpr l' ts e.
Proof. intros H; induction H; intros H9 Hg; auto. apply g_up; [lia|]. apply IHle; auto; lia. Qed.

Lemma binop_operator b : binop (operator_of b) = Some (level_of_binary b, b).
Proof. destruct b; reflexivity. Qed.

Lemma level_range b : 3 <= level_of_binary b <= 9.
Proof. destruct b; cbn; lia. Qed.

Fixpoint esize (e : expr) : nat :=
  match e with
  | EArray es _ => S (list_sum (map esize es))
  | EDict items _ => S (list_sum (map (fun kv => esize (snd kv)) items))
  | EUnary _ e _ => S (esize e)
  | EBinary a _ c _ => S (esize a + esize c)
  | EAccess o f _ => S (esize o + esize f)
  | ECall f args _ => S (esize f + list_sum (map esize args))
  | _ => 1
  end.

Lemma show_exprs leaf es :
  (forall e, In e es -> printable leaf e -> gexpr 9 (show leaf 9 e) e) ->
  all_of (printable leaf) es -> gexprs (separated (show leaf 9) es) es.
Proof.
  induction es as [|e es IH]; intros H Hp; cbn [separated]; [constructor|].
  cbn in Hp. destruct Hp as [Hp1 Hp2]. destruct es as [|e' es].
  - rewrite app_nil_r. apply gx_one. apply H; cbn; auto.
  - apply gx_cons; [apply H; cbn; auto|]. apply IH; auto. intros; apply H; cbn in *; auto.
Qed.

Lemma show_items leaf items :
  (forall kv, In kv items -> printable leaf (snd kv) -> gexpr 9 (show leaf 9 (snd kv)) (snd kv)) ->
  all_of (fun kv => printable leaf (snd kv)) items ->
  gitems (separated (fun kv : (symbol * pos) * expr =>
    tok (TIdentifier (fst (fst kv))) (snd (fst kv)) :: tok TColon ill_pos :: show leaf 9 (snd kv)) items) items.
Proof.
  induction items as [|[[s p] e] items IH]; intros H Hp; cbn [separated]; [constructor|].
  cbn in Hp. destruct Hp as [Hp1 Hp2]. destruct items as [|e' items].
  - rewrite app_nil_r. cbn [fst snd]. apply gi_one. apply (H ((s, p), e)); cbn; auto.
  - cbn [fst snd app]. apply gi_cons; [apply (H ((s, p), e)); cbn; auto|]. apply IH; auto. intros; apply H; cbn in *; auto.
Qed.

Lemma in_sum {A} (f : A -> nat) x l : In x l -> f x <= list_sum (map f l).
Proof.
  induction l as [|y l IH]; [intros []|]. change (list_sum (map f (y :: l))) with (f y + list_sum (map f l)).
  intros [-> |H]; [lia|]. specialize (IH H). lia.
Qed.

Lemma show_expr leaf n : forall e l, esize e < n -> l <= 9 -> printable leaf e -> gexpr l (show leaf l e) e.
Proof.
  induction n as [|n IH]; intros e l Hn Hl Hp; [lia|].
  assert (Hb : forall ts, gexpr (level_of e) ts e -> gexpr l (if level_of e <=? l then ts else parenthesised ts) e).
  { intros ts H. destruct (Nat.leb_spec (level_of e) l) as [Hle|Hle].
    - eapply gexpr_raise; [exact Hle|exact Hl|exact H].
    - apply (gexpr_raise 0); [lia|lia|]. apply g_parens. apply (gexpr_raise (level_of e)); [|lia|exact H].
      destruct e; cbn [level_of]; try lia; [destruct op; lia|]. pose proof (level_range op); lia. }
  destruct e; cbn [show]; apply Hb; cbn [level_of]; cbn [printable] in Hp; cbn [esize] in Hn; try exact Hp; try destruct Hp.
  - apply g_self.
  - apply g_ident.
  - apply g_literal.
  - apply g_array, show_exprs; auto. intros e He Hpe. apply IH; auto. pose proof (in_sum esize e _ He). lia.
  - apply g_dict, show_items; auto. intros kv He Hpe. apply IH; auto. pose proof (in_sum (fun kv => esize (snd kv)) kv _ He). cbn beta in *. lia.
  - destruct op; cbn [level_of].
    + apply g_prefix; [reflexivity|]. apply IH; auto; lia.
    + apply g_prefix; [reflexivity|]. apply IH; auto; lia.
    + apply g_try. apply IH; auto; lia.
  - pose proof (level_range op). destruct (level_of_binary op) as [|l'] eqn:El; [lia|]. cbn [pred].
    apply g_binary; [rewrite binop_operator, El; reflexivity|apply IH; auto; lia..].
  - destruct e2; try (destruct Hp as [Hp1 Hp2]; apply g_index; [apply IH; auto; cbn in *; lia|apply IH; auto; cbn in *; lia]).
    apply g_dot. apply IH; [cbn in *; lia|lia|exact Hp].
  - apply g_call; [apply IH; auto; lia|]. apply show_exprs; auto. intros e' He Hpe. apply IH; auto.
    pose proof (in_sum esize e' _ He). lia.
Qed.

Lemma show_parses leaf e :
  printable leaf e -> exists r, parse_tokens (show leaf 9 e) = Parsed (BBlock [SExpr e]) [] r.
Proof.
  intros H. apply parse_tokens_complete, gp_last. rewrite <- (app_nil_r (show leaf 9 e)).
  eapply gss_cons; [apply gs_expr; eapply show_expr; eauto|constructor|reflexivity].
Qed.

(** ** From text to tree *)

Lemma tokens_of_ok ts : tokens_of (map OkTok ts) = ts.
Proof. induction ts as [|t ts IH]; [reflexivity|]. cbn. now f_equal. Qed.
Lemma errors_of_ok ts : lex_errors_of (map OkTok ts) = [].
Proof. induction ts as [|t ts IH]; [reflexivity|]. exact IH. Qed.

Lemma layout_analyze src ts b : layout InRoot [] src ts -> gprogram ts b -> analyze src = Analysis b [] [].
Proof.
  intros Hl Hg. unfold analyze. rewrite (layout_lex _ _ Hl), tokens_of_ok, errors_of_ok.
  apply parse_tokens_complete in Hg as (r & ->). reflexivity.
Qed.

Lemma parse_wf ts b r : Forall (fun t => plain_token t /\ wf_pos (tk_pos t)) ts -> parse_tokens ts = Parsed b [] r -> wf_block b.
Proof. intros Hf H. eapply gprogram_wf; [eapply parse_tokens_sound; eauto|exact Hf]. Qed.

Local Open Scope byte_scope.

Lemma dropped_witness :
  written [tok (TIdentifier ["f"]) (mkpos 1 0); kw KReturn (mkpos 1 2); tok (TLiteral (LInt 1)) (mkpos 1 9);
           tok (TIdentifier ["g"]) (mkpos 1 11)]
          [SExpr (EIdent ["f"] (mkpos 1 0)); SReturn (ELit (LInt 1) (mkpos 1 9)) (mkpos 1 2);
           SExpr (EIdent ["g"] (mkpos 1 11))].
Proof.
  apply (wr_more [tok (TIdentifier ["f"]) (mkpos 1 0); kw KReturn (mkpos 1 2); tok (TLiteral (LInt 1)) (mkpos 1 9)]
           [SExpr (EIdent ["f"] (mkpos 1 0)); SReturn (ELit (LInt 1) (mkpos 1 9)) (mkpos 1 2)]
           [tok (TIdentifier ["g"]) (mkpos 1 11)] [SExpr (EIdent ["g"] (mkpos 1 11))]); [|eexists [_], _, _; reflexivity|discriminate|reflexivity|].
  - apply (gss_cons _ [tok (TIdentifier ["f"]) (mkpos 1 0)] _ true); [|apply gss_return|reflexivity].
    + apply gs_expr, (gexpr_raise 0); auto with arith. constructor.
    + apply (gexpr_raise 0); auto with arith. constructor.
  - apply wr_last. apply (gss_cons _ [tok (TIdentifier ["g"]) (mkpos 1 11)] _ true []); [|constructor|reflexivity].
    apply gs_expr, (gexpr_raise 0); auto with arith. constructor.
Qed.
