(** Tokens that follow the grammar of SpecParser.v are parsed without error, to the tree the
    grammar gives. *)
From Coq Require Import Strings.String.
From Verif Require Import Base Lexer Ast Parser SpecLexer SpecParser LexerProofs ParserSoundProofs ParserTermProofs.
From Coq Require Import Lia.

Definition st (ts : list token) (b : nat) (es : list (nat * perror)) : pstate := mkps (hd_error ts) (tl ts) b es.

(** [f] reads [full] down to [rest], giving [a] and reporting nothing, unless fuel runs out. *)
Definition goes {A} (f : P A) (full : list token) (a : A) (rest : list token) : Prop :=
  forall b es, f (st full b es) = PFuel \/ exists b', f (st full b es) = Ok a (st rest b' es).

Lemma goes_bind {A B} (m : P A) (k : A -> P B) full a mid c rest :
  goes m full a mid -> goes (k a) mid c rest -> goes (bind m k) full c rest.
Proof.
  intros H1 H2 b es. unfold bind. destruct (H1 b es) as [E|(b' & E)]; rewrite E; [left; reflexivity|]. apply H2.
Qed.

Lemma goes_ret {A} (a : A) ts : goes (ret a) ts a ts.
Proof. intros b es. right. eexists; reflexivity. Qed.
Lemma goes_fuel {A} (a : A) full rest : goes (@out_of_fuel A) full a rest.
Proof. intros b es. left; reflexivity. Qed.
Lemma goes_step t r : goes step (t :: r) tt r.
Proof. intros b es. right. eexists; reflexivity. Qed.
Lemma goes_with_token {A} (k : option token -> P A) full a rest :
  goes (k (hd_error full)) full a rest -> goes (with_token k) full a rest.
Proof. intros H b es. apply H. Qed.
Lemma goes_synchronize {A} (ill : A) m full a rest : goes m full a rest -> goes (synchronize ill m) full a rest.
Proof. intros H b es. unfold synchronize. destruct (H b es) as [E|(b' & E)]; rewrite E; eauto. Qed.
Lemma goes_with_sync {A} y (m : P A) full a rest : goes m full a rest -> goes (with_sync y m) full a rest.
Proof. intros H b es. unfold with_sync. destruct (H b es) as [E|(b' & E)]; rewrite E; eauto. Qed.
Lemma goes_force {A} (m : P A) full a rest : goes m full a rest -> goes (force_sync_skip m) full a rest.
Proof. intros H b es. unfold force_sync_skip. destruct (H b es) as [E|(b' & E)]; rewrite E; eauto. Qed.
Lemma goes_eat {A} (f : token -> A + perror) t r a : f t = inl a -> goes (eat f) (t :: r) a r.
Proof. intros H b es. unfold eat, with_token; cbn. rewrite H. right. eexists; reflexivity. Qed.
Lemma goes_peek t r : goes ppeek (t :: r) (hd_error r) (t :: r).
Proof. intros b es. right. eexists; reflexivity. Qed.
Lemma goes_expect k p r : simple_kind k = true -> goes (expect k) (tok k p :: r) p r.
Proof. intros H. apply goes_eat. cbn. rewrite kind_eqb_refl by auto. reflexivity. Qed.
Lemma goes_expect_sync k y p r : simple_kind k = true -> goes (expect_sync k y) (tok k p :: r) p r.
Proof. intros. now apply goes_with_sync, goes_expect. Qed.
Lemma goes_expect_keep k y p r : simple_kind k = true -> goes (expect_keep k y) (tok k p :: r) p r.
Proof. intros. now apply goes_synchronize, goes_with_sync, goes_expect. Qed.
Lemma goes_identifier x p r : goes parse_identifier (tok (TIdentifier x) p :: r) (x, p) r.
Proof. apply goes_with_sync, goes_eat. reflexivity. Qed.
Lemma goes_argument ps p r : goes parse_argument (tok (TArgument ps) p :: r) (argument_of ps p) r.
Proof. apply goes_eat. cbn. now rewrite build_arg_spec. Qed.

Ltac gstep := eapply goes_bind; [apply goes_step|].

Lemma params_goes ts ps m q r :
  gparams ts ps -> goes (comma_sep m ill_ident parse_identifier TCloseParens) (ts ++ tok TCloseParens q :: r) ps (tok TCloseParens q :: r).
Proof.
  unfold comma_sep. intros H; revert m; induction H; intros m; (destruct m; [apply goes_fuel|]); cbn [sep_by app];
    apply goes_with_token; cbn [hd_error tk_kind kind_eqb].
  - apply goes_ret.
  - eapply goes_bind; [apply goes_synchronize, goes_identifier|].
    apply goes_with_token; cbn [hd_error tk_kind kind_eqb]. apply goes_ret.
  - eapply goes_bind; [apply goes_synchronize, goes_identifier|].
    apply goes_with_token; cbn [hd_error tk_kind kind_eqb]. gstep.
    eapply goes_bind; [apply IHgparams|]. apply goes_ret.
Qed.

(** ** Commands *)

Lemma env_goes ts env m rest :
  genvironment ts env ->
  match rest with mktoken (TArgument ps) _ :: _ => is_assignment ps = false | _ => True end ->
  goes (parse_env m) (ts ++ rest) env rest.
Proof.
  intros H Hr; revert m; induction H; intros m; (destruct m; [apply goes_fuel|]); cbn [parse_env app].
  - eapply goes_bind with (a := None) (mid := rest); [|apply goes_ret].
    unfold parse_env_assign. apply goes_with_token.
    destruct rest as [|[k p] rest]; cbn [hd_error]; [apply goes_ret|]. cbn [tk_kind].
    destruct k; try apply goes_ret. destruct parts as [|[] [|[] ?]]; try apply goes_ret. discriminate Hr.
  - eapply goes_bind with (mid := ts ++ rest).
    + unfold parse_env_assign. apply goes_with_token. cbn [hd_error tk_kind tk_pos]. gstep. apply goes_ret.
    + eapply goes_bind; [apply IHgenvironment|]. rewrite build_arg_spec. apply goes_ret.
Qed.

Lemma fd_goes l n p r : fd_text l n -> goes parse_file_descriptor (tok (TArgument [PUnquoted (AULiteral l)]) p :: r) (Some n) r.
Proof.
  intros H. apply parse_u8_spec in H. unfold parse_file_descriptor. apply goes_with_token. cbn [hd_error tk_kind].
  rewrite H. gstep. apply goes_ret.
Qed.

Lemma fd_none_goes ts :
  match ts with mktoken (TArgument [PUnquoted (AULiteral l)]) _ :: _ => forall n, ~ fd_text l n | _ => True end ->
  goes parse_file_descriptor ts None ts.
Proof.
  intros H. unfold parse_file_descriptor. apply goes_with_token.
  destruct ts as [|[k p] ts]; cbn [hd_error]; [apply goes_ret|]. cbn [tk_kind].
  destruct k; try apply goes_ret. destruct parts as [|[[l|]| | | |] [|]]; try apply goes_ret.
  destruct (parse_u8 l) as [n|] eqn:E; [|apply goes_ret]. apply parse_u8_spec in E. destruct (H _ E).
Qed.

Lemma source_goes a ts src append p r R rest :
  gsource a ts src ->
  goes (parse_output_redirection src) (tok (TCmdOperator (COutput append)) p :: r) R rest ->
  goes parse_redirection (ts ++ tok (TCmdOperator (COutput append)) p :: r) R rest.
Proof.
  intros Hs H. unfold parse_redirection. apply goes_with_token. destruct Hs; cbn [app hd_error tk_kind].
  - eapply goes_bind; [apply fd_none_goes; exact I|]. exact H.
  - eapply goes_bind; [apply fd_goes; eassumption|]. exact H.
Qed.

Lemma redirection_goes a ts R rest : gredirection a ts R -> goes parse_redirection (ts ++ rest) R rest.
Proof.
  intros H; destruct H; rewrite <- ?app_assoc; cbn [app].
  - unfold parse_redirection. apply goes_with_token. cbn [hd_error tk_kind]. gstep.
    eapply goes_bind; [apply goes_with_sync, goes_argument|]. apply goes_ret.
  - eapply source_goes; eauto. unfold parse_output_redirection. apply goes_with_token. cbn [hd_error tk_kind]. gstep.
    eapply goes_bind; [apply goes_with_sync, goes_argument|]. apply goes_ret.
  - eapply source_goes; eauto. unfold parse_output_redirection. apply goes_with_token. cbn [hd_error tk_kind]. gstep.
    eapply goes_bind; [apply fd_goes; eassumption|]. apply goes_ret.
  - eapply source_goes; eauto. unfold parse_output_redirection. apply goes_with_token. cbn [hd_error tk_kind]. gstep.
    eapply goes_bind; [apply fd_none_goes|].
    + destruct ps as [|[[l|]| | | |] [|]]; eauto.
    + eapply goes_bind; [apply goes_with_sync, goes_argument|]. apply goes_ret.
Qed.

Lemma redirection_start a ts R :
  gredirection a ts R ->
  exists k p r, ts = tok k p :: r /\
    ((exists o, k = TCmdOperator o /\ o <> CTry) \/
     (exists l n o q r', k = TArgument [PUnquoted (AULiteral l)] /\ fd_text l n /\ (a = true -> is_number_text l) /\
        r = tok (TCmdOperator (COutput o)) q :: r')).
Proof.
  destruct 1; try destruct H; cbn [app]; eexists _, _, _; (split; [reflexivity|]);
    try (left; eexists; split; [reflexivity|discriminate]);
    right; eexists _, _, _, _, _; repeat split; eauto.
Qed.

Lemma operators_goes a ts rs abort m rest :
  goperators a ts rs abort -> cmd_stop rest -> goes (parse_operators m) (ts ++ rest) (rs, abort) rest.
Proof.
  intros H Hr; revert m; induction H; intros m; (destruct m; [apply goes_fuel|]); cbn [parse_operators].
  - apply goes_with_token. cbn [app]. destruct rest as [|[k p] rest]; [destruct Hr|]. cbn [hd_error tk_kind].
    destruct k; try destruct Hr; apply goes_ret.
  - apply goes_with_token. cbn [app hd_error tk_kind is_basic_command_terminator]. gstep. apply goes_ret.
  - rewrite <- app_assoc.
    assert (Hd : goes (r <- synchronize RIllFormed parse_redirection ;;
               '(rs, abort) <- parse_operators m ;; ret (r :: rs, abort)) (t1 ++ t2 ++ rest) (r :: rs, abort) rest).
    { eapply goes_bind; [apply goes_synchronize; eapply redirection_goes; eauto|].
      eapply goes_bind; [apply IHgoperators|]. apply goes_ret. }
    apply goes_with_token.
    destruct (redirection_start _ _ _ H) as (k & p & r' & -> & [(o & -> & Ho)|(l & n & o & q & r2 & -> & _ & _ & ->)]);
      cbn [app hd_error tk_kind is_basic_command_terminator].
    + destruct o; [exact Hd..|congruence].
    + exact Hd.
Qed.

Lemma redirection_next_false k p r :
  (forall l, k = TArgument [PUnquoted (AULiteral l)] -> is_number_text l -> ~ redirects r) ->
  goes is_redirection_next (tok k p :: r) false (tok k p :: r).
Proof.
  intros H. unfold is_redirection_next. apply goes_with_token. cbn [hd_error tk_kind].
  destruct k; try apply goes_ret. destruct parts as [|part [|]]; try apply goes_ret.
  destruct (is_unquoted_number part) eqn:E; [|apply goes_ret].
  destruct part as [[l|]| | | |]; try discriminate. cbn in E. apply forallb_digit in E.
  specialize (H l eq_refl E).
  eapply goes_bind; [apply goes_peek|].
  destruct r as [|[k' p'] r]; cbn [hd_error tk_kind]; [apply goes_ret|].
  destruct (is_redirection k') eqn:Ek; [|apply goes_ret].
  exfalso; apply H. destruct k'; try discriminate. destruct o; try discriminate; exact I.
Qed.

Lemma arguments_goes m ts args tail :
  garguments tail ts args ->
  (exists k p r, tail = tok k p :: r /\
     ((forall ps, k <> TArgument ps) \/
      exists l, k = TArgument [PUnquoted (AULiteral l)] /\ is_number_text l /\ redirects r)) ->
  goes (parse_arguments m) (ts ++ tail) args tail.
Proof.
  intros H Ht; revert m; induction H; intros m; (destruct m; [apply goes_fuel|]); cbn [parse_arguments app].
  - destruct Ht as (k & p & r & -> & [Hk|(l & -> & Hl & Hr)]).
    + eapply goes_bind; [apply redirection_next_false; intros l ->; destruct (Hk _ eq_refl)|].
      cbv iota. apply goes_with_token. cbn [hd_error tk_kind]. destruct k; try apply goes_ret. destruct (Hk _ eq_refl).
    + eapply goes_bind with (a := true); [|cbv iota; apply goes_ret].
      unfold is_redirection_next. apply goes_with_token. cbn [hd_error tk_kind is_unquoted_number].
      apply forallb_digit in Hl. rewrite Hl. eapply goes_bind; [apply goes_peek|].
      destruct r as [|[k' p'] r]; [destruct Hr|]. cbn [hd_error tk_kind].
      assert (is_redirection k' = true) as ->; [|apply goes_ret].
      destruct k'; try destruct Hr. destruct o; try destruct Hr; reflexivity.
  - eapply goes_bind; [apply redirection_next_false|].
    + intros l [= ->] Hl. apply H. eauto.
    + cbv iota. apply goes_with_token. cbn [hd_error tk_kind].
      eapply goes_bind; [apply goes_argument|]. eapply goes_bind; [apply IHgarguments; exact Ht|]. apply goes_ret.
Qed.

Lemma operators_tail ts rs abort rest :
  goperators true ts rs abort -> cmd_stop rest ->
  exists k p r, ts ++ rest = tok k p :: r /\
     ((forall ps, k <> TArgument ps) \/
      exists l, k = TArgument [PUnquoted (AULiteral l)] /\ is_number_text l /\ redirects r).
Proof.
  intros H Hr. inversion H; subst; cbn [app].
  - destruct rest as [|[k p] rest]; [destruct Hr|]. eexists _, _, _; split; [reflexivity|]. left.
    destruct k; try destruct Hr; discriminate.
  - eexists _, _, _; split; [reflexivity|]. left; discriminate.
  - destruct (redirection_start _ _ _ H0) as (k & p & r' & -> & [(o & -> & Ho)|(l & n & o & q & r2 & -> & _ & Hn & ->)]);
      cbn [app]; eexists _, _, _; (split; [reflexivity|]).
    + left; discriminate.
    + right. exists l. repeat split; auto.
Qed.

Lemma basic_goes ts b m rest : gbasic ts b -> cmd_stop rest -> goes (parse_basic_command m) (ts ++ rest) b rest.
Proof.
  intros H Hr. destruct H. rewrite <- app_assoc. cbn [app]. rewrite <- app_assoc. unfold parse_basic_command.
  eapply goes_bind; [apply env_goes; eauto|].
  eapply goes_bind; [apply goes_with_sync, goes_argument|].
  eapply goes_bind; [apply arguments_goes|].
  - eapply garguments_follow; [|eassumption]. destruct t3; cbn; [|tauto].
    destruct rest as [|[k q] rest]; [destruct Hr|]. destruct k; try destruct Hr; cbn; tauto.
  - eapply operators_tail; eauto.
  - eapply goes_bind; [apply goes_with_sync; eapply operators_goes; eauto|]. apply goes_ret.
Qed.

Definition command_rest (ts : list token) : Prop :=
  match ts with mktoken (TSemicolon | TCloseCommand) _ :: _ => True | _ => False end.

Lemma command_rest_stop ts : command_rest ts -> cmd_stop ts.
Proof. destruct ts as [|[[] ?] ?]; cbn; auto. Qed.

Lemma gpipe_rest ts bs rest : gpipe ts bs -> command_rest rest -> cmd_stop (ts ++ rest).
Proof. destruct 1; cbn; [apply command_rest_stop|auto]. Qed.

Lemma pipe_goes ts bs n m rest : gpipe ts bs -> command_rest rest -> goes (parse_pipe m (parse_basic_command n)) (ts ++ rest) bs rest.
Proof.
  intros H Hr; revert m; induction H; intros m; (destruct m; [apply goes_fuel|]); cbn [parse_pipe app]; apply goes_with_token.
  - destruct rest as [|[k p] rest]; [destruct Hr|]. cbn [hd_error]. destruct k; try destruct Hr; apply goes_ret.
  - cbn [hd_error]. gstep. rewrite <- app_assoc.
    eapply goes_bind; [apply goes_synchronize, basic_goes; [eassumption|eapply gpipe_rest; eauto]|].
    eapply goes_bind; [apply IHgpipe|]. apply goes_ret.
Qed.

Lemma command_goes ts c n rest : gcommand ts c -> command_rest rest -> goes (parse_command n) (ts ++ rest) c rest.
Proof.
  intros H Hr. destruct H. rewrite <- app_assoc. unfold parse_command.
  eapply goes_bind; [apply goes_synchronize, basic_goes; [eassumption|eapply gpipe_rest; eauto]|].
  eapply goes_bind; [apply pipe_goes; eauto|]. apply goes_ret.
Qed.

Lemma gcommand_start ts c : gcommand ts c -> exists ps p r, ts = tok (TArgument ps) p :: r.
Proof.
  destruct 1 as [t1 b t2 bs H _]. destruct H as [t1 env ps p ? ? ? ? ? H]. destruct H; cbn [app]; eauto.
Qed.

Lemma commands_goes ts cs n m q r :
  gcommands ts cs ->
  goes (semicolon_sep m ill_command (parse_command n) TCloseCommand) (ts ++ tok TCloseCommand q :: r) cs (tok TCloseCommand q :: r).
Proof.
  unfold semicolon_sep.
  intros H; revert m; induction H; intros m; (destruct m; [apply goes_fuel|]); cbn [sep_by]; apply goes_with_token.
  - cbn [app hd_error tk_kind kind_eqb]. apply goes_ret.
  - destruct (gcommand_start _ _ H) as (ps & p & r' & E). rewrite E at 1. cbn [app hd_error tk_kind kind_eqb].
    eapply goes_bind; [apply goes_synchronize, command_goes; [eassumption|exact I]|].
    apply goes_with_token. cbn [hd_error tk_kind kind_eqb]. apply goes_ret.
  - destruct (gcommand_start _ _ H) as (ps & p' & r' & E). rewrite E at 1. cbn [app hd_error tk_kind kind_eqb].
    rewrite <- app_assoc. cbn [app].
    eapply goes_bind; [apply goes_synchronize, command_goes; [eassumption|exact I]|].
    apply goes_with_token. cbn [hd_error tk_kind kind_eqb]. gstep.
    eapply goes_bind; [apply IHgcommands|]. apply goes_ret.
Qed.

Lemma command_block_goes ts b p n rest : gcommand_block ts b p -> goes (parse_command_block n) (ts ++ rest) b rest.
Proof.
  intros H. unfold parse_command_block.
  assert (Ho : forall k kind p r, opens k = Some kind -> goes (with_sync YSkipOne (eat (fun t =>
            match block_kind_of (tk_kind t) with
            | Some k => inl k
            | None => inr (unexpected_msg t "command block")
            end))) (tok k p :: r) kind r).
  { intros k kind q r E. apply goes_with_sync, goes_eat. change block_kind_of with opens. cbn [tk_kind]. rewrite E. reflexivity. }
  destruct H as [k kind p t1 c q Hk Hc|k kind p t1 c sp t2 cs q Hk Hc Hcs]; cbn [app]; rewrite <- app_assoc; cbn [app].
  - eapply goes_bind; [apply Ho; exact Hk|]. apply goes_with_token.
    destruct (gcommand_start _ _ Hc) as (ps & p' & r' & E). rewrite E at 1. cbn [app hd_error].
    eapply goes_bind; [apply command_goes; [eassumption|exact I]|].
    eapply goes_bind; [apply goes_with_token; cbn [hd_error]; apply goes_ret|].
    eapply goes_bind; [apply goes_with_sync, goes_expect; reflexivity|]. apply goes_ret.
  - eapply goes_bind; [apply Ho; exact Hk|]. apply goes_with_token.
    destruct (gcommand_start _ _ Hc) as (ps & p' & r' & E). rewrite E at 1. cbn [app hd_error].
    eapply goes_bind; [apply command_goes; [eassumption|exact I]|].
    eapply goes_bind; [apply goes_with_token; cbn [hd_error]; gstep; rewrite <- app_assoc; apply commands_goes; eassumption|].
    eapply goes_bind; [apply goes_with_sync, goes_expect; reflexivity|]. apply goes_ret.
Qed.

(** ** Expressions *)

Definition check_at (l : nat) : operator -> bool :=
  match l with
  | 3 => is_factor | 4 => is_term | 5 => is_concat | 6 => is_comparison | 7 => is_equality | 8 => is_and
  | _ => is_or
  end.

Definition pe_ (n : nat) : P expr := fun s => parse_expression n s.
Definition pb_ (n : nat) : P block := fun s => parse_block n s.

(** The function that parses level [l] (2 and above). *)
Fixpoint lvl (n l : nat) : P expr :=
  match l with
  | S ((S (S _)) as l') => parse_binop n (lvl n l') (check_at l)
  | _ => parse_prefix n (pe_ n) (pb_ n) n
  end.

Lemma parse_expression_lvl n : parse_expression (S n) = lvl n 9.
Proof. reflexivity. Qed.

Lemma check_at_spec o l b : binop o = Some (S l, b) -> 2 <= l -> check_at (S l) o = true /\ binary_of o = b.
Proof. destruct o; cbn; intros [= <- <-]; intros; split; auto. Qed.

Lemma check_at_stops o l p r : 2 <= l -> l < 9 -> stops (S l) (tok (TOperator o) p :: r) -> check_at (S l) o = false.
Proof.
  intros H1 H2 H3. destruct (check_at (S l) o) eqn:E; auto. exfalso.
  destruct o; cbn in H3;
    (do 9 (destruct l as [|l]; [first [discriminate E | exfalso; clear - H1; lia | exfalso; clear - H3; lia]|])); clear - H2; lia.
Qed.

(** What is proved by induction about an expression. *)
Definition loops {A} (f : P A) (full : list token) (loop : nat -> P A) (rest : list token) : Prop :=
  forall b es, f (st full b es) = PFuel \/ exists m b', f (st full b es) = loop m (st rest b' es).

Definition parses (l : nat) (ts : list token) (e : expr) : Prop :=
  forall n rest, stops (pred l) rest ->
  match l with
  | 0 => goes (parse_primary n (pe_ n) (pb_ n)) (ts ++ rest) e rest
  | 1 => loops (parse_postfix n (pe_ n) (pb_ n)) (ts ++ rest) (fun m => postfix_loop n (pe_ n) m e) rest
  | 2 => forall m, goes (parse_prefix n (pe_ n) (pb_ n) m) (ts ++ rest) e rest
  | S l' => loops (lvl n l) (ts ++ rest) (fun m => binop_loop m (lvl n l') (check_at l) e) rest
  end.

Lemma loops_goes {A} (f : P A) full loop rest a :
  loops f full loop rest -> (forall m, goes (loop m) rest a rest) -> goes f full a rest.
Proof.
  intros H Hl b es. destruct (H b es) as [E|(m & b' & E)]; [left; exact E|]. rewrite E. apply Hl.
Qed.

Lemma loops_after {A} (f : P A) full loop1 mid loop2 rest :
  loops f full loop1 mid -> (forall m, loops (loop1 m) mid loop2 rest) -> loops f full loop2 rest.
Proof.
  intros H Hl b es. destruct (H b es) as [E|(m & b' & E)]; [left; exact E|]. rewrite E. apply Hl.
Qed.
Lemma loops_bind {A B} (m : P A) (k : A -> P B) full a mid loop rest :
  goes m full a mid -> loops (k a) mid loop rest -> loops (bind m k) full loop rest.
Proof.
  intros H1 H2 b es. unfold bind. destruct (H1 b es) as [E|(b' & E)]; rewrite E; [left; reflexivity|]. apply H2.
Qed.
Lemma loops_fuel {A} full loop rest : loops (@out_of_fuel A) full loop rest.
Proof. intros b es. left; reflexivity. Qed.
Lemma loops_here {A} (loop : nat -> P A) m rest : loops (loop m) rest loop rest.
Proof. intros b es. right. exists m, b. reflexivity. Qed.
Lemma loops_with_token {A} (k : option token -> P A) full loop rest :
  loops (k (hd_error full)) full loop rest -> loops (with_token k) full loop rest.
Proof. intros H b es. apply H. Qed.

Ltac lstep := eapply loops_bind; [apply goes_step|].

Lemma postfix_stop n m e rest : stops 1 rest -> goes (postfix_loop n (pe_ n) m e) rest e rest.
Proof.
  intros H. destruct m; [apply goes_fuel|]. cbn [postfix_loop]. apply goes_with_token.
  destruct rest as [|[k p] rest]; cbn [hd_error]; [apply goes_ret|]. cbn in H.
  destruct k; try apply goes_ret; cbn in H; try lia. destruct o; try apply goes_ret; cbn in H; lia.
Qed.

Lemma binop_stop l n m e rest : 2 <= l -> l < 9 -> stops (S l) rest -> goes (binop_loop m (lvl n l) (check_at (S l)) e) rest e rest.
Proof.
  intros Hl Hl9 H. destruct m; [apply goes_fuel|]. cbn [binop_loop]. apply goes_with_token.
  destruct rest as [|[k p] rest]; cbn [hd_error]; [apply goes_ret|].
  destruct k; try apply goes_ret. rewrite (check_at_stops _ _ _ _ Hl Hl9 H). apply goes_ret.
Qed.

Lemma stops_le l l' ts : l' <= l -> stops l ts -> stops l' ts.
Proof. destruct ts as [|[k p] ts]; cbn; auto. destruct (cont_level k); auto; lia. Qed.

Lemma parses_lvl l ts e n rest : parses l ts e -> 2 <= l -> l <= 9 -> stops l rest -> goes (lvl n l) (ts ++ rest) e rest.
Proof.
  intros H Hl Hl9 Hs. specialize (H n rest (stops_le l (pred l) rest ltac:(lia) Hs)).
  destruct l as [|[|[|l]]]; [lia|lia|apply H|].
  eapply loops_goes; [exact H|]. intros m. apply (binop_stop (S (S l))); [lia|lia|exact Hs].
Qed.

Lemma parses_pe ts e n rest : parses 9 ts e -> stops 9 rest -> goes (pe_ n) (ts ++ rest) e rest.
Proof.
  intros H Hs. destruct n as [|n]; [apply goes_fuel|]. intros b es. unfold pe_. rewrite parse_expression_lvl.
  apply (parses_lvl 9); auto with arith.
Qed.

Lemma gexpr_low_start l ts e : gexpr l ts e -> l <= 1 -> exists k p r, ts = tok k p :: r /\ forall o, k <> TOperator o.
Proof.
  induction 1; intros Hl; try lia; try (eexists _, _, _; split; [reflexivity|discriminate]);
  try (destruct (IHgexpr ltac:(lia)) as (k & p' & r & -> & Hk); cbn [app]; eexists _, _, _; split; [reflexivity|exact Hk]).
  - destruct H; (eexists _, _, _; split; [reflexivity|]); destruct k; discriminate.
  - destruct (IHgexpr1 ltac:(lia)) as (k & p' & r & -> & Hk). cbn [app]; eexists _, _, _; split; [reflexivity|exact Hk].
  - destruct o; cbn in H; try discriminate; injection H as <- _; lia.
Qed.

Definition exprs_parse (ts : list token) (es : list expr) : Prop :=
  forall n m stop q r, (stop = TCloseParens \/ stop = TCloseBracket) ->
  goes (comma_sep m EIllFormed (pe_ n) stop) (ts ++ tok stop q :: r) es (tok stop q :: r).

Definition items_parse (ts : list token) (items : list ((symbol * pos) * expr)) : Prop :=
  forall n m q r,
  goes (comma_sep m (ill_ident, EIllFormed) (parse_dict_item (pe_ n)) TCloseBracket)
       (ts ++ tok TCloseBracket q :: r) items (tok TCloseBracket q :: r).

Definition function_parses (ts : list token) (ps : list (symbol * pos)) (b : block) : Prop :=
  forall n rest, goes (parse_function n (pb_ n)) (ts ++ rest) (ps, b) rest.

Definition cond_parses (ts : list token) (c : expr) (t e : block) : Prop :=
  forall n m q r, goes (parse_condblock (pe_ n) (pb_ n) m) (ts ++ kw KEnd q :: r) (c, t, e) (kw KEnd q :: r).

Definition else_parses (ts : list token) (e : block) : Prop :=
  terminated (ts ++ [kw KEnd ill_pos]) = true /\
  forall n m q r,
  goes (with_token (fun t =>
        match t with
        | Some (mktoken (TKeyword KEnd) _) => ret (BBlock [])
        | Some (mktoken (TKeyword KElseIf) p) =>
          _ <- step ;;
          '(c, t, e) <- parse_condblock (pe_ n) (pb_ n) m ;;
          ret (BBlock [SExpr (EIf c t e p)])
        | Some (mktoken (TKeyword KElse) _) => _ <- step ;; (pb_ n)
        | Some t => _ <- take_token ;; fail (unexpected_msg t "end, else or elseif") YBlockTerminator
        | None => fail PUnexpectedEof YKeep
        end)) (ts ++ kw KEnd q :: r) e (kw KEnd q :: r).

Definition not_assign (ts : list token) : Prop := forall p r, ts <> tok (TOperator OAssign) p :: r.

Definition statement_parses (ts : list token) (s : statement) (ends : bool) : Prop :=
  forall n rest, (ends = true -> continues rest = false) -> not_assign rest ->
  goes (parse_statement n (pe_ n) (pb_ n)) (ts ++ rest) s rest.

Definition statements_parse (nested : bool) (ts : list token) (ss : list statement) : Prop :=
  forall n m rest, (nested = true -> terminated rest = true) ->
  rest = [] \/ terminated rest = true \/ (ends_in_return ss /\ continues rest = false) ->
  goes (block_loop n (pe_ n) (pb_ n) m) (ts ++ rest) ss rest.

Lemma continues_stops ts : continues ts = false -> stops 9 ts.
Proof. destruct ts as [|[k p] ts]; cbn; auto. destruct k; cbn; try discriminate; auto. destruct o; cbn; auto; discriminate. Qed.

Lemma terminated_continues ts : terminated ts = true -> continues ts = false /\ not_assign ts.
Proof.
  destruct ts as [|[k p] ts]; [discriminate|]. cbn. destruct k; try discriminate. intros _. split; auto. intros q r; discriminate.
Qed.

Lemma statements_pb ts ss n rest :
  statements_parse true ts ss -> terminated rest = true -> goes (pb_ n) (ts ++ rest) (BBlock ss) rest.
Proof.
  intros H Ht. destruct n as [|n]; [apply goes_fuel|]. unfold pb_. cbn [parse_block].
  intros b es. apply (goes_bind _ (fun ss => ret (BBlock ss)) (ts ++ rest) ss rest); [apply H; auto|apply goes_ret].
Qed.

Lemma starts_not_close ts stop :
  starts_expr ts -> stop = TCloseParens \/ stop = TCloseBracket ->
  exists t r, ts = t :: r /\ kind_eqb (tk_kind t) stop = false.
Proof.
  intros H Hs. destruct ts as [|[k p] r]; [destruct H|]. exists (tok k p), r. split; auto.
  cbn [tk_kind]. cbn in H. destruct Hs as [-> | ->]; destruct k; try destruct H; reflexivity.
Qed.

Lemma starts_not_term ts : starts_expr ts -> exists t r, ts = t :: r /\ is_block_terminator (tk_kind t) = false.
Proof.
  intros H. destruct ts as [|[k p] r]; [destruct H|]. exists (tok k p), r. split; auto.
  cbn [tk_kind]. cbn in H. destruct k; try destruct H; try reflexivity. destruct k; try destruct H; reflexivity.
Qed.

(** A statement starting like an expression is parsed as one. *)
Lemma expression_statement n ts a rest :
  starts_expr ts ->
  goes (e <- pe_ n ;;
          with_token (fun t =>
            match t with
            | Some (mktoken (TOperator OAssign) p) =>
              _ <- step ;; r <- pe_ n ;; ret (SAssign e r p)
            | _ => ret (SExpr e)
            end)) ts a rest ->
  goes (parse_statement n (pe_ n) (pb_ n)) ts a rest.
Proof.
  intros Hs H. unfold parse_statement. apply goes_with_token.
  destruct ts as [|[k p] ts]; [destruct Hs|]. cbn [hd_error]. cbn in Hs.
  destruct k; try exact H; try destruct Hs. destruct k; try exact H; try destruct Hs.
  destruct H0 as (r & ->). eapply goes_bind; [apply goes_peek|]. cbn [hd_error]. exact H.
Qed.

Lemma statement_start ts s b : gstatement ts s b ->
  (match s with SReturn _ _ => False | _ => True end) /\
  exists t r, ts = t :: r /\ is_block_terminator (tk_kind t) = false.
Proof.
  destruct 1; (split; [exact I|]); try (eexists _, _; split; reflexivity).
  - apply gexpr_starts, starts_not_term in H as (t & r & -> & Ht). cbn [app]. eauto.
  - apply gexpr_starts, starts_not_term in H as (t & r & -> & Ht). eauto.
Qed.

Lemma grammar_parses :
  (forall l ts e, gexpr l ts e -> parses l ts e) /\
  (forall ts es, gexprs ts es -> exprs_parse ts es) /\
  (forall ts items, gitems ts items -> items_parse ts items) /\
  (forall ts ps b, gfunction ts ps b -> function_parses ts ps b) /\
  (forall ts c t e, gcond ts c t e -> cond_parses ts c t e) /\
  (forall ts e, gelse ts e -> else_parses ts e) /\
  (forall ts s b, gstatement ts s b -> statement_parses ts s b) /\
  (forall nested ts ss, gstatements nested ts ss -> statements_parse nested ts ss).
Proof.
  apply grammar_ind.
  - (* identifier *) intros s p n rest _. unfold parse_primary. apply goes_with_token. cbn [app hd_error]. gstep. apply goes_ret.
  - intros p n rest _. unfold parse_primary. apply goes_with_token. cbn [app hd_error]. gstep. apply goes_ret.
  - intros l p n rest _. unfold parse_primary. apply goes_with_token. cbn [app hd_error]. gstep. apply goes_ret.
  - (* array *) intros p ts items q _ IH n rest _. unfold parse_primary. apply goes_with_token. cbn [app hd_error]. gstep.
    rewrite <- app_assoc. cbn [app]. eapply goes_bind; [apply IH; auto|].
    eapply goes_bind; [apply goes_expect_sync; reflexivity|]. apply goes_ret.
  - (* dict *) intros p ts items q _ IH n rest _. unfold parse_primary. apply goes_with_token. cbn [app hd_error]. gstep.
    rewrite <- app_assoc. cbn [app]. eapply goes_bind; [apply IH; auto|].
    eapply goes_bind; [apply goes_expect_sync; reflexivity|]. apply goes_ret.
  - (* function *) intros p ts ps b _ IH n rest _. unfold parse_primary. apply goes_with_token. cbn [app hd_error]. gstep.
    eapply goes_bind; [apply IH|]. apply goes_ret.
  - (* command *) intros ts b p H n rest _. unfold parse_primary. apply goes_with_token.
    assert (Hd : goes (b <- synchronize ill_command_block (parse_command_block n) ;; ret (ECommand b p)) (ts ++ rest) (ECommand b p) rest).
    { eapply goes_bind; [apply goes_synchronize; eapply command_block_goes; eauto|]. apply goes_ret. }
    destruct H; cbn [app hd_error]; destruct k; try discriminate; exact Hd.
  - (* if *) intros p ts c t e q _ IH n rest _. unfold parse_primary. apply goes_with_token. cbn [app hd_error]. gstep.
    rewrite <- app_assoc. cbn [app]. eapply goes_bind; [apply IH|].
    eapply goes_bind; [apply goes_expect_sync; reflexivity|]. apply goes_ret.
  - (* parentheses *) intros p ts e q _ IH n rest _. unfold parse_primary. apply goes_with_token. cbn [app hd_error]. gstep.
    rewrite <- app_assoc. cbn [app]. eapply goes_bind; [apply goes_synchronize, parses_pe; [exact IH|exact I]|].
    eapply goes_bind; [apply goes_expect_sync; reflexivity|]. apply goes_ret.
  - (* call *) intros t1 e p t2 args q _ IH1 _ IH2 n rest _. rewrite <- app_assoc. cbn [app].
    eapply loops_after; [apply IH1; cbn; lia|]. intros m. cbv beta. destruct m; [apply loops_fuel|]. cbn [postfix_loop].
    apply loops_with_token. cbn [hd_error]. lstep. rewrite <- app_assoc. cbn [app].
    eapply loops_bind; [apply IH2; auto|].
    eapply loops_bind; [apply goes_expect_sync; reflexivity|]. apply (loops_here (fun m => postfix_loop n (pe_ n) m _)).
  - (* index *) intros t1 e p t2 f q _ IH1 _ IH2 n rest _. rewrite <- app_assoc. cbn [app].
    eapply loops_after; [apply IH1; cbn; lia|]. intros m. cbv beta. destruct m; [apply loops_fuel|]. cbn [postfix_loop].
    apply loops_with_token. cbn [hd_error]. lstep. rewrite <- app_assoc. cbn [app].
    eapply loops_bind; [apply goes_synchronize, parses_pe; [exact IH2|exact I]|].
    eapply loops_bind; [apply goes_expect_sync; reflexivity|]. apply (loops_here (fun m => postfix_loop n (pe_ n) m _)).
  - (* dot *) intros t1 e p s q _ IH1 n rest _. rewrite <- app_assoc. cbn [app].
    eapply loops_after; [apply IH1; cbn; lia|]. intros m. cbv beta. destruct m; [apply loops_fuel|]. cbn [postfix_loop].
    apply loops_with_token. cbn [hd_error]. lstep.
    eapply loops_bind; [apply goes_identifier|]. apply (loops_here (fun m => postfix_loop n (pe_ n) m _)).
  - (* try *) intros t1 e p _ IH1 n rest _. rewrite <- app_assoc. cbn [app].
    eapply loops_after; [apply IH1; cbn; lia|]. intros m. cbv beta. destruct m; [apply loops_fuel|]. cbn [postfix_loop].
    apply loops_with_token. cbn [hd_error]. lstep. apply (loops_here (fun m => postfix_loop n (pe_ n) m _)).
  - (* prefix *) intros o u p ts e Ho _ IH n rest Hs m. destruct m; [apply goes_fuel|]. cbn [parse_prefix app].
    apply goes_with_token. cbn [hd_error].
    assert (is_prefix o = true /\ unary_of o = u) as [-> <-] by (destruct o; try discriminate; injection Ho; auto).
    gstep. eapply goes_bind; [apply IH; exact Hs|]. apply goes_ret.
  - (* binary *) intros l o bo p t1 e1 t2 e2 Ho H1 IH1 H2 IH2.
    assert (Hl : 2 <= l < 9) by (destruct o; cbn in Ho; try discriminate; injection Ho as <- _; lia).
    intros n rest Hs. cbn [pred] in Hs.
    assert (Hloop : loops (lvl n (S l)) ((t1 ++ tok (TOperator o) p :: t2) ++ rest)
       (fun m => binop_loop m (lvl n l) (check_at (S l)) (EBinary e1 bo e2 p)) rest).
    { rewrite <- app_assoc. cbn [app].
      assert (Hso : stops (pred (S l)) (tok (TOperator o) p :: t2 ++ rest)).
      { cbn. destruct o; cbn in Ho; try discriminate; injection Ho as <- _; cbn; lia. }
      specialize (IH1 n _ Hso). destruct l as [|[|l]]; [lia|lia|].
      eapply loops_after; [exact IH1|]. intros m. cbv beta. destruct m; [apply loops_fuel|]. cbn [binop_loop].
      apply loops_with_token. cbn [hd_error].
      destruct (check_at_spec _ _ _ Ho ltac:(lia)) as [-> <-]. lstep.
      eapply loops_bind; [apply parses_lvl; [exact IH2|lia|lia|exact Hs]|].
      apply (loops_here (fun m => binop_loop m (lvl n (S (S l))) (check_at (S (S (S l)))) _)). }
    destruct l as [|[|l]]; [lia|lia|exact Hloop].
  - (* up *) intros l ts e Hl Hg IH n rest Hs. cbn [pred] in Hs.
    specialize (IH n). destruct l as [|[|[|l]]].
    + intros b es. unfold parse_postfix, bind. destruct (IH rest ltac:(destruct rest as [|[k p] ?]; cbn in *; auto) b es) as [E|(b' & E)]; rewrite E; eauto.
    + intros m. destruct m; [apply goes_fuel|]. cbn [parse_prefix]. apply goes_with_token.
      destruct (gexpr_low_start _ _ _ Hg ltac:(lia)) as (k & p & r & Et & Hk).
      assert (Hp : goes (parse_postfix n (pe_ n) (pb_ n)) (ts ++ rest) e rest).
      { eapply loops_goes; [apply IH; eapply stops_le; [|exact Hs]; lia|]. intros m'. apply postfix_stop. exact Hs. }
      rewrite Et at 1. cbn [app hd_error]. destruct k; try exact Hp. destruct (Hk o eq_refl).
    + assert (Hh : goes (lvl n 2) (ts ++ rest) e rest) by (apply IH; eapply stops_le; [|exact Hs]; lia).
      intros b es. cbn [lvl]. unfold parse_binop, bind. destruct (Hh b es) as [E|(b' & E)]; cbn [lvl] in E; rewrite E; eauto.
    + assert (Hh : goes (lvl n (S (S (S l)))) (ts ++ rest) e rest).
      { eapply loops_goes; [apply IH; eapply stops_le; [|exact Hs]; cbn; lia|]. intros m. apply binop_stop; auto; lia. }
      intros b es. change (lvl n (S (S (S (S l))))) with (parse_binop n (lvl n (S (S (S l)))) (check_at (S (S (S (S l)))))).
      unfold parse_binop, bind. destruct (Hh b es) as [E|(b' & E)]; rewrite E; eauto.
  - (* expressions *) intros n m stop q r Hstop. destruct m; [apply goes_fuel|].
    unfold comma_sep. cbn [sep_by app]. apply goes_with_token. cbn [hd_error tk_kind].
    rewrite kind_eqb_refl by (destruct Hstop as [-> | ->]; reflexivity). apply goes_ret.
  - intros ts e H IH n m stop q r Hstop. destruct m; [apply goes_fuel|].
    unfold comma_sep. cbn [sep_by]. apply goes_with_token.
    destruct (starts_not_close _ _ (gexpr_starts _ _ _ H) Hstop) as (t & r' & Et & Hk).
    rewrite Et at 1. cbn [app hd_error]. rewrite Hk.
    eapply goes_bind; [apply goes_synchronize, parses_pe; [exact IH|destruct Hstop as [-> | ->]; exact I]|].
    apply goes_with_token. cbn [hd_error tk_kind].
    replace (kind_eqb stop TComma) with false by (destruct Hstop as [-> | ->]; reflexivity). apply goes_ret.
  - intros t1 e p t2 es H IH _ IH2 n m stop q r Hstop. destruct m; [apply goes_fuel|].
    unfold comma_sep. cbn [sep_by]. apply goes_with_token.
    destruct (starts_not_close _ _ (gexpr_starts _ _ _ H) Hstop) as (t & r' & Et & Hk).
    rewrite Et at 1. cbn [app hd_error]. rewrite Hk. rewrite <- app_assoc. cbn [app].
    eapply goes_bind; [apply goes_synchronize, parses_pe; [exact IH|exact I]|].
    apply goes_with_token. cbn [hd_error tk_kind kind_eqb]. gstep.
    eapply goes_bind; [apply (IH2 n m); exact Hstop|]. apply goes_ret.
  - (* items *) intros n m q r. destruct m; [apply goes_fuel|].
    unfold comma_sep. cbn [sep_by app]. apply goes_with_token. cbn [hd_error tk_kind kind_eqb]. apply goes_ret.
  - intros s p q ts e H IH n m q' r. destruct m; [apply goes_fuel|].
    unfold comma_sep. cbn [sep_by app]. apply goes_with_token. cbn [hd_error tk_kind kind_eqb].
    eapply goes_bind with (mid := tok TCloseBracket q' :: r).
    + apply goes_synchronize. unfold parse_dict_item.
      eapply goes_bind; [apply goes_synchronize, goes_with_sync, goes_identifier|].
      eapply goes_bind; [apply goes_expect_keep; reflexivity|].
      eapply goes_bind; [apply parses_pe; [exact IH|exact I]|]. apply goes_ret.
    + apply goes_with_token. cbn [hd_error tk_kind kind_eqb]. apply goes_ret.
  - intros s p q t1 e rr t2 items H IH _ IH2 n m q' r. destruct m; [apply goes_fuel|].
    unfold comma_sep. cbn [sep_by app]. apply goes_with_token. cbn [hd_error tk_kind kind_eqb].
    rewrite <- app_assoc. cbn [app].
    eapply goes_bind with (mid := tok TComma rr :: t2 ++ tok TCloseBracket q' :: r).
    + apply goes_synchronize. unfold parse_dict_item.
      eapply goes_bind; [apply goes_synchronize, goes_with_sync, goes_identifier|].
      eapply goes_bind; [apply goes_expect_keep; reflexivity|].
      eapply goes_bind; [apply parses_pe; [exact IH|exact I]|]. apply goes_ret.
    + apply goes_with_token. cbn [hd_error tk_kind kind_eqb]. gstep.
      eapply goes_bind; [apply (IH2 n m)|]. apply goes_ret.
  - (* function *) intros p t1 ps q t2 ss r Hp _ IH n rest. unfold parse_function. cbn [app].
    eapply goes_bind with (a := true).
    { intros b es. destruct (goes_expect TOpenParens p ((t1 ++ tok TCloseParens q :: t2 ++ [kw KEnd r]) ++ rest) eq_refl b es) as [E|(b' & E)]; rewrite E; eauto. }
    rewrite <- app_assoc. cbn [app]. rewrite <- app_assoc. cbn [app].
    eapply goes_bind; [apply params_goes; exact Hp|].
    eapply goes_bind; [apply goes_expect_keep; reflexivity|].
    eapply goes_bind; [apply statements_pb; [exact IH|reflexivity]|].
    eapply goes_bind; [apply goes_expect_sync; reflexivity|]. apply goes_ret.
  - (* cond *) intros t1 c p t2 ss t3 e H1 IH1 H2 IH2 H3 [Ht IH3] n m q r. destruct m; [apply goes_fuel|]. cbn [parse_condblock].
    rewrite <- app_assoc. cbn [app].
    eapply goes_bind; [apply goes_synchronize, parses_pe; [exact IH1|exact I]|].
    eapply goes_bind; [apply goes_expect_keep; reflexivity|]. rewrite <- app_assoc.
    eapply goes_bind; [apply statements_pb; [exact IH2|]|].
    { destruct t3 as [|[k p3] t3]; cbn in Ht |- *; auto. }
    eapply goes_bind; [apply IH3|]. apply goes_ret.
  - (* no else *) split; [reflexivity|]. intros n m q r. apply goes_with_token. cbn [app hd_error]. apply goes_ret.
  - intros p ts ss _ IH. split; [reflexivity|]. intros n m q r. apply goes_with_token. cbn [app hd_error]. gstep.
    apply statements_pb; [exact IH|reflexivity].
  - intros p ts c t e _ IH. split; [reflexivity|]. intros n m q r. apply goes_with_token. cbn [app hd_error]. gstep.
    eapply goes_bind; [apply IH|]. apply goes_ret.
  - (* let *) intros p s q r ts e _ IH n rest Hc Hna. unfold parse_statement. apply goes_with_token. cbn [app hd_error]. gstep.
    eapply goes_bind; [apply goes_synchronize, goes_identifier|].
    eapply goes_bind; [|apply goes_ret]. apply goes_with_token. cbn [hd_error]. gstep.
    apply parses_pe; [exact IH|]. apply continues_stops; auto.
  - intros p s q n rest Hc Hna. unfold parse_statement. apply goes_with_token. cbn [app hd_error]. gstep.
    eapply goes_bind; [apply goes_synchronize, goes_identifier|].
    eapply goes_bind; [|apply goes_ret]. apply goes_with_token.
    destruct rest as [|[k p'] rest]; cbn [hd_error]; [apply goes_ret|]. destruct k; try apply goes_ret.
    destruct o; try apply goes_ret. destruct (Hna p' rest eq_refl).
  - intros p s q ts ps b _ IH n rest Hc Hna. unfold parse_statement. apply goes_with_token. cbn [app hd_error].
    eapply goes_bind; [apply goes_peek|]. cbn [hd_error]. gstep.
    eapply goes_bind; [apply goes_identifier|]. eapply goes_bind; [apply IH|]. apply goes_ret.
  - intros p n rest Hc Hna. unfold parse_statement. apply goes_with_token. cbn [app hd_error]. gstep. apply goes_ret.
  - intros p t1 c q t2 ss r _ IH1 _ IH2 n rest Hc Hna. unfold parse_statement. apply goes_with_token. cbn [app hd_error]. gstep.
    rewrite <- app_assoc. cbn [app].
    eapply goes_bind; [apply goes_synchronize, parses_pe; [exact IH1|exact I]|].
    eapply goes_bind; [apply goes_expect_keep; reflexivity|]. rewrite <- app_assoc. cbn [app].
    eapply goes_bind; [apply statements_pb; [exact IH2|reflexivity]|].
    eapply goes_bind; [apply goes_expect_sync; reflexivity|]. apply goes_ret.
  - intros p s q r t1 e u t2 ss v _ IH1 _ IH2 n rest Hc Hna. unfold parse_statement. apply goes_with_token. cbn [app hd_error]. gstep.
    eapply goes_bind; [apply goes_synchronize, goes_identifier|].
    eapply goes_bind; [apply goes_expect_keep; reflexivity|].
    rewrite <- app_assoc. cbn [app].
    eapply goes_bind; [apply goes_synchronize, parses_pe; [exact IH1|exact I]|].
    eapply goes_bind; [apply goes_expect_keep; reflexivity|]. rewrite <- app_assoc. cbn [app].
    eapply goes_bind; [apply statements_pb; [exact IH2|reflexivity]|].
    eapply goes_bind; [apply goes_expect_sync; reflexivity|]. apply goes_ret.
  - intros t1 e1 p t2 e2 H1 IH1 _ IH2 n rest Hc Hna. apply expression_statement.
    { apply starts_app, starts_app. eapply gexpr_starts; eauto. }
    rewrite <- app_assoc. cbn [app].
    eapply goes_bind; [apply parses_pe; [exact IH1|exact I]|].
    apply goes_with_token. cbn [hd_error]. gstep.
    eapply goes_bind; [apply parses_pe; [exact IH2|]|apply goes_ret]. apply continues_stops; auto.
  - intros ts e H1 IH1 n rest Hc Hna. apply expression_statement.
    { apply starts_app. eapply gexpr_starts; eauto. }
    eapply goes_bind; [apply parses_pe; [exact IH1|apply continues_stops; auto]|].
    apply goes_with_token. destruct rest as [|[k p] rest]; cbn [hd_error]; [apply goes_ret|]. destruct k; try apply goes_ret.
    destruct o; try apply goes_ret. destruct (Hna p rest eq_refl).
  - (* no statement *) intros nested n m rest Hn Hr. destruct m; [apply goes_fuel|]. cbn [block_loop app].
    apply goes_with_token. destruct rest as [|[k p] rest]; cbn [hd_error]; [apply goes_ret|]. cbn [tk_kind].
    destruct Hr as [Hr|[Hr|[(ss & e & q & Hr) _]]]; [discriminate| |destruct ss; discriminate].
    cbn in Hr. rewrite Hr. apply goes_ret.
  - (* return *) intros nested p ts e H IH n m rest Hn Hr. destruct m; [apply goes_fuel|]. cbn [block_loop app].
    apply goes_with_token. cbn [hd_error tk_kind is_block_terminator].
    eapply goes_bind with (a := SReturn e p) (mid := rest); [|apply goes_ret].
    apply goes_synchronize, goes_force. unfold parse_statement. apply goes_with_token. cbn [hd_error]. gstep.
    eapply goes_bind; [|apply goes_ret]. apply goes_with_token.
    destruct (starts_not_term _ (gexpr_starts _ _ _ H)) as (t & r & Et & Ht). rewrite Et at 1. cbn [app hd_error]. rewrite Ht.
    apply parses_pe; [exact IH|]. apply continues_stops.
    destruct Hr as [-> |[Hr|[_ Hr]]]; auto. apply terminated_continues; auto.
  - intros p n m rest Hn Hr. specialize (Hn eq_refl). destruct m; [apply goes_fuel|]. cbn [block_loop app].
    apply goes_with_token. cbn [hd_error tk_kind is_block_terminator].
    eapply goes_bind with (a := SReturn (ELit LNil p) p) (mid := rest); [|apply goes_ret].
    apply goes_synchronize, goes_force. unfold parse_statement. apply goes_with_token. cbn [hd_error]. gstep.
    eapply goes_bind; [|apply goes_ret]. apply goes_with_token.
    destruct rest as [|[k p'] rest]; [discriminate|]. cbn in Hn. cbn [hd_error tk_kind]. rewrite Hn. apply goes_ret.
  - (* a statement and more *) intros nested t1 s ends t2 ss H1 IH1 H2 IH2 Hc n m rest Hn Hr.
    destruct m; [apply goes_fuel|]. cbn [block_loop]. rewrite <- app_assoc.
    destruct (statement_start _ _ _ H1) as (Hret & t & r & Et & Ht).
    apply goes_with_token. rewrite Et at 1. cbn [app hd_error]. rewrite Ht.
    assert (Hr2 : rest = [] \/ terminated rest = true \/ (ends_in_return ss /\ continues rest = false)).
    { destruct Hr as [Hr|[Hr|[(ss' & e & q & E) Hr]]]; auto. right; right. split; auto.
      destruct ss' as [|x ss']; cbn in E; injection E as -> E; [destruct Hret|]. exists ss', e, q. exact E. }
    assert (Hrest : t2 = [] -> continues rest = false /\ not_assign rest).
    { intros ->. apply gstatements_empty in H2 as ->.
      destruct Hr2 as [-> |[Hr2|[(ss' & e & q & E) _]]].
      - split; auto. intros ? ?; discriminate.
      - apply terminated_continues; auto.
      - destruct ss'; discriminate. }
    eapply goes_bind with (a := s) (mid := t2 ++ rest).
    + apply goes_synchronize, goes_force, IH1.
      * intros He. destruct t2 as [|[k2 p2] t2]; [apply Hrest; auto|]. apply Hc, He.
      * destruct t2 as [|[k2 p2] t2]; [apply Hrest; auto|]. intros q r' [= -> -> _].
        eapply gstatements_not_assign in H2. apply H2. reflexivity.
    + assert (Hd : goes (rest0 <- block_loop n (pe_ n) (pb_ n) m ;; ret (s :: rest0)) (t2 ++ rest) (s :: ss) rest).
      { eapply goes_bind; [apply IH2; auto|]. apply goes_ret. }
      destruct s; try exact Hd. destruct Hret.
Qed.

Lemma program_goes n m ts b : gprogram ts b -> goes (parse_program n (parse_block m)) ts b [].
Proof.
  destruct grammar_parses as (_ & _ & _ & _ & _ & _ & _ & Hss).
  intros H; revert n; induction H as [ts ss H|t1 ss t2 b H1 Hret Hne Hc H2 IH]; intros n; (destruct n; [apply goes_fuel|]); cbn [parse_program].
  - eapply goes_bind with (a := BBlock ss) (mid := []); [|apply goes_with_token; cbn [hd_error]; apply goes_ret].
    destruct m as [|m]; [apply goes_fuel|]. cbn [parse_block].
    eapply goes_bind; [|apply goes_ret]. rewrite <- (app_nil_r ts) at 1. apply (Hss _ _ _ H); auto.
  - eapply goes_bind with (a := BBlock ss) (mid := t2).
    + destruct m as [|m]; [apply goes_fuel|]. cbn [parse_block].
      eapply goes_bind; [|apply goes_ret]. apply (Hss _ _ _ H1); auto. discriminate.
    + apply goes_with_token.
      assert (Hd : goes (parse_program n (parse_block m)) t2 b []) by apply IH.
      assert (Ht : terminated t2 = false).
      { clear - H2. assert (Hx : forall nested ts ss, gstatements nested ts ss -> terminated ts = false).
        { intros nested ts ss H; destruct H; try reflexivity. destruct (statement_start _ _ _ H) as (_ & t & r & -> & Ht).
          destruct t as [k p]. exact Ht. }
        destruct H2; [eapply Hx; eauto|]. destruct t1 as [|t t1].
        - apply gstatements_empty in H as ->. destruct H0 as (ss & ? & ? & E). destruct ss; discriminate.
        - apply Hx in H. destruct t; exact H. }
      destruct t2 as [|[k p] t2]; [congruence|]. cbn [hd_error tk_kind]. cbn in Ht. rewrite Ht. exact Hd.
Qed.

Lemma parse_tokens_complete ts b : gprogram ts b -> exists r, parse_tokens ts = Parsed b [] r.
Proof.
  intros H. destruct (parse_tokens_total ts) as (b' & es & r & E). unfold parse_tokens, parse_tokens_with in *.
  destruct (program_goes (parser_fuel ts) (parser_fuel ts) ts b H (length ts) []) as [E2|(b2 & E2)];
    unfold st in E2; fold (pnew ts) in E2; rewrite E2 in *; [discriminate|]. eauto.
Qed.
