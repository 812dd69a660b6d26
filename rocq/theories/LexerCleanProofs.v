(** Every name in the lexer's output, an identifier or a variable in a command argument, is made
    of letters, digits and underscores. *)
From Verif Require Import Base Lexer SpecLexer LexerTermProofs LexerProofs.
From Coq Require Import Lia.
Local Open Scope byte_scope.

Lemma is_word_byte c : is_word c = word_byte c.
Proof. destruct c; vm_compute; reflexivity. Qed.
Lemma word_start_word c : is_word_start c = true -> is_word c = true.
Proof. destruct c; vm_compute; congruence. Qed.

Definition plain_arg (a : argument) : Prop := Forall plain_part (a_parts a).
Definition plain_dq (d : double_quoted) : Prop := Forall plain_unit (dq_parts d) /\ plain_arg (dq_parent d).
Definition name_from (cur : cursor) (off : nat) : Prop := off <= cur_offset cur /\ plain_name (slice_to cur off).
Definition plain_dollar {C} (ok : C -> Prop) (d : dollar C) (cur : cursor) : Prop :=
  ok (d_context d) /\ (d_error d = false -> forall off, d_start d = Some off -> name_from cur off).

Definition splain (s : state) (cur : cursor) : Prop :=
  match s with
  | SWord st _ => name_from cur st
  | SArgument a => plain_arg a
  | SExpansion e => plain_arg (e_context e)
  | SExpansionWord e => plain_arg (w_context (e_context e))
  | SSingleQuoted q => plain_arg (sq_parent q)
  | SDoubleQuoted d => plain_dq d
  | SUnquotedWord w => plain_arg (w_context w)
  | SSingleQuotedWord w => plain_arg (sq_parent (w_context w))
  | SDoubleQuotedWord w => plain_dq (w_context w)
  | SDollar d => plain_dollar plain_arg d cur
  | SQuotedDollar d => plain_dollar plain_dq d cur
  | _ => True
  end.

Definition vplain (v : visited) (cur : cursor) : Prop :=
  match v with
  | Crash => True
  | Go t =>
    splain (t_state t) (apply_step (t_step t) cur) /\
    match t_out t with Some o => plain_output o | None => True end
  end.

Lemma slice_step cur off c :
  off <= cur_offset cur -> peek cur = Some c ->
  slice_to (cursor_step cur) off = slice_to cur off ++ [c] /\ off <= cur_offset (cursor_step cur).
Proof.
  unfold slice_to, cursor_step, peek, cur_offset. destruct cur as [b [|c' a] p]; cbn; [discriminate|].
  intros H [= ->]. cbn. split; [|lia]. rewrite skipn_app, rev_length.
  replace (off - length b) with 0 by lia. reflexivity.
Qed.

Lemma name_step cur off c : name_from cur off -> peek cur = Some c -> is_word c = true -> name_from (cursor_step cur) off.
Proof.
  intros [H1 H2] Hp Hc. destruct (slice_step _ _ _ H1 Hp) as [E ?]. split; [auto|]. rewrite E.
  apply Forall_app. split; auto. constructor; auto. now rewrite <- is_word_byte.
Qed.

Lemma name_here cur : name_from cur (cur_offset cur).
Proof. split; [lia|]. unfold slice_to, cur_offset. rewrite skipn_all2; [constructor|]. rewrite rev_length. lia. Qed.

Lemma name_one cur c : peek cur = Some c -> is_word_start c = true -> name_from (cursor_step cur) (cur_offset cur).
Proof. intros H1 H2. eapply name_step; eauto using name_here, word_start_word. Qed.

Lemma push_plain a p : plain_arg a -> plain_part p -> plain_arg (arg_push a p).
Proof. intros H1 H2. unfold plain_arg, arg_push in *; cbn. apply Forall_app. split; auto. Qed.

Lemma to_token_word w s : to_token w = TIdentifier s -> s = w.
Proof.
  unfold to_token. destruct (assoc_bytes w keyword_table) as [k|] eqn:E; [|congruence].
  intros ->. exfalso. revert E. unfold keyword_table. cbn [map assoc_bytes].
  repeat match goal with |- context [if ?b then _ else _] => destruct b; [discriminate|] end. discriminate.
Qed.

Lemma plain_to_token w p : plain_name w -> plain_token (mktoken (to_token w) p).
Proof.
  intros H. unfold plain_token; cbn. destruct (to_token w) eqn:E; auto.
  - apply to_token_word in E as ->. exact H.
  - exfalso. revert E. unfold to_token. destruct (assoc_bytes w keyword_table) as [k|] eqn:E; [|discriminate].
    intros ->. revert E. unfold keyword_table. cbn [map assoc_bytes].
    repeat match goal with |- context [if ?b then _ else _] => destruct b; [discriminate|] end. discriminate.
Qed.

Lemma dollar_plain {C} (ok : C -> Prop) self ret push (d : dollar C) cur :
  (forall d' c, plain_dollar ok d' c -> splain (self d') c) ->
  (forall a c, ok a -> splain (ret a) c) ->
  (forall a s p, ok a -> plain_name s -> ok (push a s p)) ->
  plain_dollar ok d cur -> vplain (visit_dollar self ret push d cur) cur.
Proof.
  intros Hself Hret Hpush [Hc Hn].
  pose (produce := fun consume : bool =>
    let off := match d_start d with Some o => o | None => cur_offset cur end in
    let ident := slice_to cur off in
    let err := mkerror (InvalidIdentifier ident) (d_pos d) in
    if match ident with [] => true | _ => false end || d_error d then
      tr_error (ret (d_context d)) err
    else match to_token ident with
         | TIdentifier sym =>
           let s := ret (push (d_context d) sym (d_pos d)) in
           if consume then tr_step s else tr_resume s
         | _ =>
           if consume then tr_error (ret (d_context d)) err
           else tr_resume_error (ret (d_context d)) err
         end).
  assert (Hp : forall b, vplain (produce b) cur).
  { intros b. subst produce. cbv beta zeta. clear Hself.
    destruct (d_error d) eqn:Ed.
    { rewrite orb_true_r. cbn. auto. }
    specialize (Hn eq_refl). rewrite orb_false_r.
    set (ident := slice_to cur _).
    assert (Hi : plain_name ident).
    { subst ident. destruct (d_start d) as [o|] eqn:Es; [apply (Hn o); auto|apply name_here]. }
    destruct (match ident with [] => true | _ => false end); [cbn; auto|].
    destruct (to_token ident) eqn:Et; try (destruct b; cbn; auto; fail).
    apply to_token_word in Et as ->. destruct b; cbn; auto. }
  unfold visit_dollar. change (vplain (match peek cur with
    | Some c =>
    match d_start d, d_braces d with
    | None, None =>
      if byte_eqb c "{" then
        tr_step (self (mkdollar None (Some true) (d_error d) (d_pos d) (d_context d)))
      else
        tr_step (self (mkdollar (Some (cur_offset cur)) (Some false)
                                (d_error d || negb (is_word_start c)) (d_pos d) (d_context d)))
    | st, Some true =>
      if byte_eqb c "}" then produce true
      else match st with
           | None => tr_step (self (mkdollar (Some (cur_offset cur)) (Some true)
                        (d_error d || negb (is_word_start c)) (d_pos d) (d_context d)))
           | Some _ => tr_step (self (mkdollar st (Some true)
                        (d_error d || negb (is_word c)) (d_pos d) (d_context d)))
           end
    | None, Some false =>
      tr_step (self (mkdollar (Some (cur_offset cur)) (Some false)
                              (d_error d || negb (is_word_start c)) (d_pos d) (d_context d)))
    | Some _, Some false =>
      if is_word c then tr_step (self d) else produce false
    | Some _, None =>
      tr_step (self (mkdollar (d_start d) None (d_error d || negb (is_word c)) (d_pos d) (d_context d)))
    end
  | None =>
    match d_braces d with
    | Some true => tr_error (ret (d_context d)) (mkerror UnexpectedEof (cur_pos cur))
    | _ => produce true
    end
  end) cur). clearbody produce.
  destruct (peek cur) as [c|] eqn:Ep.
  - destruct (d_start d) as [o|] eqn:Es; destruct (d_braces d) as [[|]|] eqn:Eb;
      repeat match goal with |- context [if ?b then _ else _] => destruct b eqn:? end; auto;
      (split; [|exact I]); apply Hself; split; cbn [d_context d_error d_start]; auto;
      try (intros He o' [= <-]; apply orb_false_iff in He as [He1 He2]; apply negb_false_iff in He2;
           eauto using name_one, name_step); try (intros; discriminate).
    intros He o' Ho. eapply name_step; eauto. apply Hn; congruence.
  - destruct (d_braces d) as [[|]|]; auto; cbn; auto.
Qed.

Lemma arg_word_plain {C} (ok : C -> Prop) self rp es iw ve (w : word C) cur :
  (forall w' c, ok (w_context w') -> splain (self w') c) ->
  (forall c v, ok c -> vplain (rp c v) cur) ->
  (forall w c t, ok (w_context w) -> es w cur c = Some t -> vplain t cur) ->
  ok (w_context w) -> vplain (visit_arg_word self rp es iw ve w cur) cur.
Proof.
  intros Hself Hrp Hes Hw. unfold visit_arg_word.
  destruct (peek cur); [|auto]. destruct (w_escaping w) as [[off ep]|].
  - destruct (ve b); (split; [|exact I]); apply Hself; cbn; auto.
  - destruct (byte_eqb b "\"); [split; [|exact I]; apply Hself; cbn; auto|].
    destruct (iw b); [|auto]. destruct (w_allow w); [|split; [|exact I]; apply Hself; cbn; auto].
    destruct (es w cur b) eqn:E; [eauto|]. split; [|exact I]; apply Hself; cbn; auto.
Qed.

Lemma visit_plain s cur : splain s cur -> vplain (visit s cur) cur.
Proof.
  intros H. destruct s; cbn [visit].
  - unfold visit_root. destruct (peek cur) eqn:Ep; [|cbn; auto].
    repeat match goal with |- vplain (if ?b then _ else _) _ => destruct b; [cbn; auto using name_here|] end.
    destruct (symbol_char_from b) eqn:Es; [cbn; auto| |cbn; auto].
    destruct k; cbn; auto; exfalso; destruct b; discriminate Es.
  - unfold visit_comment. destruct (peek cur) as [[]|]; cbn; auto.
  - unfold visit_number.
    assert (Hparse : forall cur', match number_parse start dec exp p cur' with inl t => plain_token t | inr _ => True end).
    { intros cur'. unfold number_parse. repeat match goal with |- context [if ?b then _ else _] => destruct b end; cbn; auto;
        repeat match goal with |- context [match ?b with _ => _ end] => destruct b end; cbn; auto. }
    specialize (Hparse cur). destruct (number_parse start dec exp p cur);
    repeat match goal with
    | |- vplain (match ?b with _ => _ end) _ => destruct b; cbn; auto
    | |- vplain (if ?b then _ else _) _ => destruct b; cbn; auto
    end.
  - unfold visit_byte.
    repeat match goal with
    | |- vplain (match ?b with _ => _ end) _ => destruct b; cbn; auto
    | |- vplain (if ?b then _ else _) _ => destruct b; cbn; auto
    end.
  - unfold visit_string.
    repeat match goal with
    | |- vplain (match ?b with _ => _ end) _ => destruct b; cbn; auto
    | |- vplain (if ?b then _ else _) _ => destruct b; cbn; auto
    end.
  - unfold visit_word. destruct (peek cur) as [c|] eqn:Ep.
    + destruct (is_word c) eqn:Ew; cbn.
      * split; auto. eapply name_step; eauto.
      * split; auto. apply plain_to_token, H.
    + cbn. split; auto. apply plain_to_token, H.
  - unfold visit_symbol.
    repeat match goal with
    | |- vplain (match ?b with _ => _ end) _ => destruct b; cbn; auto
    | |- vplain (if ?b then _ else _) _ => destruct b; cbn; auto
    end.
  - unfold visit_command. destruct (peek cur) eqn:Ep; [|cbn; auto].
    repeat match goal with |- vplain (if ?b then _ else _) _ => destruct b; [cbn; auto|] end.
    destruct (command_symbol_char_from b) eqn:Es; cbn; auto.
    + split; auto. constructor.
    + destruct k; cbn; auto; exfalso; destruct b; discriminate Es.
  - unfold visit_comment. destruct (peek cur) as [[]|]; cbn; auto.
  - cbn in H. unfold visit_argument. cbv zeta. cbn [a_parts a_pos a_home].
    destruct (peek cur) as [c|] eqn:Ep; [|cbn; auto].
    repeat match goal with |- vplain (if ?b then _ else _) _ => destruct b; [cbn; auto|] end; try (cbn; auto).
    + split; auto. split; auto. intros _ off; discriminate.
    + split; auto. split; cbn; auto.
    + split; auto. apply push_plain; cbn; auto.
  - cbn in H. unfold visit_expansion. cbv zeta. cbn [e_context e_start e_tilde e_allow_home].
    unfold argument_expansion_produce, argument_expansion_rollback.
    repeat match goal with
    | |- vplain (match ?b with _ => _ end) _ => destruct b; cbn; auto
    | |- vplain (if ?b then _ else _) _ => destruct b; cbn; auto
    end; split; auto; apply push_plain; cbn; auto.
  - cbn in H. unfold visit_expansion. cbv zeta. cbn [e_context e_start e_tilde e_allow_home].
    unfold word_expansion_produce, word_expansion_rollback.
    repeat match goal with
    | |- vplain (match ?b with _ => _ end) _ => destruct b; cbn; auto
    | |- vplain (if ?b then _ else _) _ => destruct b; cbn; auto
    end; split; auto; apply push_plain; cbn; auto; apply push_plain; cbn; auto.
  - cbn in H. unfold visit_single_quoted. destruct (peek cur); [destruct (byte_eqb b "'")|]; cbn; auto.
    split; auto. apply push_plain; cbn; auto.
  - cbn in H. destruct H as [H1 H2]. unfold visit_double_quoted. destruct (peek cur); [destruct (byte_eqb b x22); [|destruct (byte_eqb b "$")]|]; cbn; auto.
    + split; auto. apply push_plain; cbn; auto.
    + split; auto. split; [split; auto|]. intros _ off; discriminate.
    + split; auto. split; auto.
  - apply (arg_word_plain plain_arg); auto.
    + intros a v Ha. cbn. split; auto. apply push_plain; cbn; auto.
    + intros w' c t Hw. unfold arg_expansion_start. destruct (is_expansion_start c); [|discriminate]. intros [= <-]. cbn. auto.
  - apply (arg_word_plain (fun q => plain_arg (sq_parent q))); auto.
    + intros a v Ha. cbn. auto.
    + discriminate.
  - apply (arg_word_plain plain_dq); auto.
    + intros a v [H1 H2]. cbn. split; auto. split; auto. apply Forall_app; split; auto. constructor; cbn; auto.
    + discriminate.
  - apply (dollar_plain plain_arg); auto. intros a s p Ha Hs. apply push_plain; auto.
  - apply (dollar_plain plain_dq); auto. intros a s p [H1 H2] Hs. split; auto. apply Forall_app; split; auto.
  - unfold visit_command_symbol.
    repeat match goal with
    | |- vplain (match ?b with _ => _ end) _ => destruct b; cbn; auto
    | |- vplain (if ?b then _ else _) _ => destruct b; cbn; auto
    end.
Qed.

Lemma rounds_plain n : forall a, splain (au_state a) (au_cursor a) -> Forall plain_output (outputs (lex_rounds n a)).
Proof.
  induction n as [|n IH]; intros a Ha; [constructor|]. cbn [lex_rounds]. unfold lex_round.
  pose proof (visit_plain _ _ Ha) as Hv. destruct (visit (au_state a) (au_cursor a)) as [t|]; [|constructor].
  cbn in Hv. destruct Hv as [Hv1 Hv2]. destruct (t_out t) as [o|].
  - specialize (IH (mkauto (t_state t) (apply_step (t_step t) (au_cursor a))) Hv1).
    destruct (lex_rounds n _); cbn in *; auto; constructor; auto.
  - destruct (is_eof (au_cursor a)); [constructor|]. apply IH. exact Hv1.
Qed.

Lemma lex_plain src : Forall plain_output (outputs (lex src)).
Proof. apply rounds_plain. exact I. Qed.
