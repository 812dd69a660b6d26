(** Every place of a text is a place inside of it; variables in arguments begin with a dollar. *)
From Verif Require Import Base Lexer LexerTermProofs SpecLexer LexerProofs LexerPosProofs LexerFactsProofs SpecFirst SpecPanic.
Local Open Scope byte_scope.

Section Dollars.
Variable src : bytes.
Definition at_dollar (p : pos) : Prop := exists a b, src = a ++ "$" :: b /\ p = position_of a.
Definition fine_parts (l : list arg_part) : Prop := Forall at_dollar (flat_map part_places l).
Definition fine_units (l : list arg_unit) : Prop := Forall at_dollar (flat_map unit_places l).
Definition fine_quoted (q : double_quoted) : Prop := fine_parts (a_parts (dq_parent q)) /\ fine_units (dq_parts q).
Definition fine_state (s : state) : Prop :=
  match s with
  | SArgument a => fine_parts (a_parts a)
  | SExpansion e => fine_parts (a_parts (e_context e))
  | SExpansionWord e => fine_parts (a_parts (w_context (e_context e)))
  | SUnquotedWord w => fine_parts (a_parts (w_context w))
  | SSingleQuoted q => fine_parts (a_parts (sq_parent q))
  | SSingleQuotedWord w => fine_parts (a_parts (sq_parent (w_context w)))
  | SDoubleQuoted q => fine_quoted q
  | SDoubleQuotedWord w => fine_quoted (w_context w)
  | SDollar d => fine_parts (a_parts (d_context d)) /\ at_dollar (d_pos d)
  | SQuotedDollar d => fine_quoted (d_context d) /\ at_dollar (d_pos d)
  | _ => True
  end.
Definition fine_output (o : option output) : Prop :=
  match o with
  | Some (OkTok t) => match tk_kind t with TArgument ps => fine_parts ps | _ => True end
  | _ => True
  end.
Definition fine_visit (v : visited) : Prop :=
  match v with Go t => fine_state (t_state t) /\ fine_output (t_out t) | Crash => True end.

Lemma fine_push l x : fine_parts l -> Forall at_dollar (part_places x) -> fine_parts (l ++ [x]).
Proof.
  intros H1 H2. unfold fine_parts. rewrite flat_map_app. apply Forall_app. split; [exact H1|].
  cbn [flat_map]. rewrite app_nil_r. exact H2.
Qed.
Lemma fine_push_unit l x : fine_units l -> Forall at_dollar (unit_places x) -> fine_units (l ++ [x]).
Proof.
  intros H1 H2. unfold fine_units. rewrite flat_map_app. apply Forall_app. split; [exact H1|].
  cbn [flat_map]. rewrite app_nil_r. exact H2.
Qed.

Lemma single_kind c ps : symbol_char_from c <> SCSingle (TArgument ps).
Proof. destruct c; discriminate. Qed.
Lemma command_single_kind c ps : command_symbol_char_from c <> SCSingle (TArgument ps).
Proof. destruct c; discriminate. Qed.
Lemma word_kind w ps : to_token w <> TArgument ps.
Proof.
  intros E. destruct (to_token_cases w) as [K|H]; rewrite E in *; [discriminate|].
  cbn in H. repeat (destruct H as [H|H]; [discriminate|]). destruct H.
Qed.

Ltac splits := repeat match goal with |- context [match ?x with _ => _ end] =>
  lazymatch x with context [match _ with _ => _ end] => fail | _ => destruct x eqn:? end end.
Ltac done_ := solve [exact I | split; exact I | split; [exact I|assumption] | split; [assumption|exact I] | exfalso; eapply single_kind; eassumption | exfalso; eapply command_single_kind; eassumption
  | exfalso; eapply word_kind; eassumption].
Ltac reduce_ := cbn [fine_visit tr_step tr_produce tr_error tr_resume tr_resume_produce tr_resume_error tr_rollback t_state t_out
  fine_state fine_output tk_kind argument_at a_parts argument_expansion_produce argument_expansion_rollback
  word_expansion_produce word_expansion_rollback arg_resume_produce sq_resume_produce dq_resume_produce].

Lemma peek_dollar pre rest c : src = pre ++ rest -> peek (cu pre rest) = Some c -> byte_eqb c "$" = true ->
  at_dollar (cur_pos (cu pre rest)).
Proof.
  intros Hs Hp Hc. apply Byte.byte_dec_bl in Hc || apply byte_eqb_eq in Hc. subst c. destruct rest as [|x r]; [discriminate|].
  cbn in Hp. injection Hp as ->. exists pre, r. split; [exact Hs|reflexivity].
Qed.

Section Dollar.
Context {C : Type} (self : dollar C -> state) (ret : C -> state) (push : C -> symbol -> pos -> C) (fine : C -> Prop).
Hypothesis fine_self : forall d, fine (d_context d) /\ at_dollar (d_pos d) -> fine_state (self d).
Hypothesis fine_ret : forall c, fine c -> fine_state (ret c).
Hypothesis push_fine : forall c s p, fine c -> at_dollar p -> fine (push c s p).
Lemma fine_dollar d cur : fine (d_context d) -> at_dollar (d_pos d) -> fine_visit (visit_dollar self ret push d cur).
Proof.
  intros H1 H2. unfold visit_dollar. splits; reduce_; (split; [|exact I]);
    solve [apply fine_self; split; assumption | apply fine_ret; assumption | apply fine_ret, push_fine; assumption].
Qed.
End Dollar.

Lemma fine_step s pre rest : src = pre ++ rest -> fine_state s -> fine_visit (visit s (cu pre rest)).
Proof.
  intros Hs H.
  destruct s as [| |st d e p|v esc p|v esc p|st p|f p| | |a|e|e|q|q|w|w|w|d|d|f p]; cbn [visit fine_state] in *.
  - unfold visit_root. splits; reduce_; done_.
  - unfold visit_comment. splits; reduce_; done_.
  - unfold visit_number, number_parse. splits; reduce_; done_.
  - unfold visit_byte. splits; reduce_; done_.
  - unfold visit_string. splits; reduce_; done_.
  - unfold visit_word. splits; reduce_; try done_; destruct (to_token _) eqn:?; done_.
  - unfold visit_symbol. splits; reduce_; done_.
  - unfold visit_command. splits; reduce_; try done_; try (split; [constructor|exact I]).
    destruct k; done_.
  - unfold visit_comment. splits; reduce_; done_.
  - unfold visit_argument. splits; reduce_; try done_.
    + split; [split; [exact H|]|exact I]. eapply peek_dollar; eassumption.
    + split; [split; [exact H|constructor]|exact I].
    + split; [|exact I]. apply fine_push; [exact H|constructor].
  - unfold visit_expansion. splits; reduce_; try done_; (split; [|exact I]); apply fine_push; [exact H|constructor| | ..]; try exact H; constructor.
  - unfold visit_expansion. splits; reduce_; try done_; (split; [|exact I]); apply fine_push; try apply fine_push; try exact H; constructor.
  - unfold visit_single_quoted. splits; reduce_; try done_. split; [|exact I]. apply fine_push; [exact H|constructor].
  - destruct H as [H1 H2]. unfold visit_double_quoted. splits; reduce_; try done_.
    + split; [|exact I]. apply fine_push; [exact H1|exact H2].
    + split; [split; [split; assumption|]|exact I]. eapply peek_dollar; eassumption.
    + split; [split; assumption|exact I].
  - unfold visit_arg_word, arg_expansion_start. splits; reduce_; try done_; split; try exact I; apply fine_push; try exact H; constructor.
  - unfold visit_arg_word. splits; reduce_; done_.
  - unfold visit_arg_word. splits; reduce_; try done_; destruct H; (split; [split; cbn; [assumption|]|exact I]); apply fine_push_unit; try assumption; constructor.
  - destruct H as [H1 H2]. apply (fine_dollar SDollar SArgument argument_push_dollar (fun a => fine_parts (a_parts a))); auto.
    intros c x p Hc Hp. apply fine_push; [exact Hc|]. constructor; [exact Hp|constructor].
  - destruct H as [H1 H2]. apply (fine_dollar SQuotedDollar SDoubleQuoted dq_push_dollar fine_quoted); auto.
    intros c x p [Hc Hd] Hp. split; [exact Hc|]. apply fine_push_unit; [exact Hd|]. constructor; [exact Hp|constructor].
  - unfold visit_command_symbol. splits; reduce_; done_.
Qed.

Definition fine_out (o : output) : Prop := fine_output (Some o).
Lemma fine_from : forall n a base os, mu a < n -> ainv src base a -> fine_state (au_state a) ->
  lex_from a = LexDone os \/ lex_from a = LexCrash os -> Forall fine_out os.
Proof.
  induction n as [|n IH]; intros a base os Hn Ha Hf Hl; [lia|].
  pose proof Ha as (Hw & pre & rest & Hc & Hs & Hi). rewrite (lex_from_eq a Hw) in Hl.
  pose proof (ainv_round _ _ _ Ha) as Hr.
  pose proof (fine_step (au_state a) pre rest Hs Hf) as Hv. rewrite <- Hc in Hv.
  assert (HR : match lex_round a with RContinue a' => fine_state (au_state a') | ROutput o a' => fine_out o /\ fine_state (au_state a') | _ => True end).
  { unfold lex_round. destruct (visit (au_state a) (au_cursor a)) as [t|]; [|exact I]. destruct Hv as [V1 V2].
    destruct (t_out t) as [o|] eqn:Eo; [split; assumption|]. destruct (is_eof (au_cursor a)); [exact I|exact V1]. }
  destruct (lex_round a) as [a'|o a'|a'|] eqn:E.
  - destruct (round_decreases a a' Hw) as [D _]; [eauto|]. apply (IH a' base); auto. lia.
  - destruct (round_decreases a a' Hw) as [D _]; [eauto|]. destruct HR as [R1 R2].
    assert (exists os', os = o :: os' /\ (lex_from a' = LexDone os' \/ lex_from a' = LexCrash os'))
      as (os' & -> & Hl').
    { destruct (lex_from a'); cbn in Hl; destruct Hl as [Hl|Hl]; try discriminate Hl;
        injection Hl as <-; eauto. }
    constructor; [exact R1|].
    destruct o as [t|e]; cbn [round_ok] in Hr.
    + destruct Hr as (gap & text & rest' & _ & _ & _ & _ & H5). apply (IH a' (base ++ gap ++ text)); auto. lia.
    + apply (IH a' base); auto; [lia|apply Hr].
  - destruct Hl as [Hl|Hl]; [|discriminate]. injection Hl as <-. constructor.
  - destruct Hl as [Hl|Hl]; [discriminate|]. injection Hl as <-. constructor.
Qed.
End Dollars.

Theorem lex_dollars src os : Lexer.lex src = LexDone os \/ Lexer.lex src = LexCrash os -> Forall (fine_out src) os.
Proof.
  rewrite lex_is_from. intros H.
  apply (fine_from src (S (mu (automaton_new src))) (automaton_new src) []); auto.
  - apply ainv_new.
  - exact I.
Qed.

Theorem variables_place src t ps p : In t (source_tokens src) -> tk_kind t = TArgument ps -> In p (flat_map part_places ps) ->
  exists before after, src = before ++ "$" :: after /\ p = position_of before.
Proof.
  intros Ht Hk Hp. unfold source_tokens in Ht. apply in_flat_map in Ht. destruct Ht as (o & Ho & Ht).
  assert (F : Forall (fine_out src) (outputs (Lexer.lex src))).
  { destruct (Lexer.lex src) as [os|os|] eqn:E; cbn; [apply lex_dollars; auto|apply lex_dollars; auto|constructor]. }
  rewrite Forall_forall in F. specialize (F o Ho). destruct o as [t'|e]; [|destruct Ht]. destruct Ht as [->|[]].
  unfold fine_out, fine_output in F. rewrite Hk in F. unfold fine_parts in F. rewrite Forall_forall in F. exact (F p Hp).
Qed.

Lemma placed_token pre rest os t : placed pre rest os -> In (OkTok t) os ->
  exists before c after, pre ++ rest = before ++ c :: after /\ tk_pos t = position_of before.
Proof.
  induction 1 as [|pre gap text rest t0 os N Wr Ps P IH|pre rest a b e0 os Q Ps P IH]; intros I.
  - destruct I.
  - destruct I as [D|I].
    + injection D as <-. destruct text as [|c text]; [contradiction|]. exists (pre ++ gap), c, (text ++ rest).
      rewrite <- app_assoc. split; [reflexivity|exact Ps].
    + destruct (IH I) as (a & c & b & E & H). exists a, c, b. split; [|exact H]. rewrite <- E, <- !app_assoc. reflexivity.
  - destruct I as [D|I]; [discriminate|]. exact (IH I).
Qed.

Theorem places_inside src p : In p (text_places src) ->
  exists before c after, src = before ++ c :: after /\ p = position_of before.
Proof.
  intros H. unfold text_places in H. apply in_flat_map in H. destruct H as (t & Ht & H). destruct H as [<-|H].
  - unfold source_tokens in Ht. apply in_flat_map in Ht. destruct Ht as (o & Ho & Ht).
    destruct o as [t'|e]; [|destruct Ht]. destruct Ht as [->|[]].
    exact (placed_token _ _ _ _ (placed_outputs src) Ho).
  - destruct (tk_kind t) eqn:K; try destruct H.
    destruct (variables_place _ _ _ _ Ht K H) as (a & b & E & Q). exists a, "$", b. split; assumption.
Qed.
