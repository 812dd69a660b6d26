(** The lexer always stops: a measure that every round of the automaton decreases. *)
From Verif Require Import Base Lexer.
Local Open Scope byte_scope.

Lemma byte_eqb_eq a b : byte_eqb a b = true <-> a = b.
Proof. split; [apply Byte.byte_dec_bl | apply Byte.byte_dec_lb]. Qed.

Lemma byte_eqb_refl a : byte_eqb a a = true.
Proof. now apply byte_eqb_eq. Qed.

Lemma byte_eqb_neq a b : byte_eqb a b = false <-> a <> b.
Proof.
  rewrite <- byte_eqb_eq. destruct (byte_eqb a b); split; congruence.
Qed.

Definition ends_arg (c : byte) : bool :=
  negb (arg_is_word c) &&
  negb (byte_eqb c "$" || byte_eqb c "'" || byte_eqb c x22 || byte_eqb c "=").

Definition to_arg (c : byte) : bool :=
  negb (is_ascii_whitespace c || byte_eqb c "#" || byte_eqb c "}" ||
        match command_symbol_char_from c with SCNone => false | _ => true end).

Definition rank (s : state) (pk : option byte) : nat :=
  match s with
  | SRoot => match pk with Some c => if is_word_start c then 2 else 0 | None => 0 end
  | SWord _ _ => 1
  | SComment => 1
  | SNumber _ _ _ _ | SByte _ _ _ | SString _ _ _ | SSymbol _ _ => 3
  | SCommand => match pk with Some c => if to_arg c then 12 else 1 | None => 1 end
  | SCommandComment => 2
  | SCommandSymbol _ _ => 13
  | SArgument _ =>
    match pk with
    | None => 2
    | Some c => if ends_arg c then 2 else if arg_is_word c then 11 else 3
    end
  | SExpansion e => if e_tilde e then 9 else 10
  | SExpansionWord e => 7
  | SUnquotedWord w =>
    match pk with
    | None => 4
    | Some c =>
      match w_escaping w with
      | Some _ => 4
      | None => if byte_eqb c "\" then 4
                else if arg_is_word c then (if w_allow w then 8 else 6) else 4
      end
    end
  | SSingleQuoted _ =>
    match pk with Some c => if byte_eqb c "'" then 3 else 5 | None => 3 end
  | SDoubleQuoted _ =>
    match pk with Some c => if byte_eqb c x22 || byte_eqb c "$" then 3 else 5 | None => 3 end
  | SSingleQuotedWord _ => 4
  | SDoubleQuotedWord _ => 4
  | SDollar _ => 12
  | SQuotedDollar _ => 6
  end.

Definition mu (a : automaton) : nat :=
  match au_state a with
  | SExpansion e => 16 * length (cur_after (e_start e)) + rank (au_state a) None
  | SExpansionWord e => 16 * length (cur_after (e_start e)) + rank (au_state a) None
  | s => 16 * length (cur_after (au_cursor a)) + rank s (peek (au_cursor a))
  end.

(** What the measure needs to know of the states that can roll back. *)
Definition winv (a : automaton) : Prop :=
  match au_state a with
  | SExpansion e =>
    length (cur_after (au_cursor a)) <= length (cur_after (e_start e)) /\
    (e_allow_home e = true -> e_tilde e = false)
  | SExpansionWord e =>
    length (cur_after (au_cursor a)) <= length (cur_after (e_start e)) /\
    e_allow_home e = false /\ e_tilde e = false
  | _ => True
  end.

(** Facts about single bytes, by enumeration of the 256 bytes. *)
Lemma ends_arg_not_to_arg c : ends_arg c = true -> to_arg c = false.
Proof. destruct c; vm_compute; congruence. Qed.
Lemma exp_start_word c : is_expansion_start c = true -> arg_is_word c = true.
Proof. destruct c; vm_compute; congruence. Qed.
Lemma arg_word_not_end c : arg_is_word c = true -> ends_arg c = false.
Proof. destruct c; vm_compute; congruence. Qed.
Lemma not_word_not_start c : is_word c = false -> is_word_start c = false.
Proof. destruct c; vm_compute; congruence. Qed.
Lemma bslash_word : arg_is_word "\" = true.
Proof. reflexivity. Qed.

Lemma rank_le s pk : rank s pk <= 13.
Proof.
  destruct s; cbn [rank];
    repeat match goal with
           | |- context [match ?x with _ => _ end] => destruct x
           end; lia.
Qed.

Lemma mu_not_exp s cur :
  match s with SExpansion _ | SExpansionWord _ => False | _ => True end ->
  mu (mkauto s cur) = 16 * length (cur_after cur) + rank s (peek cur).
Proof. destruct s; try contradiction; reflexivity. Qed.

(** Step forward over a byte: the rank of the target does not matter. *)
Lemma forward_decreases s s' b c r p :
  match s with SExpansion _ | SExpansionWord _ => False | _ => True end ->
  match s' with SExpansion _ | SExpansionWord _ => False | _ => True end ->
  let a' := mkauto s' (cursor_step (mkcursor b (c :: r) p)) in
  mu a' < mu (mkauto s (mkcursor b (c :: r) p)) /\ winv a'.
Proof.
  intros H1 H2. split.
  - rewrite !mu_not_exp by assumption. unfold cursor_step; cbn [cur_after length].
    match goal with |- _ + ?x < _ => assert (x <= 13) by apply rank_le end. lia.
  - unfold winv; cbn [au_state]. destruct s'; try contradiction; exact I.
Qed.

Lemma resume_decreases s s' cur :
  match s with SExpansion _ | SExpansionWord _ => False | _ => True end ->
  match s' with SExpansion _ | SExpansionWord _ => False | _ => True end ->
  rank s' (peek cur) < rank s (peek cur) ->
  mu (mkauto s' cur) < mu (mkauto s cur) /\ winv (mkauto s' cur).
Proof.
  intros H1 H2 H3. split.
  - rewrite !mu_not_exp by assumption. lia.
  - unfold winv; cbn [au_state]. destruct s'; try contradiction; exact I.
Qed.

Ltac unfold_visit :=
  cbn [visit];
  unfold visit_root, visit_comment, visit_number, visit_byte,
      visit_string, visit_word, visit_symbol, visit_command, visit_argument, visit_expansion,
      visit_arg_word, visit_single_quoted, visit_double_quoted, visit_dollar,
      visit_command_symbol, arg_resume_produce, sq_resume_produce, dq_resume_produce,
      arg_expansion_start, argument_expansion_produce, argument_expansion_rollback,
      word_expansion_produce, word_expansion_rollback;
  unfold tr_step, tr_error, tr_resume, tr_produce, tr_resume_produce,
      tr_resume_error, tr_rollback;
  cbn [peek cur_after hd_error is_eof a_home a_parts a_pos].

Ltac break_goal :=
  match goal with
  | |- context [match ?x with _ => _ end] =>
    match x with
    | context [match _ with _ => _ end] => fail 1
    | _ => destruct x eqn:?
    end
  end.

Definition good_round (a : automaton) (v : visited) : Prop :=
  match v with
  | Crash => True
  | Go t =>
    (t_out t = None -> is_eof (au_cursor a) = false) ->
    let a' := mkauto (t_state t) (apply_step (t_step t) (au_cursor a)) in
    mu a' < mu a /\ winv a'
  end.

Ltac conds :=
  repeat match goal with
         | H : byte_eqb ?c _ = true |- _ => apply byte_eqb_eq in H; try subst c
         | H : _ || _ = true |- _ => apply orb_true_iff in H; destruct H
         | H : _ || _ = false |- _ => apply orb_false_iff in H; destruct H
         | H : _ && _ = true |- _ => apply andb_true_iff in H; destruct H
         end.

Ltac fwd :=
  cbn [good_round t_out t_state t_step au_cursor apply_step]; intros _;
  apply forward_decreases; exact I.

Ltac res :=
  cbn [good_round t_out t_state t_step au_cursor apply_step]; intros _;
  apply resume_decreases; [exact I | exact I |].

Lemma good_root b c r p : good_round (mkauto SRoot (mkcursor b (c :: r) p)) (visit_root (mkcursor b (c :: r) p)).
Proof.
  unfold_visit. repeat (break_goal; try fwd).
  all: res; cbn; match goal with H : is_word_start _ = true |- _ => rewrite H end; lia.
Qed.

Lemma good_comment s parent b c r p :
  match parent with SRoot => s = SComment | SCommand => s = SCommandComment | _ => False end ->
  good_round (mkauto s (mkcursor b (c :: r) p)) (visit_comment s parent (mkcursor b (c :: r) p)).
Proof.
  intros H. unfold visit_comment. cbn [peek cur_after hd_error].
  destruct (byte_eqb c x0a) eqn:E.
  - conds. destruct parent; try contradiction; subst s; res; cbn; lia.
  - replace (match c with x0a => tr_resume parent | _ => tr_step s end) with (tr_step s)
      by (destruct c; try reflexivity; discriminate E).
    destruct parent; try contradiction; subst s; fwd.
Qed.

Lemma good_number st d e q b c r p :
  good_round (mkauto (SNumber st d e q) (mkcursor b (c :: r) p))
             (visit_number st d e q (mkcursor b (c :: r) p)).
Proof.
  unfold_visit. repeat (break_goal; try fwd).
  all: res; cbn; destruct (is_word_start c); lia.
Qed.

Lemma good_byte v e q b c r p :
  good_round (mkauto (SByte v e q) (mkcursor b (c :: r) p))
             (visit_byte v e q (mkcursor b (c :: r) p)).
Proof. unfold_visit. repeat (break_goal; try fwd). Qed.

Lemma good_string v e q b c r p :
  good_round (mkauto (SString v e q) (mkcursor b (c :: r) p))
             (visit_string v e q (mkcursor b (c :: r) p)).
Proof. unfold_visit. repeat (break_goal; try fwd). Qed.

Lemma good_word st q b c r p :
  good_round (mkauto (SWord st q) (mkcursor b (c :: r) p))
             (visit_word st q (mkcursor b (c :: r) p)).
Proof.
  unfold_visit. repeat (break_goal; try fwd). res; cbn.
  rewrite not_word_not_start by assumption. lia.
Qed.

Lemma good_symbol f q b c r p :
  good_round (mkauto (SSymbol f q) (mkcursor b (c :: r) p))
             (visit_symbol f q (mkcursor b (c :: r) p)).
Proof.
  unfold_visit. destruct f; try exact I; break_goal; try fwd;
    res; cbn; destruct (is_word_start c); lia.
Qed.

Lemma good_command_symbol f q b c r p :
  good_round (mkauto (SCommandSymbol f q) (mkcursor b (c :: r) p))
             (visit_command_symbol f q (mkcursor b (c :: r) p)).
Proof.
  unfold_visit. destruct f; try exact I; break_goal; try fwd;
    res; cbn; destruct (to_arg c); lia.
Qed.

Lemma good_command b c r p :
  good_round (mkauto SCommand (mkcursor b (c :: r) p)) (visit_command (mkcursor b (c :: r) p)).
Proof.
  unfold_visit. repeat (break_goal; try fwd). res; cbn.
  assert (to_arg c = true) as ->.
  { unfold to_arg.
    repeat match goal with H : _ = _ |- _ => rewrite H; clear H end. reflexivity. }
  destruct (ends_arg c), (arg_is_word c); lia.
Qed.

Lemma good_argument a b c r p :
  good_round (mkauto (SArgument a) (mkcursor b (c :: r) p))
             (visit_argument a (mkcursor b (c :: r) p)).
Proof.
  unfold_visit. repeat (break_goal; try fwd).
  - cbn [good_round t_out t_state t_step au_cursor apply_step]. intros _. split.
    + unfold mu; cbn. rewrite (arg_word_not_end c), (exp_start_word c) by auto using exp_start_word.
      lia.
    + cbn. lia.
  - res; cbn. rewrite (arg_word_not_end c) by assumption.
    repeat match goal with H : _ = _ |- _ => rewrite H end.
    destruct (byte_eqb c "\"); lia.
  - res; cbn.
    assert (ends_arg c = true) as E.
    { unfold ends_arg. repeat match goal with H : _ = _ |- _ => rewrite H; clear H end. reflexivity. }
    rewrite E, (ends_arg_not_to_arg c E). lia.
Qed.

Lemma good_expansion e b c r p :
  winv (mkauto (SExpansion e) (mkcursor b (c :: r) p)) ->
  good_round (mkauto (SExpansion e) (mkcursor b (c :: r) p))
             (visit (SExpansion e) (mkcursor b (c :: r) p)).
Proof.
  intros Hw. cbn in Hw. unfold_visit.
  cbn [e_tilde e_context e_start].
  assert (Hf : forall ar o, good_round (mkauto (SExpansion e) (mkcursor b (c :: r) p))
            (Go {| t_state := SArgument ar; t_step := Forward; t_out := o |})).
  { intros. cbn [good_round t_out t_state t_step au_cursor apply_step]. intros _. split; [|exact I].
    rewrite mu_not_exp by exact I. unfold mu; cbn [au_state au_cursor cursor_step cur_after].
    match goal with |- _ + ?x < _ => assert (x <= 13) by apply rank_le end. lia. }
  assert (Hr : forall ar o, good_round (mkauto (SExpansion e) (mkcursor b (c :: r) p))
            (Go {| t_state := SUnquotedWord (word_from ar); t_step := Rollback (e_start e);
                   t_out := o |})).
  { intros. cbn [good_round t_out t_state t_step au_cursor apply_step]. intros _. split; [|exact I].
    rewrite mu_not_exp by exact I. unfold mu; cbn [au_state au_cursor rank w_escaping w_allow word_from].
    destruct (peek (e_start e)) as [c'|]; [|destruct (e_tilde e); lia].
    destruct (byte_eqb c' "\"), (arg_is_word c'), (e_tilde e); lia. }
  repeat (break_goal; try apply Hf; try apply Hr; try exact I).
  conds. cbn [good_round t_out t_state t_step au_cursor apply_step]. intros _. split.
  - unfold mu; cbn. destruct Hw as [_ Hw]. rewrite Hw by assumption. lia.
  - cbn. split; [cbn in Hw; lia|discriminate].
Qed.

Lemma good_expansion_word e b c r p :
  winv (mkauto (SExpansionWord e) (mkcursor b (c :: r) p)) ->
  good_round (mkauto (SExpansionWord e) (mkcursor b (c :: r) p))
             (visit (SExpansionWord e) (mkcursor b (c :: r) p)).
Proof.
  intros (Hw & Hh & Ht). cbn in Hw. unfold_visit.
  cbn [e_tilde e_context e_start]. rewrite Hh, Ht, andb_false_r, andb_false_r.
  assert (Hf : forall ar o, good_round (mkauto (SExpansionWord e) (mkcursor b (c :: r) p))
            (Go {| t_state := SArgument ar; t_step := Forward; t_out := o |})).
  { intros. cbn [good_round t_out t_state t_step au_cursor apply_step]. intros _. split; [|exact I].
    rewrite mu_not_exp by exact I. unfold mu; cbn [au_state au_cursor cursor_step cur_after].
    match goal with |- _ + ?x < _ => assert (x <= 13) by apply rank_le end. lia. }
  repeat (break_goal; try apply Hf; try exact I).
  cbn [good_round t_out t_state t_step au_cursor apply_step]. intros _. split; [|exact I].
  rewrite mu_not_exp by exact I. unfold mu; cbn [au_state au_cursor rank w_escaping w_allow].
  destruct (peek (e_start e)) as [c'|]; [|lia].
  destruct (w_escaping (e_context e)), (byte_eqb c' "\"), (arg_is_word c'); lia.
Qed.

Lemma good_unquoted w b c r p :
  good_round (mkauto (SUnquotedWord w) (mkcursor b (c :: r) p))
             (visit (SUnquotedWord w) (mkcursor b (c :: r) p)).
Proof.
  unfold_visit. repeat (break_goal; try fwd).
  - cbn [good_round t_out t_state t_step au_cursor apply_step]. intros _. split.
    + unfold mu; cbn. rewrite Heqo, Heqb0, Heqb1, Heqb2. lia.
    + cbn. auto.
  - res. cbn. rewrite Heqo, Heqb0, Heqb1. destruct (ends_arg c); lia.
Qed.

Lemma good_sq_word w b c r p :
  good_round (mkauto (SSingleQuotedWord w) (mkcursor b (c :: r) p))
             (visit (SSingleQuotedWord w) (mkcursor b (c :: r) p)).
Proof.
  unfold_visit. repeat (break_goal; try fwd).
  res. cbn. unfold sq_is_word in *. destruct (byte_eqb c "'"); [lia|discriminate].
Qed.

Lemma good_dq_word w b c r p :
  good_round (mkauto (SDoubleQuotedWord w) (mkcursor b (c :: r) p))
             (visit (SDoubleQuotedWord w) (mkcursor b (c :: r) p)).
Proof.
  unfold_visit. repeat (break_goal; try fwd).
  res. cbn. unfold dq_is_word in *.
  destruct (byte_eqb c x22), (byte_eqb c "$"); cbn in *; try lia; discriminate.
Qed.

Lemma good_single_quoted w b c r p :
  good_round (mkauto (SSingleQuoted w) (mkcursor b (c :: r) p))
             (visit (SSingleQuoted w) (mkcursor b (c :: r) p)).
Proof. unfold_visit. repeat (break_goal; try fwd). res. cbn. rewrite Heqb0. lia. Qed.

Lemma good_double_quoted w b c r p :
  good_round (mkauto (SDoubleQuoted w) (mkcursor b (c :: r) p))
             (visit (SDoubleQuoted w) (mkcursor b (c :: r) p)).
Proof. unfold_visit. repeat (break_goal; try fwd). res. cbn. rewrite Heqb0, Heqb1. cbn. lia. Qed.

Lemma good_dollar d b c r p :
  good_round (mkauto (SDollar d) (mkcursor b (c :: r) p))
             (visit (SDollar d) (mkcursor b (c :: r) p)).
Proof.
  unfold_visit. repeat (break_goal; try fwd).
  all: res; cbn; destruct (ends_arg c), (arg_is_word c); lia.
Qed.

Lemma good_quoted_dollar d b c r p :
  good_round (mkauto (SQuotedDollar d) (mkcursor b (c :: r) p))
             (visit (SQuotedDollar d) (mkcursor b (c :: r) p)).
Proof.
  unfold_visit. repeat (break_goal; try fwd).
  all: res; cbn; destruct (byte_eqb c x22 || byte_eqb c "$"); lia.
Qed.

(** At the end of the input only rounds with an output go on. *)
Lemma good_eof s b p :
  good_round (mkauto s (mkcursor b [] p)) (visit s (mkcursor b [] p)).
Proof.
  destruct s; unfold_visit; try (destruct first); try exact I;
    repeat (break_goal; try exact I);
    cbn [good_round t_out t_state t_step au_cursor apply_step is_eof cur_after];
    intros H; try discriminate (H eq_refl);
    try (split; [unfold mu; cbn; lia|exact I]).
Qed.

Lemma visit_decreases a : winv a -> good_round a (visit (au_state a) (au_cursor a)).
Proof.
  destruct a as [s [b [|c r] p]]; intros Hw; cbn [au_state au_cursor].
  - apply good_eof.
  - destruct s.
    + apply good_root.
    + apply good_comment; reflexivity.
    + apply good_number.
    + apply good_byte.
    + apply good_string.
    + apply good_word.
    + apply good_symbol.
    + apply good_command.
    + apply good_comment; reflexivity.
    + apply good_argument.
    + apply good_expansion; exact Hw.
    + apply good_expansion_word; exact Hw.
    + apply good_single_quoted.
    + apply good_double_quoted.
    + apply good_unquoted.
    + apply good_sq_word.
    + apply good_dq_word.
    + apply good_dollar.
    + apply good_quoted_dollar.
    + apply good_command_symbol.
Qed.

Lemma round_decreases a a' :
  winv a ->
  (lex_round a = RContinue a' \/ exists o, lex_round a = ROutput o a') ->
  mu a' < mu a /\ winv a'.
Proof.
  intros Hw H. pose proof (visit_decreases a Hw) as G. unfold lex_round in H.
  destruct (visit (au_state a) (au_cursor a)) as [t|]; [|destruct H as [|[]]; discriminate].
  cbn [good_round] in G. destruct (t_out t) as [o|].
  - destruct H as [H|[o' H]]; [discriminate|]. injection H as _ <-. apply G. discriminate.
  - destruct (is_eof (au_cursor a)); destruct H as [H|[o' H]]; try discriminate.
    injection H as <-. now apply G.
Qed.

Lemma lex_rounds_total : forall fuel a, winv a -> mu a < fuel -> lex_rounds fuel a <> LexFuel.
Proof.
  induction fuel as [|f IH]; intros a Hw Hf; [lia|].
  cbn [lex_rounds]. destruct (lex_round a) as [a'|o a'|a'|] eqn:E; try discriminate.
  - destruct (round_decreases a a' Hw) as [H1 H2]; [eauto|]. apply IH; [assumption|lia].
  - destruct (round_decreases a a' Hw) as [H1 H2]; [eauto|].
    assert (lex_rounds f a' <> LexFuel) by (apply IH; [assumption|lia]).
    destruct (lex_rounds f a'); cbn; congruence.
Qed.

Lemma lex_next_total : forall fuel a, winv a -> mu a < fuel -> lex_next fuel a <> NFuel.
Proof.
  induction fuel as [|f IH]; intros a Hw Hf; [lia|].
  cbn [lex_next]. destruct (lex_round a) as [a'|o a'|a'|] eqn:E; try discriminate.
  destruct (round_decreases a a' Hw) as [H1 H2]; [eauto|]. apply IH; [assumption|lia].
Qed.

Lemma lex_rounds_mono : forall f g a,
  f <= g -> lex_rounds f a <> LexFuel -> lex_rounds g a = lex_rounds f a.
Proof.
  induction f as [|f IH]; intros g a Hg H; [now cbn in H|].
  destruct g as [|g]; [lia|]. cbn [lex_rounds] in *.
  destruct (lex_round a) as [a'|o a'|a'|] eqn:E; try reflexivity.
  - apply IH; [lia|assumption].
  - f_equal. apply IH; [lia|]. intros E'. rewrite E' in H. now cbn in H.
Qed.

Lemma winv_new src : winv (automaton_new src).
Proof. exact I. Qed.

Lemma mu_new src : mu (automaton_new src) < lex_fuel src.
Proof.
  unfold automaton_new. rewrite mu_not_exp by exact I. cbn [cur_after cursor_from].
  match goal with |- _ + ?x < _ => assert (x <= 13) by apply rank_le end.
  unfold lex_fuel. lia.
Qed.

Lemma lex_total src : lex src <> LexFuel.
Proof. apply lex_rounds_total; [apply winv_new|apply mu_new]. Qed.

(** The lexer as a function without fuel, with its unfolding equation. *)
Definition lex_from (a : automaton) : lexed := lex_rounds (S (mu a)) a.

Lemma lex_from_eq a :
  winv a ->
  lex_from a = match lex_round a with
               | RContinue a' => lex_from a'
               | ROutput o a' => lex_cons o (lex_from a')
               | REnd _ => LexDone []
               | RCrash => LexCrash []
               end.
Proof.
  intros Hw. unfold lex_from at 1. cbn [lex_rounds].
  destruct (lex_round a) as [a'|o a'|a'|] eqn:E; try reflexivity.
  - destruct (round_decreases a a' Hw) as [H1 H2]; [eauto|].
    symmetry. unfold lex_from. symmetry. apply lex_rounds_mono; [lia|].
    apply lex_rounds_total; [assumption|lia].
  - destruct (round_decreases a a' Hw) as [H1 H2]; [eauto|].
    f_equal. unfold lex_from. apply lex_rounds_mono; [lia|].
    apply lex_rounds_total; [assumption|lia].
Qed.

Lemma lex_is_from src : lex src = lex_from (automaton_new src).
Proof.
  unfold lex, lex_from. apply lex_rounds_mono; [pose proof (mu_new src); lia|].
  apply lex_rounds_total; [apply winv_new|lia].
Qed.
