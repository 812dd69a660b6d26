(** Where the lexer can hit an unimplemented feature: only on [\[] or [{] inside a command
    block, hence only after an opening brace. *)
From Verif Require Import Base Lexer LexerTermProofs SpecLexer LexerProofs LexerPosProofs.
Local Open Scope byte_scope.

Definition braced (cur : cursor) : Prop := In "{" (cur_before cur).

(** States inside a command block have an opening brace behind them. *)
Definition binv (s : state) (cur : cursor) : Prop :=
  match s with
  | SRoot | SComment | SNumber _ _ _ _ | SByte _ _ _ | SString _ _ _ | SWord _ _ => True
  | SSymbol f _ => double_char f = true
  | SCommandSymbol f _ => command_double_char f = true /\ braced cur
  | SExpansion e => braced cur /\ braced (e_start e)
  | SExpansionWord e => braced cur /\ braced (e_start e)
  | _ => braced cur
  end.

Definition bround (s : state) (cur : cursor) : Prop :=
  match visit s cur with
  | Crash => exists c r, cur_after cur = c :: r /\ (c = "[" \/ c = "{") /\ braced cur
  | Go t => binv (t_state t) (apply_step (t_step t) cur)
  end.

Lemma braced_step cur : braced cur -> braced (cursor_step cur).
Proof.
  unfold braced, cursor_step. destruct cur as [b [|c r] p]; cbn; [auto|].
  destruct (byte_eqb c NL); cbn; auto.
Qed.

Lemma brace_here b r p : braced (cursor_step (mkcursor b ("{" :: r) p)).
Proof. now left. Qed.

Ltac bdone H :=
  cbn [t_state t_step binv apply_step e_start expansion_at];
  try exact I;
  first [ exact I | apply H | apply braced_step; apply H | apply brace_here
        | split; [first [apply H|apply braced_step; apply H]|apply H]
        | do 2 eexists; split; [reflexivity|]; split; [cbn; auto|apply H] ].

Lemma binv_symbol f p cur : double_char f = true -> bround (SSymbol f p) cur.
Proof.
  intros H. unfold bround. destruct cur as [cb [|cc cr] cp];
    destruct f; try discriminate H; unfold_visit; repeat (break_goal; conds); cbn; auto.
Qed.

Lemma binv_command_symbol f p cur :
  command_double_char f = true -> braced cur -> bround (SCommandSymbol f p) cur.
Proof.
  intros H Hb. unfold bround. destruct cur as [cb [|cc cr] cp];
    destruct f; try discriminate H; unfold_visit; repeat (break_goal; conds);
    cbn [t_state t_step binv apply_step]; try assumption; now apply braced_step.
Qed.

Lemma binv_root cur : bround SRoot cur.
Proof.
  unfold bround. destruct cur as [cb [|cc cr] cp]; unfold_visit; [exact I|].
  destruct (is_ascii_whitespace cc); [exact I|].
  destruct (byte_eqb cc "#"); [exact I|].
  destruct (byte_eqb cc x22); [exact I|].
  destruct (byte_eqb cc "'"); [exact I|].
  destruct (is_ascii_digit cc); [exact I|].
  destruct (is_word_start cc); [exact I|].
  destruct (symbol_char_from cc) eqn:E; [exact I| |cbn; unfold double_char; now rewrite E].
  destruct k; try exact I.
  assert (cc = "{") as -> by (destruct cc; try discriminate E; reflexivity).
  apply brace_here.
Qed.

Lemma binv_command cur : braced cur -> bround SCommand cur.
Proof.
  intros H. unfold bround. destruct cur as [cb [|cc cr] cp]; unfold_visit; [exact I|].
  destruct (is_ascii_whitespace cc); [now apply braced_step|].
  destruct (byte_eqb cc "#"); [now apply braced_step|].
  destruct (byte_eqb cc "}"); [exact I|].
  destruct (command_symbol_char_from cc) eqn:E; [exact H|now apply braced_step|].
  cbn [tr_step t_state t_step binv apply_step]. unfold command_double_char. rewrite E. split; [reflexivity|now apply braced_step].
Qed.

Lemma binv_round s cur : binv s cur -> bround s cur.
Proof.
  intros H.
  destruct s; [apply binv_root|..]; cbn [binv] in H;
    try (now apply binv_symbol); try (now apply binv_command);
    try (now apply binv_command_symbol);
    unfold bround; destruct cur as [cb [|cc cr] cp]; unfold_visit; cbn [cur_pos];
    repeat (first [bdone H | break_goal; conds]).
Qed.

Lemma crash_from : forall n a src os, mu a < n -> winv a -> binv (au_state a) (au_cursor a) ->
  (exists base, ainv src base a) ->
  lex_from a = LexCrash os ->
  exists pre c rest, src = pre ++ c :: rest /\ (c = "[" \/ c = "{") /\ In "{" pre.
Proof.
  induction n as [|n IH]; intros a src os Hn Hw Hb [base Ha] Hl; [lia|].
  rewrite (lex_from_eq a Hw) in Hl.
  pose proof (binv_round _ _ Hb) as B. pose proof (ainv_round _ _ _ Ha) as R.
  pose proof (round_decreases a) as D.
  unfold bround in B. unfold lex_round in *.
  destruct (visit (au_state a) (au_cursor a)) as [t|] eqn:Ev.
  - destruct (t_out t) as [o|] eqn:Eo.
    + destruct (D _ Hw (or_intror (ex_intro _ o eq_refl))) as [D1 D2].
      match type of Hl with context [lex_from ?x] => destruct (lex_from x) eqn:El end;
        cbn in Hl; try discriminate Hl.
      eapply (IH _ src); [| | | |exact El]; auto; [lia|].
      destruct o as [tk|e]; cbn [round_ok] in R.
      * destruct R as (gap & text & rest & _ & _ & _ & _ & R). eauto.
      * destruct R as [_ R]. eauto.
    + destruct (is_eof (au_cursor a)); [discriminate|].
      destruct (D _ Hw (or_introl eq_refl)) as [D1 D2].
      eapply (IH _ src); [| | | |exact Hl]; auto; [lia|]. eauto.
  - destruct B as (c & r & B1 & B2 & B3).
    destruct Ha as (_ & pre & rest & H1 & H2 & _). rewrite H1 in B1, B3. cbn in B1. subst rest.
    exists pre, c, r. split; [assumption|]. split; [assumption|].
    unfold braced in B3. cbn in B3. now apply in_rev in B3.
Qed.

Theorem lex_crash_brace src os : lex src = LexCrash os ->
  exists pre c rest, src = pre ++ c :: rest /\ (c = "[" \/ c = "{") /\ In "{" pre.
Proof.
  rewrite lex_is_from. intros H.
  eapply (crash_from (S (mu (automaton_new src))) (automaton_new src)); [| | | |exact H]; auto.
  - exact I.
  - exact I.
  - exists []. apply ainv_new.
Qed.
