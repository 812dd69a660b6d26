(** Consequences of the lexer proofs in the form used by the property file. *)
From Coq Require Import Strings.String.
From Verif Require Import Base Lexer LexerTermProofs SpecLexer LexerProofs LexerPosProofs LexerCrashProofs.
Local Open Scope byte_scope.

Lemma outputs_cons o l : l <> LexFuel -> outputs (lex_cons o l) = o :: outputs l.
Proof. destruct l; try reflexivity. congruence. Qed.

Lemma lex_from_total a : winv a -> lex_from a <> LexFuel.
Proof. intros H. apply lex_rounds_total; [assumption|lia]. Qed.

Lemma string_first w s t :
  spelling string_plain string_escapes w s ->
  hd_error (outputs (lex (QUOTE :: w ++ QUOTE :: t))) =
  Some (OkTok (mktoken (TLiteral (LString s)) (mkpos 1 0))).
Proof.
  intros H. rewrite lex_at, (lex_string [] w s t H), outputs_cons; [reflexivity|].
  apply lex_from_total. exact I.
Qed.

Lemma byte_first w c t :
  spelling single_plain string_escapes w [c] ->
  hd_error (outputs (lex ("'" :: w ++ "'" :: t))) =
  Some (OkTok (mktoken (TLiteral (LByte c)) (mkpos 1 0))).
Proof.
  intros H. rewrite lex_at, (lex_byte [] w c t H), outputs_cons; [reflexivity|].
  apply lex_from_total. exact I.
Qed.

Lemma spellable_plain plain escapes : 
  (forall c, (plain c = true /\ c <> BSLASH) \/ exists e, In (e, c) escapes) ->
  forall s, exists w, spelling plain escapes w s.
Proof.
  intros H s. induction s as [|c s [w IH]]; [exists []; constructor|].
  destruct (H c) as [[H1 H2]|[e H1]].
  - exists (c :: w). now constructor.
  - exists (BSLASH :: e :: w). now constructor.
Qed.

Lemma every_string_spelled s : exists w, spelling string_plain string_escapes w s.
Proof.
  apply spellable_plain. intros c.
  destruct (Byte.eqb c QUOTE) eqn:E1.
  { right. exists QUOTE. apply byte_eqb_eq in E1. subst. cbn; auto. }
  destruct (Byte.eqb c BSLASH) eqn:E2.
  { right. exists BSLASH. apply byte_eqb_eq in E2. subst. cbn; tauto. }
  left. unfold string_plain. rewrite E1. split; [reflexivity|]. now apply byte_eqb_neq.
Qed.

Lemma every_string_single_quoted s : exists w, spelling single_plain single_quoted_escapes w s.
Proof.
  apply spellable_plain. intros c.
  destruct (Byte.eqb c "'") eqn:E1.
  { right. exists "'". apply byte_eqb_eq in E1. subst. cbn; auto. }
  destruct (Byte.eqb c BSLASH) eqn:E2.
  { right. exists BSLASH. apply byte_eqb_eq in E2. subst. cbn; tauto. }
  left. unfold single_plain. rewrite E1. split; [reflexivity|]. now apply byte_eqb_neq.
Qed.

Lemma every_string_double_quoted s : exists w, spelling double_plain double_quoted_escapes w s.
Proof.
  apply spellable_plain. intros c.
  destruct (Byte.eqb c QUOTE) eqn:E1.
  { right. exists QUOTE. apply byte_eqb_eq in E1. subst. cbn; auto. }
  destruct (Byte.eqb c "$") eqn:E3.
  { right. exists "$". apply byte_eqb_eq in E3. subst. cbn; auto. }
  destruct (Byte.eqb c BSLASH) eqn:E2.
  { right. exists BSLASH. apply byte_eqb_eq in E2. subst. cbn; tauto. }
  left. unfold double_plain. rewrite E1, E3. split; [reflexivity|]. now apply byte_eqb_neq.
Qed.

Lemma int_first w t :
  all_digits w -> may_follow (TLiteral (LInt 0)) t ->
  hd_error (outputs (lex (w ++ t))) =
  Some (if (decimal_value w <=? 9223372036854775807)%Z
        then OkTok (mktoken (TLiteral (LInt (decimal_value w))) (mkpos 1 0))
        else ErrTok (mkerror (InvalidNumber w) (mkpos 1 0))).
Proof.
  intros Hw Ht. rewrite lex_at.
  destruct (Z.leb_spec (decimal_value w) 9223372036854775807) as [Hle|Hgt].
  - rewrite (lex_int [] w t Hw Hle).
    + rewrite outputs_cons; [reflexivity|]. apply lex_from_total. exact I.
    + destruct t; exact Ht.
  - rewrite lex_number_first by assumption. cbn [app length].
    assert (Hv : visit (SNumber 0 None None (mkpos 1 0)) (cu w t) =
                 tr_error SRoot (mkerror (InvalidNumber w) (mkpos 1 0))).
    { cbn [visit]. unfold visit_number.
      assert (Hp : number_parse 0 None None (mkpos 1 0) (cu w t) = inr (mkerror (InvalidNumber w) (mkpos 1 0))).
      { unfold number_parse. change (slice_to (cu w t) 0) with (slice_to (cu ([] ++ w) t) (length (@nil byte))).
        rewrite slice_cu, digits_val_decimal. unfold in_i64, i64_max, i64_min.
        destruct (Z.leb_spec (decimal_value w) 9223372036854775807); [lia|].
        now rewrite andb_false_r. }
      rewrite Hp. destruct t as [|c t]; cbn [peek cu cur_after hd_error]; [reflexivity|].
      cbn [may_follow] in Ht. destruct Ht as (H1 & H2 & H3 & H4). apply byte_eqb_neq in H2, H3, H4.
      rewrite digit_is_digit, H1, H2, H3, H4. reflexivity. }
    change (position_of []) with (mkpos 1 0).
    rewrite lex_from_eq by exact I. unfold lex_round, at_. cbn [au_state au_cursor]. rewrite Hv.
    cbn [tr_error t_out t_state t_step apply_step].
    rewrite outputs_cons; [reflexivity|]. apply lex_from_total. exact I.
Qed.

Lemma layout_lex src ts : layout InRoot [] src ts -> lex src = LexDone (map OkTok ts).
Proof. intros H. rewrite lex_at. exact (lex_layout _ _ _ _ H). Qed.

Lemma placed_outputs src : placed [] src (outputs (lex src)).
Proof.
  pose proof (lex_placed src) as H. pose proof (lex_total src) as T.
  destruct (lex src); cbn; auto. congruence.
Qed.

Lemma lex_ends src : exists os,
  lex_rounds (16 + 16 * length src) (automaton_new src) = LexDone os \/
  lex_rounds (16 + 16 * length src) (automaton_new src) = LexCrash os.
Proof.
  pose proof (lex_total src) as T. unfold lex, lex_fuel in T.
  destruct (lex_rounds (16 + 16 * length src) (automaton_new src)) as [os|os|];
    [exists os; now left|exists os; now right|congruence].
Qed.

Lemma crash_witness : exists src os, lex src = LexCrash os.
Proof. exists (bs "{ echo [ }"%string). eexists. vm_compute. reflexivity. Qed.

Lemma no_brace_no_crash src : ~ In "{" src -> exists os, lex src = LexDone os.
Proof.
  intros H. pose proof (lex_total src) as T. destruct (lex src) as [os|os|] eqn:E.
  - eauto.
  - destruct (lex_crash_brace src os E) as (pre & c & rest & -> & _ & Hp).
    exfalso. apply H. apply in_or_app. now left.
  - congruence.
Qed.

Lemma placed_ints pre rest os : placed pre rest os ->
  Forall (fun o => forall n p, o = OkTok (mktoken (TLiteral (LInt n)) p) ->
    exists a w b, pre ++ rest = a ++ w ++ b /\ p = position_of a /\ all_digits w /\
      decimal_value w = n /\ (0 <= n <= 9223372036854775807)%Z) os.
Proof.
  induction 1 as [|pre gap text rest t os Hn Hw Hp _ IH|pre rest a b e os He Hp _ IH].
  - constructor.
  - constructor.
    + intros n p [= ->]. cbn in Hw, Hp. exists (pre ++ gap), text, rest.
      rewrite <- !app_assoc. destruct Hw as (H1 & H2 & H3).
      pose proof (decimal_value_nonneg text (proj2 H1)).
      split; [reflexivity|]. split; [assumption|]. split; [assumption|]. split; [assumption|].
      split; [congruence|assumption].
    + eapply Forall_impl; [|exact IH]. intros o Ho n p E.
      destruct (Ho n p E) as (a & w & b & Ha & H). exists a, w, b.
      rewrite <- !app_assoc in Ha. auto.
  - constructor; [discriminate|assumption].
Qed.

Lemma int_tokens_exact src :
  Forall (fun o => forall n p, o = OkTok (mktoken (TLiteral (LInt n)) p) ->
    exists pre w rest, src = pre ++ w ++ rest /\ p = position_of pre /\ all_digits w /\
      decimal_value w = n /\ (0 <= n <= 9223372036854775807)%Z) (outputs (lex src)).
Proof. exact (placed_ints [] src _ (placed_outputs src)). Qed.

Lemma layout_example :
  layout InRoot [] (bs "x#c"%string ++ NL :: bs "{ a$b }"%string)
  [mktoken (TIdentifier ["x"]) (mkpos 1 0); mktoken TCommand (mkpos 2 0);
   mktoken (TArgument [PUnquoted (AULiteral ["a"]); PUnquoted (AUDollar ["b"] (mkpos 2 3))]) (mkpos 2 2);
   mktoken TCloseCommand (mkpos 2 6)].
Proof.
  assert (Hid : forall c, letter c = true -> ~ In [c] (map fst reserved) -> is_identifier [c]).
  { intros c Hc Hr. split; [eauto|]. split; [|assumption].
    constructor; [unfold word_byte; now rewrite Hc|constructor]. }
  apply (ly_token [] ["x"] _ (bs "#c"%string ++ NL :: bs "{ a$b }"%string)).
  { apply tt_ident, Hid; [reflexivity|]. cbn. intuition discriminate. }
  { reflexivity. }
  cbn [next_mode]. apply (ly_comment _ _ ["c"]). { cbn. intuition discriminate. }
  apply (ly_token (bs "x#c"%string ++ [NL]) ["{"] TCommand (bs " a$b }"%string)).
  { apply tt_symbol. cbn. tauto. } { exact I. }
  cbn [next_mode]. apply ly_blank; [reflexivity|].
  apply (ly_argument (bs "x#c"%string ++ NL :: bs "{ "%string) (bs "a$b"%string) _ (bs " }"%string)).
  { discriminate. } { cbn. discriminate. }
  { apply (at_literal _ _ ["a"] _ (bs "$b"%string)); [discriminate| | | |].
    - constructor; [reflexivity|discriminate|constructor].
    - cbn. discriminate.
    - cbn. discriminate.
    - apply (at_dollar _ (bs "x#c"%string ++ NL :: bs "{ a"%string) ["b"] []).
      + apply Hid; [reflexivity|]. cbn. intuition discriminate.
      + cbn. discriminate.
      + apply at_end. reflexivity. }
  apply ly_blank; [reflexivity|].
  apply (ly_close (bs "x#c"%string ++ NL :: bs "{ a$b "%string)). apply ly_end.
Qed.
