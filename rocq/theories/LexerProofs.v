(** The lexer on well laid out sources: completeness with respect to [layout]. *)
From Coq Require Import Strings.String.
From Verif Require Import Base Lexer LexerTermProofs SpecLexer.
Local Open Scope byte_scope.

Definition cu (pre rest : bytes) : cursor := mkcursor (rev pre) rest (position_of pre).
Definition at_ (s : state) (pre rest : bytes) : automaton := mkauto s (cu pre rest).

Lemma count_nl_app a b : count_nl (a ++ b) = (count_nl a + count_nl b)%N.
Proof. induction a as [|c a IH]; cbn [app count_nl]; [lia|]. rewrite IH. lia. Qed.

Lemma cu_step pre c r : cursor_step (cu pre (c :: r)) = cu (pre ++ [c]) r.
Proof.
  unfold cu, cursor_step, position_of. cbn [cur_after cur_before cur_pos line column].
  rewrite rev_app_distr. cbn [rev app]. f_equal.
  rewrite count_nl_app. cbn [count_nl bytes_until_nl].
  change byte_eqb with Byte.eqb. change x0a with NL.
  destruct (Byte.eqb c NL).
  - f_equal. lia.
  - f_equal; lia.
Qed.

Lemma lx_fwd s pre c r s' :
  winv (at_ s pre (c :: r)) -> visit s (cu pre (c :: r)) = tr_step s' ->
  lex_from (at_ s pre (c :: r)) = lex_from (at_ s' (pre ++ [c]) r).
Proof.
  intros Hw H. rewrite lex_from_eq by assumption. unfold lex_round, at_.
  cbn [au_state au_cursor]. rewrite H. cbn [tr_step t_out t_state t_step apply_step].
  rewrite cu_step. reflexivity.
Qed.

Lemma lx_prod s pre c r s' t :
  winv (at_ s pre (c :: r)) -> visit s (cu pre (c :: r)) = tr_produce s' t ->
  lex_from (at_ s pre (c :: r)) = lex_cons (OkTok t) (lex_from (at_ s' (pre ++ [c]) r)).
Proof.
  intros Hw H. rewrite lex_from_eq by assumption. unfold lex_round, at_.
  cbn [au_state au_cursor]. rewrite H. cbn [tr_produce t_out t_state t_step apply_step].
  rewrite cu_step. reflexivity.
Qed.

Lemma lx_err s pre c r s' e :
  winv (at_ s pre (c :: r)) -> visit s (cu pre (c :: r)) = tr_error s' e ->
  lex_from (at_ s pre (c :: r)) = lex_cons (ErrTok e) (lex_from (at_ s' (pre ++ [c]) r)).
Proof.
  intros Hw H. rewrite lex_from_eq by assumption. unfold lex_round, at_.
  cbn [au_state au_cursor]. rewrite H. cbn [tr_error t_out t_state t_step apply_step].
  rewrite cu_step. reflexivity.
Qed.

Lemma lx_res s pre c r s' :
  winv (at_ s pre (c :: r)) -> visit s (cu pre (c :: r)) = tr_resume s' ->
  lex_from (at_ s pre (c :: r)) = lex_from (at_ s' pre (c :: r)).
Proof.
  intros Hw H. rewrite lex_from_eq by assumption. unfold lex_round, at_.
  cbn [au_state au_cursor]. rewrite H. reflexivity.
Qed.

Lemma lx_res_prod s pre r s' t :
  winv (at_ s pre r) -> visit s (cu pre r) = tr_resume_produce s' t ->
  lex_from (at_ s pre r) = lex_cons (OkTok t) (lex_from (at_ s' pre r)).
Proof.
  intros Hw H. rewrite lex_from_eq by assumption. unfold lex_round, at_.
  cbn [au_state au_cursor]. rewrite H. reflexivity.
Qed.

Lemma lex_at src : lex src = lex_from (at_ SRoot [] src).
Proof. apply lex_is_from. Qed.

Lemma slice_cu pre w rest : slice_to (cu (pre ++ w) rest) (length pre) = w.
Proof.
  unfold slice_to, cu; cbn [cur_before]. rewrite rev_involutive.
  rewrite skipn_app, skipn_all, Nat.sub_diag. reflexivity.
Qed.

Lemma offset_cu pre rest : cur_offset (cu pre rest) = length pre.
Proof. unfold cur_offset, cu; cbn [cur_before]. apply rev_length. Qed.

(** Facts about bytes by enumeration. *)
Lemma letter_word_start c : is_word_start c = letter c.
Proof. destruct c; reflexivity. Qed.
Lemma word_byte_is_word c : is_word c = word_byte c.
Proof. destruct c; reflexivity. Qed.
Lemma digit_is_digit c : is_ascii_digit c = digit c.
Proof. destruct c; reflexivity. Qed.

(** ** Blanks and comments *)
Definition mode_state (m : mode) : state := match m with InRoot => SRoot | InCommand => SCommand end.
Definition comment_state (m : mode) : state :=
  match m with InRoot => SComment | InCommand => SCommandComment end.

Lemma lex_blank m pre c r :
  is_ascii_whitespace c = true ->
  lex_from (at_ (mode_state m) pre (c :: r)) = lex_from (at_ (mode_state m) (pre ++ [c]) r).
Proof.
  intros H. apply lx_fwd; destruct m; try exact I; cbn [mode_state visit visit_root visit_command];
  unfold visit_root, visit_command; cbn [peek cu cur_after hd_error]; rewrite H; reflexivity.
Qed.

Lemma visit_comment_other s parent c rest pre :
  c <> NL -> visit_comment s parent (cu pre (c :: rest)) = tr_step s.
Proof.
  intros H. unfold visit_comment; cbn. destruct c; try reflexivity. now destruct H.
Qed.

Lemma comment_visit m cur :
  visit (comment_state m) cur = visit_comment (comment_state m) (mode_state m) cur.
Proof. destruct m; reflexivity. Qed.

Lemma comment_winv m pre r : winv (at_ (comment_state m) pre r).
Proof. destruct m; exact I. Qed.
Lemma mode_winv m pre r : winv (at_ (mode_state m) pre r).
Proof. destruct m; exact I. Qed.

Lemma lex_comment_body m cs : forall pre r,
  ~ In NL cs ->
  lex_from (at_ (comment_state m) pre (cs ++ r)) =
  lex_from (at_ (comment_state m) (pre ++ cs) r).
Proof.
  induction cs as [|c cs IH]; intros pre r H.
  - now rewrite app_nil_r.
  - cbn [app]. rewrite (lx_fwd _ _ _ _ (comment_state m)).
    + rewrite IH by (intros ?; apply H; now right). now rewrite <- app_assoc.
    + apply comment_winv.
    + rewrite comment_visit. apply visit_comment_other. intros ->. apply H. now left.
Qed.

Lemma lex_comment_start m pre r :
  lex_from (at_ (mode_state m) pre ("#" :: r)) = lex_from (at_ (comment_state m) (pre ++ ["#"]) r).
Proof. apply lx_fwd; destruct m; try exact I; reflexivity. Qed.

Lemma lex_comment m pre cs r :
  ~ In NL cs ->
  lex_from (at_ (mode_state m) pre ("#" :: cs ++ NL :: r)) =
  lex_from (at_ (mode_state m) (pre ++ "#" :: cs ++ [NL]) r).
Proof.
  intros H. rewrite lex_comment_start, lex_comment_body by assumption.
  rewrite (lx_res _ _ _ _ (mode_state m)).
  - rewrite lex_blank by reflexivity. rewrite <- !app_assoc. reflexivity.
  - apply comment_winv.
  - rewrite comment_visit. reflexivity.
Qed.

Lemma lex_last_comment pre cs :
  ~ In NL cs -> lex_from (at_ SRoot pre ("#" :: cs)) = LexDone [].
Proof.
  intros H. rewrite (lex_comment_start InRoot). rewrite <- (app_nil_r cs).
  rewrite lex_comment_body by assumption.
  rewrite lex_from_eq by exact I. reflexivity.
Qed.

Lemma lex_end pre : lex_from (at_ SRoot pre []) = LexDone [].
Proof. rewrite lex_from_eq by exact I. reflexivity. Qed.

(** ** Words *)
Lemma lex_word_body w : forall start p pre r,
  Forall (fun c => word_byte c = true) w ->
  lex_from (at_ (SWord start p) pre (w ++ r)) = lex_from (at_ (SWord start p) (pre ++ w) r).
Proof.
  induction w as [|c w IH]; intros start p pre r H.
  - now rewrite app_nil_r.
  - inversion H as [|? ? Hc Hw]; subst. cbn [app].
    rewrite (lx_fwd _ _ _ _ (SWord start p)).
    + rewrite IH by assumption. now rewrite <- app_assoc.
    + exact I.
    + cbn. rewrite <- word_byte_is_word in Hc. unfold visit_word. cbn. now rewrite Hc.
Qed.

Lemma letter_not_blank c : letter c = true ->
  is_ascii_whitespace c = false /\ byte_eqb c "#" = false /\ byte_eqb c x22 = false /\
  byte_eqb c "'" = false /\ is_ascii_digit c = false.
Proof.
  assert (G : implb (letter c)
    (negb (is_ascii_whitespace c) && negb (byte_eqb c "#") && negb (byte_eqb c x22) &&
     negb (byte_eqb c "'") && negb (is_ascii_digit c)) = true) by (destruct c; vm_compute; reflexivity).
  intros H. rewrite H in G. cbn [implb] in G.
  rewrite !andb_true_iff, !negb_true_iff in G. tauto.
Qed.

Lemma lex_word pre c w r :
  letter c = true -> Forall (fun c => word_byte c = true) (c :: w) ->
  ~ starts_with word_byte r ->
  lex_from (at_ SRoot pre (c :: w ++ r)) =
  lex_cons (OkTok (mktoken (to_token (c :: w)) (position_of pre)))
           (lex_from (at_ SRoot (pre ++ c :: w) r)).
Proof.
  intros Hc Hw Hr. destruct (letter_not_blank c Hc) as (H1 & H2 & H3 & H4 & H5).
  rewrite (lx_res _ _ _ _ (SWord (length pre) (position_of pre))).
  - change (c :: w ++ r) with ((c :: w) ++ r). rewrite lex_word_body by assumption.
    rewrite (lx_res_prod _ _ _ SRoot (mktoken (to_token (c :: w)) (position_of pre))).
    + reflexivity.
    + exact I.
    + cbn [visit]. unfold visit_word. rewrite slice_cu.
      destruct r as [|c' r]; [reflexivity|]. cbn [peek cu cur_after hd_error].
      cbn [starts_with] in Hr. rewrite word_byte_is_word.
      destruct (word_byte c'); [now destruct Hr|reflexivity].
  - exact I.
  - cbn [visit]. unfold visit_root. cbn [peek cu cur_after hd_error].
    rewrite H1, H2, H3, H4, H5, letter_word_start, Hc. now rewrite offset_cu.
Qed.

(** ** Numbers *)
Lemma digit_facts c : digit c = true ->
  is_ascii_whitespace c = false /\ byte_eqb c "#" = false /\ byte_eqb c x22 = false /\
  byte_eqb c "'" = false /\ byte_eqb c "." = false /\ byte_eqb c "e" = false /\
  byte_eqb c "E" = false.
Proof.
  assert (G : implb (digit c)
    (negb (is_ascii_whitespace c) && negb (byte_eqb c "#") && negb (byte_eqb c x22) &&
     negb (byte_eqb c "'") && negb (byte_eqb c ".") && negb (byte_eqb c "e") &&
     negb (byte_eqb c "E")) = true) by (destruct c; vm_compute; reflexivity).
  intros H. rewrite H in G. cbn [implb] in G.
  rewrite !andb_true_iff, !negb_true_iff in G. tauto.
Qed.

Lemma digit_ge48 c : digit c = true -> (48 <= Z.of_N (Byte.to_N c))%Z.
Proof.
  assert (G : implb (digit c) (48 <=? Byte.to_N c)%N = true) by (destruct c; vm_compute; reflexivity).
  intros H. rewrite H in G. cbn [implb] in G. apply N.leb_le in G. lia.
Qed.

Definition mark (o : option bool) : option bool := match o with Some false => Some true | _ => o end.

Lemma lex_number_digit start d e p pre c r :
  digit c = true ->
  lex_from (at_ (SNumber start d e p) pre (c :: r)) =
  lex_from (at_ (SNumber start (mark d) (mark e) p) (pre ++ [c]) r).
Proof.
  intros Hc. destruct (digit_facts c Hc) as (H1 & H2 & H3 & H4 & H5 & H6 & H7).
  apply lx_fwd; [exact I|]. cbn [visit]. unfold visit_number. cbn [peek cu cur_after hd_error].
  rewrite H5, H6, H7, digit_is_digit, Hc. cbn [orb].
  destruct d as [[]|], e as [[]|]; reflexivity.
Qed.

Lemma mark_mark o : mark (mark o) = mark o.
Proof. destruct o as [[]|]; reflexivity. Qed.

Lemma lex_number_digits w : forall start d e p pre r,
  w <> [] -> Forall (fun c => digit c = true) w ->
  lex_from (at_ (SNumber start d e p) pre (w ++ r)) =
  lex_from (at_ (SNumber start (mark d) (mark e) p) (pre ++ w) r).
Proof.
  induction w as [|c w IH]; intros start d e p pre r Hn H; [congruence|].
  inversion H as [|? ? Hc Hw]; subst. cbn [app]. rewrite lex_number_digit by assumption.
  destruct w as [|c' w].
  - reflexivity.
  - rewrite IH by (congruence || assumption). rewrite !mark_mark, <- app_assoc. reflexivity.
Qed.

Lemma lex_number_digits0 w : forall start d e p pre r,
  mark d = d -> mark e = e -> Forall (fun c => digit c = true) w ->
  lex_from (at_ (SNumber start d e p) pre (w ++ r)) =
  lex_from (at_ (SNumber start d e p) (pre ++ w) r).
Proof.
  intros. destruct w as [|c w]; [now rewrite app_nil_r|].
  rewrite lex_number_digits by (congruence || assumption). congruence.
Qed.

Lemma lex_number_start pre c r :
  digit c = true ->
  lex_from (at_ SRoot pre (c :: r)) =
  lex_from (at_ (SNumber (length pre) None None (position_of pre)) (pre ++ [c]) r).
Proof.
  intros Hc. destruct (digit_facts c Hc) as (H1 & H2 & H3 & H4 & H5 & H6 & H7).
  apply lx_fwd; [exact I|]. cbn [visit]. unfold visit_root. cbn [peek cu cur_after hd_error].
  now rewrite H1, H2, H3, H4, digit_is_digit, Hc, offset_cu.
Qed.

Lemma lex_number_first pre w r :
  all_digits w ->
  lex_from (at_ SRoot pre (w ++ r)) =
  lex_from (at_ (SNumber (length pre) None None (position_of pre)) (pre ++ w) r).
Proof.
  intros [Hn H]. destruct w as [|c w]; [congruence|]. inversion H as [|? ? Hc Hw]; subst.
  cbn [app]. rewrite lex_number_start by assumption.
  rewrite lex_number_digits0 by (reflexivity || assumption). now rewrite <- app_assoc.
Qed.

Lemma value_rev_app a b : value_rev (a ++ b) = (value_rev a + 10 ^ Z.of_nat (length a) * value_rev b)%Z.
Proof.
  induction a as [|c a IH]; cbn [app value_rev length].
  - change (10 ^ Z.of_nat 0)%Z with 1%Z. lia.
  - rewrite IH, Nat2Z.inj_succ, Z.pow_succ_r by lia. ring.
Qed.

Lemma digits_val_decimal_aux ds : forall acc,
  fold_left (fun acc c => acc * 10 + digit_val c)%Z ds acc =
  (acc * 10 ^ Z.of_nat (length ds) + value_rev (rev ds))%Z.
Proof.
  induction ds as [|d ds IH]; intros acc; cbn [fold_left length rev].
  - cbn [value_rev]. change (10 ^ Z.of_nat 0)%Z with 1%Z. lia.
  - rewrite IH, value_rev_app, rev_length, Nat2Z.inj_succ, Z.pow_succ_r by lia.
    cbn [value_rev]. unfold digit_val. ring.
Qed.

Lemma digits_val_decimal ds : digits_val ds = decimal_value ds.
Proof. unfold digits_val, decimal_value. rewrite digits_val_decimal_aux. lia. Qed.

Lemma decimal_value_nonneg ds :
  Forall (fun c => digit c = true) ds -> (0 <= decimal_value ds)%Z.
Proof.
  intros H. unfold decimal_value. apply Forall_rev in H. induction H as [|c l Hc Hl IH]; cbn [value_rev].
  - lia.
  - pose proof (digit_ge48 c Hc). lia.
Qed.

Lemma stops_number d e st p pre w r :
  match r with
  | [] => True
  | c :: _ => digit c = false /\ c <> "." /\ c <> "e" /\ c <> "E"
  end ->
  d <> Some false -> e <> Some false ->
  visit (SNumber st d e p) (cu (pre ++ w) r) =
  match number_parse st d e p (cu (pre ++ w) r) with
  | inl t => tr_resume_produce SRoot t
  | inr er => tr_error SRoot er
  end.
Proof.
  intros Hr Hd He. cbn [visit]. unfold visit_number. destruct r as [|c r].
  - cbn [peek cu cur_after hd_error]. destruct d as [[]|], e as [[]|]; congruence || reflexivity.
  - cbn [peek cu cur_after hd_error]. destruct Hr as (H1 & H2 & H3 & H4).
    apply byte_eqb_neq in H2, H3, H4. rewrite digit_is_digit, H1, H2, H3, H4. cbn [orb].
    destruct d as [[]|], e as [[]|]; congruence || reflexivity.
Qed.

Lemma lex_int pre w r :
  all_digits w -> (decimal_value w <= 9223372036854775807)%Z ->
  may_follow (TLiteral (LInt 0)) r ->
  lex_from (at_ SRoot pre (w ++ r)) =
  lex_cons (OkTok (mktoken (TLiteral (LInt (decimal_value w))) (position_of pre)))
           (lex_from (at_ SRoot (pre ++ w) r)).
Proof.
  intros Hw Hv Hr. rewrite lex_number_first by assumption.
  apply lx_res_prod; [exact I|].
  rewrite stops_number by (discriminate || (destruct r; exact Hr)).
  unfold number_parse. rewrite slice_cu, digits_val_decimal.
  pose proof (decimal_value_nonneg w (proj2 Hw)).
  assert (in_i64 (decimal_value w) = true) as ->.
  { unfold in_i64, i64_min, i64_max. apply andb_true_iff; split; apply Z.leb_le; lia. }
  reflexivity.
Qed.

Lemma lex_float pre w r :
  is_float_text w -> may_follow (TLiteral (LFloat w)) r ->
  lex_from (at_ SRoot pre (w ++ r)) =
  lex_cons (OkTok (mktoken (TLiteral (LFloat w)) (position_of pre)))
           (lex_from (at_ SRoot (pre ++ w) r)).
Proof.
  intros Hw Hr.
  assert (exists d e, d <> Some false /\ e <> Some false /\ (d <> None \/ e <> None) /\
    lex_from (at_ SRoot pre (w ++ r)) =
    lex_from (at_ (SNumber (length pre) d e (position_of pre)) (pre ++ w) r))
    as (d & e & Hd & He & Hde & ->).
  { destruct Hw as [a b Ha Hb|a x b Ha Hb Hx|a b x c Ha Hb Hc Hx].
    - exists (Some true), None. repeat split; try discriminate; [left; discriminate|].
      rewrite <- app_assoc. rewrite lex_number_first by assumption. cbn [app].
      rewrite (lx_fwd _ _ _ _ (SNumber (length pre) (Some false) None (position_of pre)))
        by (exact I || reflexivity).
      rewrite lex_number_digits by apply Hb. rewrite <- !app_assoc. reflexivity.
    - exists None, (Some true). repeat split; try discriminate; [right; discriminate|].
      rewrite <- app_assoc. rewrite lex_number_first by assumption. cbn [app].
      rewrite (lx_fwd _ _ _ _ (SNumber (length pre) None (Some false) (position_of pre)))
        by (exact I || (destruct Hx; subst x; reflexivity)).
      rewrite lex_number_digits by apply Hb. rewrite <- !app_assoc. reflexivity.
    - exists (Some true), (Some true). repeat split; try discriminate; [left; discriminate|].
      rewrite <- app_assoc. rewrite lex_number_first by assumption. cbn [app].
      rewrite (lx_fwd _ _ _ _ (SNumber (length pre) (Some false) None (position_of pre)))
        by (exact I || reflexivity).
      rewrite <- (app_assoc b (x :: c) r).
      destruct b as [|b0 b].
      + cbn [app].
        rewrite (lx_fwd _ _ _ _ (SNumber (length pre) (Some false) (Some false) (position_of pre)))
          by (exact I || (destruct Hx; subst x; reflexivity)).
        rewrite lex_number_digits by apply Hc. rewrite <- !app_assoc. reflexivity.
      + rewrite lex_number_digits by (discriminate || assumption). cbn [app].
        rewrite (lx_fwd _ _ _ _ (SNumber (length pre) (Some true) (Some false) (position_of pre)))
          by (exact I || (destruct Hx; subst x; reflexivity)).
        rewrite lex_number_digits by apply Hc. rewrite <- !app_assoc. reflexivity. }
  apply lx_res_prod; [exact I|].
  rewrite stops_number; [|destruct r; exact Hr|assumption|assumption].
  unfold number_parse. rewrite slice_cu.
  destruct d, e; try reflexivity. destruct Hde; congruence.
Qed.

(** ** String and byte literals *)
Lemma in_string_escapes e c : In (e, c) string_escapes -> string_validate_escape e = Some c.
Proof.
  intros H. cbn in H. repeat (destruct H as [H|H]; [injection H as <- <-; reflexivity|]). contradiction.
Qed.

Lemma lex_string_body text s :
  spelling string_plain string_escapes text s ->
  forall v p pre r,
  lex_from (at_ (SString v None p) pre (text ++ QUOTE :: r)) =
  lex_cons (OkTok (mktoken (TLiteral (LString (v ++ s))) p))
           (lex_from (at_ SRoot (pre ++ text ++ [QUOTE]) r)).
Proof.
  induction 1 as [|c text s Hp Hb _ IH|e c text s He _ IH]; intros v p pre r; cbn [app].
  - rewrite app_nil_r. apply lx_prod; [exact I|]. reflexivity.
  - rewrite (lx_fwd _ _ _ _ (SString (v ++ [c]) None p)).
    + rewrite IH, <- !app_assoc. reflexivity.
    + exact I.
    + cbn [visit]. unfold visit_string. cbn [peek cu cur_after hd_error].
      apply byte_eqb_neq in Hb. change BSLASH with "\" in Hb. rewrite Hb.
      unfold string_plain in Hp. apply negb_true_iff in Hp.
      change (Byte.eqb c QUOTE) with (byte_eqb c x22) in Hp. now rewrite Hp.
  - rewrite (lx_fwd _ _ _ _ (SString v (Some (length pre, position_of pre)) p)).
    + rewrite (lx_fwd _ _ _ _ (SString (v ++ [c]) None p)).
      * rewrite IH, <- !app_assoc. reflexivity.
      * exact I.
      * cbn [visit]. unfold visit_string. cbn [peek cu cur_after hd_error].
        now rewrite (in_string_escapes _ _ He).
    + exact I.
    + cbn [visit]. unfold visit_string. cbn [peek cu cur_after hd_error]. now rewrite offset_cu.
Qed.

Lemma lex_string pre text s r :
  spelling string_plain string_escapes text s ->
  lex_from (at_ SRoot pre (QUOTE :: text ++ QUOTE :: r)) =
  lex_cons (OkTok (mktoken (TLiteral (LString s)) (position_of pre)))
           (lex_from (at_ SRoot (pre ++ QUOTE :: text ++ [QUOTE]) r)).
Proof.
  intros H. rewrite (lx_fwd _ _ _ _ (SString [] None (position_of pre))) by (exact I || reflexivity).
  rewrite (lex_string_body text s H). rewrite <- app_assoc. reflexivity.
Qed.

Lemma lex_byte pre text c r :
  spelling single_plain string_escapes text [c] ->
  lex_from (at_ SRoot pre ("'" :: text ++ "'" :: r)) =
  lex_cons (OkTok (mktoken (TLiteral (LByte c)) (position_of pre)))
           (lex_from (at_ SRoot (pre ++ "'" :: text ++ ["'"]) r)).
Proof.
  intros H. rewrite (lx_fwd _ _ _ _ (SByte None None (position_of pre))) by (exact I || reflexivity).
  inversion H as [|? ? ? Hp Hb Hs|e ? ? ? He Hs]; subst; inversion Hs; subst; cbn [app].
  - rewrite (lx_fwd _ _ _ _ (SByte (Some c) None (position_of pre))).
    + rewrite (lx_prod _ _ _ _ SRoot (mktoken (TLiteral (LByte c)) (position_of pre))).
      * rewrite <- !app_assoc. reflexivity.
      * exact I.
      * reflexivity.
    + exact I.
    + cbn [visit]. unfold visit_byte. cbn [peek cu cur_after hd_error].
      apply byte_eqb_neq in Hb. change BSLASH with "\" in Hb. rewrite Hb.
      unfold single_plain in Hp. apply negb_true_iff in Hp.
      change (Byte.eqb c "'") with (byte_eqb c "'") in Hp. now rewrite Hp.
  - rewrite (lx_fwd _ _ _ _ (SByte None (Some (length (pre ++ ["'"]), position_of (pre ++ ["'"]))) (position_of pre))).
    + rewrite (lx_fwd _ _ _ _ (SByte (Some c) None (position_of pre))).
      * rewrite (lx_prod _ _ _ _ SRoot (mktoken (TLiteral (LByte c)) (position_of pre))).
        -- rewrite <- !app_assoc. reflexivity.
        -- exact I.
        -- reflexivity.
      * exact I.
      * cbn [visit]. unfold visit_byte. cbn [peek cu cur_after hd_error].
        now rewrite (in_string_escapes _ _ He).
    + exact I.
    + cbn [visit]. unfold visit_byte. cbn [peek cu cur_after hd_error]. now rewrite offset_cu.
Qed.

(** ** Operators and punctuation *)
Lemma neq_eqb c d : c <> d -> byte_eqb c d = false.
Proof. apply byte_eqb_neq. Qed.

Lemma lex_symbol pre w k r :
  In (w, k) symbols -> may_follow k r ->
  lex_from (at_ SRoot pre (w ++ r)) =
  lex_cons (OkTok (mktoken k (position_of pre)))
           (lex_from (at_ (mode_state (next_mode k)) (pre ++ w) r)).
Proof.
  intros H Hr. cbn in H.
  assert (Hone : forall c k s', visit_root (cu pre (c :: r)) =
             tr_produce s' (mktoken k (position_of pre)) ->
           lex_from (at_ SRoot pre ([c] ++ r)) =
           lex_cons (OkTok (mktoken k (position_of pre))) (lex_from (at_ s' (pre ++ [c]) r))).
  { intros c0 k0 s' Hv. apply lx_prod; [exact I|exact Hv]. }
  assert (Htwo : forall c1 c2 k s',
           visit_root (cu pre (c1 :: c2 :: r)) = tr_step (SSymbol c1 (position_of pre)) ->
           visit_symbol c1 (position_of pre) (cu (pre ++ [c1]) (c2 :: r)) =
             tr_produce s' (mktoken k (position_of pre)) ->
           lex_from (at_ SRoot pre ([c1; c2] ++ r)) =
           lex_cons (OkTok (mktoken k (position_of pre))) (lex_from (at_ s' (pre ++ [c1; c2]) r))).
  { intros c1 c2 k0 s' Hv1 Hv2. cbn [app].
    rewrite (lx_fwd _ _ _ _ (SSymbol c1 (position_of pre))) by (exact I || exact Hv1).
    rewrite (lx_prod _ _ _ _ s' (mktoken k0 (position_of pre))) by (exact I || exact Hv2).
    now rewrite <- app_assoc. }
  assert (Hhalf : forall c k s',
           visit_root (cu pre (c :: r)) = tr_step (SSymbol c (position_of pre)) ->
           visit_symbol c (position_of pre) (cu (pre ++ [c]) r) =
             tr_resume_produce s' (mktoken k (position_of pre)) ->
           lex_from (at_ SRoot pre ([c] ++ r)) =
           lex_cons (OkTok (mktoken k (position_of pre))) (lex_from (at_ s' (pre ++ [c]) r))).
  { intros c0 k0 s' Hv1 Hv2. cbn [app].
    rewrite (lx_fwd _ _ _ _ (SSymbol c0 (position_of pre))) by (exact I || exact Hv1).
    apply lx_res_prod; [exact I|exact Hv2]. }
  repeat (destruct H as [H|H];
    [injection H as <- <-; cbn [next_mode mode_state];
     (apply Hone; reflexivity) || (apply Htwo; reflexivity) ||
     (apply Hhalf; [reflexivity|];
      destruct r as [|c r]; [reflexivity|];
      cbn [may_follow] in Hr; cbn -[byte_eqb]; rewrite (neq_eqb _ _ Hr); reflexivity)|]).
  contradiction.
Qed.

(** ** Reserved words and identifiers *)
Lemma bytes_eqb_eq a : forall b, bytes_eqb a b = true <-> a = b.
Proof.
  induction a as [|x a IH]; intros [|y b]; cbn; split; intros H; try congruence.
  - apply andb_true_iff in H as [H1 H2]. apply byte_eqb_eq in H1. apply IH in H2. congruence.
  - injection H as -> ->. rewrite byte_eqb_refl. now apply IH.
Qed.

Lemma assoc_bytes_none {A} k (l : list (bytes * A)) : ~ In k (map fst l) -> assoc_bytes k l = None.
Proof.
  induction l as [|[k' a] l IH]; intros H; [reflexivity|]. cbn in *.
  destruct (bytes_eqb k k') eqn:E.
  - apply bytes_eqb_eq in E. subst. now destruct H; left.
  - apply IH. tauto.
Qed.

Lemma to_token_ident w : is_identifier w -> to_token w = TIdentifier w.
Proof.
  intros (_ & _ & H). unfold to_token. change keyword_table with reserved.
  now rewrite assoc_bytes_none.
Qed.

Lemma to_token_reserved w k : In (w, k) reserved -> to_token w = k.
Proof.
  intros H. cbn in H.
  repeat (destruct H as [H|H]; [injection H as <- <-; reflexivity|]). contradiction.
Qed.

Lemma reserved_word w k : In (w, k) reserved ->
  exists c w', w = c :: w' /\ letter c = true /\ Forall (fun c => word_byte c = true) w.
Proof.
  intros H. cbn in H.
  repeat (destruct H as [H|H]; [injection H as <- <-; repeat eexists; repeat constructor|]).
  contradiction.
Qed.

Lemma reserved_follow w k r : In (w, k) reserved -> may_follow k r -> ~ starts_with word_byte r.
Proof.
  intros H Hr. destruct r as [|c r]; cbn [starts_with]; [tauto|].
  assert (word_byte c = false); [|congruence].
  cbn in H. repeat (destruct H as [H|H]; [injection H as <- <-; exact Hr|]). contradiction.
Qed.

Lemma reserved_mode w k : In (w, k) reserved -> next_mode k = InRoot.
Proof.
  intros H. cbn in H.
  repeat (destruct H as [H|H]; [injection H as <- <-; reflexivity|]). contradiction.
Qed.

Lemma lex_token pre w k r :
  token_text w k -> may_follow k r ->
  lex_from (at_ SRoot pre (w ++ r)) =
  lex_cons (OkTok (mktoken k (position_of pre)))
           (lex_from (at_ (mode_state (next_mode k)) (pre ++ w) r)).
Proof.
  intros H Hr. destruct H as [w k H|w H|w H Hv|w H|w s H|w c H|w k H].
  - destruct (reserved_word w k H) as (c & w' & -> & Hc & Hw).
    cbn [app]. rewrite lex_word by (eauto using reserved_follow).
    rewrite (to_token_reserved _ _ H), (reserved_mode _ _ H). reflexivity.
  - pose proof H as (Hl & Hw & _). destruct Hl as (c & w' & -> & Hc).
    cbn [app]. rewrite lex_word; [|assumption|assumption|].
    + rewrite (to_token_ident _ H). reflexivity.
    + destruct r; cbn in *; congruence.
  - apply lex_int; assumption.
  - apply lex_float; assumption.
  - cbn [app]. rewrite <- app_assoc. apply lex_string. assumption.
  - cbn [app]. rewrite <- app_assoc. apply lex_byte. assumption.
  - now apply lex_symbol.
Qed.

(** ** Arguments *)
Lemma lx_rb s pre c r s' pre' r' :
  winv (at_ s pre (c :: r)) -> visit s (cu pre (c :: r)) = tr_rollback (cu pre' r') s' ->
  lex_from (at_ s pre (c :: r)) = lex_from (at_ s' pre' r').
Proof.
  intros Hw H. rewrite lex_from_eq by assumption. unfold lex_round, at_.
  cbn [au_state au_cursor]. rewrite H. reflexivity.
Qed.

(** Byte classes. *)
Lemma in_unquoted_escapes e c : In (e, c) unquoted_escapes -> arg_validate_escape e = Some c.
Proof.
  intros H. cbn in H. repeat (destruct H as [H|H]; [injection H as <- <-; reflexivity|]). contradiction.
Qed.
Lemma in_single_escapes e c : In (e, c) single_quoted_escapes -> sq_validate_escape e = Some c.
Proof.
  intros H. cbn in H. repeat (destruct H as [H|H]; [injection H as <- <-; reflexivity|]). contradiction.
Qed.
Lemma in_double_escapes e c : In (e, c) double_quoted_escapes -> dq_validate_escape e = Some c.
Proof.
  intros H. cbn in H. repeat (destruct H as [H|H]; [injection H as <- <-; reflexivity|]). contradiction.
Qed.

Lemma run_byte_facts c : run_byte c = true ->
  arg_is_word c = true /\ byte_eqb c "$" = false /\ byte_eqb c "'" = false /\
  byte_eqb c x22 = false /\ byte_eqb c "=" = false /\
  (is_expansion_start c = true -> c = "~").
Proof.
  assert (G : implb (run_byte c)
    (arg_is_word c && negb (byte_eqb c "$") && negb (byte_eqb c "'") && negb (byte_eqb c x22) &&
     negb (byte_eqb c "=") && implb (is_expansion_start c) (byte_eqb c "~")) = true)
    by (destruct c; vm_compute; reflexivity).
  intros H. rewrite H in G. cbn [implb] in G.
  rewrite !andb_true_iff, !negb_true_iff in G.
  destruct G as (((((G1 & G2) & G3) & G4) & G5) & G6). repeat split; auto.
  intros E. rewrite E in G6. now apply byte_eqb_eq in G6.
Qed.

Lemma lex_unquoted_escape e c v a ctx pre r :
  In (e, c) unquoted_escapes ->
  lex_from (at_ (SUnquotedWord (mkword v None a ctx)) pre (BSLASH :: e :: r)) =
  lex_from (at_ (SUnquotedWord (mkword (v ++ [c]) None a ctx)) (pre ++ [BSLASH; e]) r).
Proof.
  intros He.
  rewrite (lx_fwd _ _ _ _ (SUnquotedWord (mkword v (Some (length pre, position_of pre)) a ctx))).
  - rewrite (lx_fwd _ _ _ _ (SUnquotedWord (mkword (v ++ [c]) None a ctx))).
    + now rewrite <- app_assoc.
    + exact I.
    + cbn [visit]. unfold visit_arg_word. cbn [peek cu cur_after hd_error w_escaping w_value w_allow w_context].
      now rewrite (in_unquoted_escapes _ _ He).
  - exact I.
  - cbn [visit]. unfold visit_arg_word. cbn [peek cu cur_after hd_error w_escaping w_value w_allow w_context].
    now rewrite offset_cu.
Qed.

Lemma lex_tilde_word v ctx pre r :
  lex_from (at_ (SUnquotedWord (mkword v None true ctx)) pre ("~" :: r)) =
  lex_from (at_ (SUnquotedWord (mkword (v ++ ["~"]) None true ctx)) (pre ++ ["~"]) r).
Proof.
  set (w := mkword v None true ctx).
  rewrite (lx_res _ _ _ _ (SExpansionWord (expansion_at (cu pre ("~" :: r)) false w)))
    by (exact I || reflexivity).
  rewrite (lx_rb _ _ _ _ (SUnquotedWord (mkword v None false ctx)) pre ("~" :: r)).
  - apply lx_fwd; [exact I|reflexivity].
  - cbn. repeat split; auto.
  - reflexivity.
Qed.

Lemma lex_unquoted_run text s :
  spelling run_byte unquoted_escapes text s ->
  forall v ctx pre r,
  lex_from (at_ (SUnquotedWord (mkword v None true ctx)) pre (text ++ r)) =
  lex_from (at_ (SUnquotedWord (mkword (v ++ s) None true ctx)) (pre ++ text) r).
Proof.
  induction 1 as [|c text s Hp Hb _ IH|e c text s He _ IH]; intros v ctx pre r; cbn [app].
  - now rewrite !app_nil_r.
  - replace (lex_from (at_ (SUnquotedWord (mkword v None true ctx)) pre (c :: text ++ r)))
      with (lex_from (at_ (SUnquotedWord (mkword (v ++ [c]) None true ctx)) (pre ++ [c]) (text ++ r))).
    + rewrite IH, <- !app_assoc. reflexivity.
    + symmetry. destruct (run_byte_facts c Hp) as (H1 & _ & _ & _ & _ & H2).
      apply byte_eqb_neq in Hb. change BSLASH with "\" in Hb.
      destruct (is_expansion_start c) eqn:E.
      * rewrite (H2 eq_refl). apply lex_tilde_word.
      * apply lx_fwd; [exact I|]. cbn [visit]. unfold visit_arg_word, arg_expansion_start.
        cbn [peek cu cur_after hd_error w_escaping w_value w_allow w_context].
        now rewrite Hb, H1, E.
  - rewrite lex_unquoted_escape with (1 := He). rewrite IH, <- !app_assoc. reflexivity.
Qed.

Lemma winv_expansion_at pre r h a :
  winv (at_ (SExpansion (expansion_at (cu pre r) h a)) pre r).
Proof. cbn. auto. Qed.

Lemma winv_expansion_word_at pre r w :
  winv (at_ (SExpansionWord (expansion_at (cu pre r) false w)) pre r).
Proof. cbn. auto. Qed.

(** Reading [*] or [%] from the argument state. *)
Lemma lex_arg_glob ps h p pre c e r :
  (c = "*" /\ e = EStar) \/ (c = "%" /\ e = EPercent) ->
  lex_from (at_ (SArgument (mkargument ps h p)) pre (c :: r)) =
  lex_from (at_ (SArgument (mkargument (ps ++ [PExpansion e]) false p)) (pre ++ [c]) r).
Proof.
  intros H.
  rewrite (lx_res _ _ _ _ (SExpansion (expansion_at (cu pre (c :: r)) h (mkargument ps false p)))).
  - apply lx_fwd; [apply winv_expansion_at|].
    destruct H as [[-> ->]|[-> ->]]; reflexivity.
  - exact I.
  - destruct H as [[-> ->]|[-> ->]]; reflexivity.
Qed.

(** A finished unquoted run is pushed to the argument, whatever comes next. *)
Lemma lex_unquoted_end v ps p pre c r :
  run_byte c = false -> c <> "[" -> c <> "{" ->
  lex_from (at_ (SUnquotedWord (mkword v None true (mkargument ps false p))) pre (c :: r)) =
  lex_from (at_ (SArgument (mkargument (ps ++ [PUnquoted (AULiteral v)]) false p)) pre (c :: r)).
Proof.
  intros H1 H2 H3.
  assert (Hc : (c = "*" \/ c = "%") \/ arg_is_word c = false).
  { assert (G : implb (negb (run_byte c) && negb (byte_eqb c "[") && negb (byte_eqb c "{"))
        (byte_eqb c "*" || byte_eqb c "%" || negb (arg_is_word c)) = true)
      by (destruct c; vm_compute; reflexivity).
    apply byte_eqb_neq in H2, H3. rewrite H1, H2, H3 in G. cbn [negb andb implb] in G.
    rewrite !orb_true_iff, negb_true_iff, !byte_eqb_eq in G. tauto. }
  destruct Hc as [Hc|Hc].
  - assert (exists e, (c = "*" /\ e = EStar) \/ (c = "%" /\ e = EPercent)) as [e He]
      by (destruct Hc; eauto).
    rewrite (lex_arg_glob _ _ _ _ _ e) by assumption.
    set (w := mkword v None true (mkargument ps false p)).
    rewrite (lx_res _ _ _ _ (SExpansionWord (expansion_at (cu pre (c :: r)) false w))).
    + apply lx_fwd; [apply winv_expansion_word_at|].
      destruct He as [[-> ->]|[-> ->]]; reflexivity.
    + exact I.
    + destruct He as [[-> ->]|[-> ->]]; reflexivity.
  - apply lx_res; [exact I|]. cbn [visit]. unfold visit_arg_word.
    cbn [peek cu cur_after hd_error w_escaping w_value w_allow w_context].
    assert (byte_eqb c "\" = false) as ->.
    { apply byte_eqb_neq. intros ->. discriminate Hc. }
    rewrite Hc. reflexivity.
Qed.

Lemma lex_sq_run text s :
  spelling single_plain single_quoted_escapes text s ->
  forall v ctx pre r,
  lex_from (at_ (SSingleQuotedWord (mkword v None true ctx)) pre (text ++ r)) =
  lex_from (at_ (SSingleQuotedWord (mkword (v ++ s) None true ctx)) (pre ++ text) r).
Proof.
  induction 1 as [|c text s Hp Hb _ IH|e c text s He _ IH]; intros v ctx pre r; cbn [app].
  - now rewrite !app_nil_r.
  - rewrite (lx_fwd _ _ _ _ (SSingleQuotedWord (mkword (v ++ [c]) None true ctx))).
    + rewrite IH, <- !app_assoc. reflexivity.
    + exact I.
    + apply byte_eqb_neq in Hb. change BSLASH with "\" in Hb.
      cbn [visit]. unfold visit_arg_word.
      cbn [peek cu cur_after hd_error w_escaping w_value w_allow w_context].
      rewrite Hb. change (sq_is_word c) with (single_plain c). now rewrite Hp.
  - rewrite (lx_fwd _ _ _ _ (SSingleQuotedWord (mkword v (Some (length pre, position_of pre)) true ctx))).
    + rewrite (lx_fwd _ _ _ _ (SSingleQuotedWord (mkword (v ++ [c]) None true ctx))).
      * rewrite IH, <- !app_assoc. reflexivity.
      * exact I.
      * cbn [visit]. unfold visit_arg_word.
        cbn [peek cu cur_after hd_error w_escaping w_value w_allow w_context].
        now rewrite (in_single_escapes _ _ He).
    + exact I.
    + cbn [visit]. unfold visit_arg_word.
      cbn [peek cu cur_after hd_error w_escaping w_value w_allow w_context].
      now rewrite offset_cu.
Qed.

Lemma lex_dq_run text s :
  spelling double_plain double_quoted_escapes text s ->
  forall v ctx pre r,
  lex_from (at_ (SDoubleQuotedWord (mkword v None true ctx)) pre (text ++ r)) =
  lex_from (at_ (SDoubleQuotedWord (mkword (v ++ s) None true ctx)) (pre ++ text) r).
Proof.
  induction 1 as [|c text s Hp Hb _ IH|e c text s He _ IH]; intros v ctx pre r; cbn [app].
  - now rewrite !app_nil_r.
  - rewrite (lx_fwd _ _ _ _ (SDoubleQuotedWord (mkword (v ++ [c]) None true ctx))).
    + rewrite IH, <- !app_assoc. reflexivity.
    + exact I.
    + apply byte_eqb_neq in Hb. change BSLASH with "\" in Hb.
      cbn [visit]. unfold visit_arg_word.
      cbn [peek cu cur_after hd_error w_escaping w_value w_allow w_context].
      rewrite Hb. change (dq_is_word c) with (double_plain c). now rewrite Hp.
  - rewrite (lx_fwd _ _ _ _ (SDoubleQuotedWord (mkword v (Some (length pre, position_of pre)) true ctx))).
    + rewrite (lx_fwd _ _ _ _ (SDoubleQuotedWord (mkword (v ++ [c]) None true ctx))).
      * rewrite IH, <- !app_assoc. reflexivity.
      * exact I.
      * cbn [visit]. unfold visit_arg_word.
        cbn [peek cu cur_after hd_error w_escaping w_value w_allow w_context].
        now rewrite (in_double_escapes _ _ He).
    + exact I.
    + cbn [visit]. unfold visit_arg_word.
      cbn [peek cu cur_after hd_error w_escaping w_value w_allow w_context].
      now rewrite offset_cu.
Qed.

Lemma spelling_nonempty_plain pl es text s :
  spelling pl es text s -> text <> [] -> pl BSLASH = true ->
  exists c t, text = c :: t /\ pl c = true.
Proof. intros H Hn Hb. destruct H; [congruence|eauto|eauto]. Qed.

Lemma lex_single_quoted text s ps h p pre r :
  spelling single_plain single_quoted_escapes text s ->
  lex_from (at_ (SArgument (mkargument ps h p)) pre ("'" :: text ++ "'" :: r)) =
  lex_from (at_ (SArgument (mkargument (ps ++ [PSingleQuoted s]) false p))
                (pre ++ "'" :: text ++ ["'"]) r).
Proof.
  intros H.
  rewrite (lx_fwd _ _ _ _ (SSingleQuoted (mksq [] (mkargument ps false p)))) by (exact I || reflexivity).
  destruct text as [|c t].
  - inversion H; subst. cbn [app].
    rewrite (lx_fwd _ _ _ _ (SArgument (mkargument (ps ++ [PSingleQuoted []]) false p)))
      by (exact I || reflexivity).
    now rewrite <- app_assoc.
  - destruct (spelling_nonempty_plain _ _ _ _ H) as (c' & t' & E & Hc); [discriminate|reflexivity|].
    injection E as <- <-. cbn [app].
    rewrite (lx_res _ _ _ _ (SSingleQuotedWord (word_from (mksq [] (mkargument ps false p))))).
    + change (c :: t ++ "'" :: r) with ((c :: t) ++ "'" :: r). unfold word_from.
      rewrite (lex_sq_run _ _ H). cbn [app].
      rewrite (lx_res _ _ _ _ (SSingleQuoted (mksq s (mkargument ps false p)))) by (exact I || reflexivity).
      rewrite (lx_fwd _ _ _ _ (SArgument (mkargument (ps ++ [PSingleQuoted s]) false p)))
        by (exact I || reflexivity).
      rewrite <- !app_assoc. reflexivity.
    + exact I.
    + cbn [visit]. unfold visit_single_quoted. cbn [peek cu cur_after hd_error].
      unfold single_plain in Hc. apply negb_true_iff in Hc.
      change (Byte.eqb c "'") with (byte_eqb c "'") in Hc. now rewrite Hc.
Qed.

(** [$name] and [${name}], in both contexts. *)
Section Dollar.
  Context {C : Type} (self : dollar C -> state) (ret : C -> state) (push : C -> symbol -> pos -> C).
  Hypothesis self_visit : forall d cur, visit (self d) cur = visit_dollar self ret push d cur.
  Hypothesis self_winv : forall d pre r, winv (at_ (self d) pre r).

  Lemma lex_dollar_tail w : forall d pre r,
    d_braces d = Some false -> d_start d <> None ->
    Forall (fun c => word_byte c = true) w ->
    lex_from (at_ (self d) pre (w ++ r)) = lex_from (at_ (self d) (pre ++ w) r).
  Proof.
    induction w as [|c w IH]; intros d pre r Hb Hs H.
    - now rewrite app_nil_r.
    - inversion H as [|? ? Hc Hw]; subst. cbn [app].
      rewrite (lx_fwd _ _ _ _ (self d)).
      + rewrite IH by assumption. now rewrite <- app_assoc.
      + apply self_winv.
      + rewrite self_visit. unfold visit_dollar. cbn [peek cu cur_after hd_error].
        rewrite Hb. destruct (d_start d); [|congruence]. now rewrite word_byte_is_word, Hc.
  Qed.

  Lemma lex_dollar pre0 ctx pre w r :
    is_identifier w -> ~ starts_with word_byte r -> r <> [] ->
    lex_from (at_ (self (dollar_at (cu pre0 []) ctx)) pre (w ++ r)) =
    lex_from (at_ (ret (push ctx w (position_of pre0))) (pre ++ w) r).
  Proof.
    intros Hi Hr Hn. pose proof Hi as (Hl & Hw & _). destruct Hl as (c & w' & -> & Hc).
    inversion Hw as [|? ? _ Hw']; subst. cbn [app].
    set (d := mkdollar (Some (length pre)) (Some false) false (position_of pre0) ctx).
    rewrite (lx_fwd _ _ _ _ (self d)).
    - rewrite lex_dollar_tail by (reflexivity || discriminate || assumption).
      destruct r as [|c' r]; [congruence|].
      rewrite <- app_assoc. cbn [app].
      apply lx_res; [apply self_winv|].
      rewrite self_visit. unfold visit_dollar, d.
      cbn [d_start d_braces d_error d_pos d_context].
      rewrite slice_cu. cbn [peek cu cur_after hd_error orb].
      rewrite word_byte_is_word. cbn [starts_with] in Hr.
      destruct (word_byte c'); [now destruct Hr|].
      rewrite (to_token_ident _ Hi). reflexivity.
    - apply self_winv.
    - rewrite self_visit. unfold visit_dollar, dollar_at.
      cbn [d_start d_braces d_error d_pos d_context peek cu cur_after hd_error cur_pos].
      assert (byte_eqb c "{" = false) as ->.
      { apply byte_eqb_neq. intros ->. discriminate Hc. }
      rewrite letter_word_start, Hc. cbn [negb orb].
      change (mkcursor (rev pre) (c :: w' ++ r) (position_of pre)) with (cu pre (c :: w' ++ r)).
      now rewrite offset_cu.
  Qed.

  Lemma lex_braces_tail w : forall d pre r,
    d_braces d = Some true -> d_start d <> None -> d_error d = false ->
    Forall (fun c => word_byte c = true) w ->
    lex_from (at_ (self d) pre (w ++ r)) = lex_from (at_ (self d) (pre ++ w) r).
  Proof.
    induction w as [|c w IH]; intros d pre r Hb Hs He H.
    - now rewrite app_nil_r.
    - inversion H as [|? ? Hc Hw]; subst. cbn [app].
      rewrite (lx_fwd _ _ _ _ (self d)).
      + rewrite IH by assumption. now rewrite <- app_assoc.
      + apply self_winv.
      + rewrite self_visit. unfold visit_dollar. cbn [peek cu cur_after hd_error].
        rewrite Hb, He.
        assert (byte_eqb c "}" = false) as ->.
        { apply byte_eqb_neq. intros ->. discriminate Hc. }
        destruct d as [st br er dp ctx]; cbn in *. subst br er. rewrite word_byte_is_word, Hc.
        destruct st; [reflexivity|congruence].
  Qed.

  Lemma lex_braces pre0 ctx pre w r :
    is_identifier w ->
    lex_from (at_ (self (dollar_at (cu pre0 []) ctx)) pre ("{" :: w ++ "}" :: r)) =
    lex_from (at_ (ret (push ctx w (position_of pre0))) (pre ++ "{" :: w ++ ["}"]) r).
  Proof.
    intros Hi. pose proof Hi as (Hl & Hw & _). destruct Hl as (c & w' & -> & Hc).
    inversion Hw as [|? ? _ Hw']; subst. cbn [app].
    rewrite (lx_fwd _ _ _ _ (self (mkdollar None (Some true) false (position_of pre0) ctx))).
    2: apply self_winv. 2: rewrite self_visit; reflexivity.
    set (d := mkdollar (Some (length (pre ++ ["{"]))) (Some true) false (position_of pre0) ctx).
    rewrite (lx_fwd _ _ _ _ (self d)).
    - rewrite lex_braces_tail by (reflexivity || discriminate || assumption).
      rewrite (lx_fwd _ _ _ _ (ret (push ctx (c :: w') (position_of pre0)))).
      + rewrite <- !app_assoc. reflexivity.
      + apply self_winv.
      + rewrite self_visit. unfold visit_dollar, d.
        cbn [d_start d_braces d_error d_pos d_context].
        replace (((pre ++ ["{"]) ++ [c]) ++ w') with ((pre ++ ["{"]) ++ c :: w')
          by (rewrite <- !app_assoc; reflexivity).
        rewrite slice_cu. cbn [peek cu cur_after hd_error orb].
        rewrite (to_token_ident _ Hi). reflexivity.
    - apply self_winv.
    - rewrite self_visit. unfold visit_dollar.
      cbn [d_start d_braces d_error d_pos d_context peek cu cur_after hd_error cur_pos].
      assert (byte_eqb c "}" = false) as ->.
      { apply byte_eqb_neq. intros ->. discriminate Hc. }
      rewrite letter_word_start, Hc. cbn [negb orb].
      match goal with |- context [cur_offset ?x] => change x with (cu (pre ++ ["{"]) (c :: w' ++ "}" :: r)) end.
      now rewrite offset_cu.
  Qed.
End Dollar.

Lemma lex_dq_units pre text us :
  double_units pre text us ->
  forall acc a r,
  lex_from (at_ (SDoubleQuoted (mkdq acc a)) pre (text ++ QUOTE :: r)) =
  lex_from (at_ (SArgument (arg_push a (PDoubleQuoted (acc ++ us)))) (pre ++ text ++ [QUOTE]) r).
Proof.
  induction 1 as [pre|pre t s t' us Hn Hs Ht Hd IH|pre w t' us Hi Ht Hd IH|pre w t' us Hi Hd IH];
    intros acc a r.
  - cbn [app]. rewrite app_nil_r. apply lx_fwd; [exact I|reflexivity].
  - destruct (spelling_nonempty_plain _ _ _ _ Hs Hn) as (c & t1 & -> & Hc); [reflexivity|].
    rewrite <- app_assoc. cbn [app].
    rewrite (lx_res _ _ _ _ (SDoubleQuotedWord (word_from (mkdq acc a)))).
    + change (c :: t1 ++ t' ++ QUOTE :: r) with ((c :: t1) ++ (t' ++ QUOTE :: r)).
      unfold word_from. rewrite (lex_dq_run _ _ Hs). cbn [app].
      assert (exists c' r', t' ++ QUOTE :: r = c' :: r' /\ dq_is_word c' = false) as (c' & r' & E & Hc').
      { destruct t' as [|c' t']; cbn [app].
        - exists QUOTE, r. auto.
        - exists c', (t' ++ QUOTE :: r). split; [reflexivity|].
          cbn [starts_with] in Ht. change (dq_is_word c') with (double_run_byte c').
          destruct (double_run_byte c'); congruence. }
      rewrite E. rewrite (lx_res _ _ _ _ (SDoubleQuoted (mkdq (acc ++ [AULiteral s]) a))).
      * rewrite <- E, IH, <- !app_assoc. reflexivity.
      * exact I.
      * cbn [visit]. unfold visit_arg_word.
        cbn [peek cu cur_after hd_error w_escaping w_value w_allow w_context].
        assert (byte_eqb c' "\" = false) as ->.
        { apply byte_eqb_neq. intros ->. discriminate Hc'. }
        rewrite Hc'. reflexivity.
    + exact I.
    + cbn [visit]. unfold visit_double_quoted. cbn [peek cu cur_after hd_error].
      unfold double_plain in Hc. apply andb_true_iff in Hc as [H1 H2].
      apply negb_true_iff in H1, H2.
      change (Byte.eqb c QUOTE) with (byte_eqb c x22) in H1.
      change (Byte.eqb c "$") with (byte_eqb c "$") in H2. now rewrite H1, H2.
  - cbn [app]. rewrite <- app_assoc.
    rewrite (lx_fwd _ _ _ _ (SQuotedDollar (dollar_at (cu pre []) (mkdq acc a)))) by (exact I || reflexivity).
    rewrite (lex_dollar SQuotedDollar SDoubleQuoted dq_push_dollar);
      [|reflexivity|intros; exact I|assumption| |].
    + unfold dq_push_dollar. cbn [dq_parts dq_parent].
      replace ((pre ++ ["$"]) ++ w) with (pre ++ "$" :: w) by (rewrite <- app_assoc; reflexivity).
      rewrite IH. rewrite <- !app_assoc. cbn [app]; repeat rewrite <- app_assoc; reflexivity.
    + destruct t' as [|c t']; cbn [app starts_with] in *; [discriminate|assumption].
    + destruct t'; discriminate.
  - cbn [app].
    replace ((w ++ "}" :: t') ++ QUOTE :: r) with (w ++ "}" :: (t' ++ QUOTE :: r))
      by (rewrite <- app_assoc; reflexivity).
    rewrite (lx_fwd _ _ _ _ (SQuotedDollar (dollar_at (cu pre []) (mkdq acc a)))) by (exact I || reflexivity).
    rewrite (lex_braces SQuotedDollar SDoubleQuoted dq_push_dollar);
      [|reflexivity|intros; exact I|assumption].
    unfold dq_push_dollar. cbn [dq_parts dq_parent].
    replace ((pre ++ ["$"]) ++ "{" :: w ++ ["}"]) with (pre ++ "$" :: "{" :: w ++ ["}"])
      by (rewrite <- app_assoc; reflexivity).
    rewrite IH. rewrite <- !app_assoc. cbn [app]; repeat rewrite <- app_assoc; reflexivity.
Qed.

Lemma ends_argument_facts c : ends_argument c = true ->
  byte_eqb c "$" = false /\ byte_eqb c "'" = false /\ byte_eqb c x22 = false /\
  byte_eqb c "=" = false /\ is_expansion_start c = false /\ arg_is_word c = false.
Proof.
  assert (G : implb (ends_argument c)
    (negb (byte_eqb c "$") && negb (byte_eqb c "'") && negb (byte_eqb c x22) &&
     negb (byte_eqb c "=") && negb (is_expansion_start c) && negb (arg_is_word c)) = true)
    by (destruct c; vm_compute; reflexivity).
  intros H. rewrite H in G. cbn [implb] in G.
  rewrite !andb_true_iff, !negb_true_iff in G. tauto.
Qed.

Lemma argument_text_head first pre t rest ps :
  argument_text first pre t rest ps -> first = false ->
  exists c r, t ++ rest = c :: r /\ c <> "[" /\ c <> "{".
Proof.
  assert (R : forall t s t' (rest : bytes), t <> [] -> spelling run_byte unquoted_escapes t s ->
     exists c r, (t ++ t') ++ rest = c :: r /\ c <> "[" /\ c <> "{").
  { intros t0 s t' rest0 Hn Hs.
    destruct (spelling_nonempty_plain _ _ _ _ Hs Hn) as (c & t1 & -> & Hc); [reflexivity|].
    exists c, ((t1 ++ t') ++ rest0). split; [reflexivity|].
    split; intros ->; discriminate Hc. }
  intros H Hf. destruct H as [f pre' rest H| | | | | | | | |]; cbn [app]; try subst first; try discriminate;
    try (do 2 eexists; split; [reflexivity|split; discriminate]).
  - destruct rest as [|c r]; [contradiction|]. exists c, r.
    cbn [starts_with] in H. repeat split; intros ->; discriminate H.
  - eapply R; eassumption.
Qed.

Lemma lex_argument_text first pre text rest parts :
  argument_text first pre text rest parts ->
  forall acc p,
  lex_from (at_ (SArgument (mkargument acc first p)) pre (text ++ rest)) =
  lex_cons (OkTok (mktoken (TArgument (acc ++ parts)) p))
           (lex_from (at_ SCommand (pre ++ text) rest)).
Proof.
  induction 1 as [first pre rest Hr
    |first pre t s t' rest ps Hn Hs Hf Ht H IH
    |first pre t s t' rest ps Hs H IH
    |first pre t us t' rest ps Hu H IH
    |first pre w t' rest ps Hi Ht H IH
    |first pre w t' rest ps Hi H IH
    |first pre t' rest ps H IH
    |first pre t' rest ps H IH
    |pre t' rest ps H IH
    |first pre t' rest ps H IH]; intros acc p.
  - destruct rest as [|c r]; [contradiction|]. cbn [starts_with] in Hr.
    destruct (ends_argument_facts c Hr) as (H1 & H2 & H3 & H4 & H5 & H6).
    cbn [app]. rewrite !app_nil_r. apply lx_res_prod; [exact I|].
    cbn [visit]. unfold visit_argument. cbn [peek cu cur_after hd_error a_home a_parts a_pos].
    now rewrite H1, H2, H3, H4, H5, H6.
  - destruct (argument_text_head _ _ _ _ _ H eq_refl) as (c' & r' & E & Hb1 & Hb2).
    assert (Hc' : run_byte c' = false).
    { rewrite E in Ht. cbn [starts_with] in Ht. destruct (run_byte c'); congruence. }
    assert (W : lex_from (at_ (SArgument (mkargument acc first p)) pre (t ++ c' :: r')) =
                lex_from (at_ (SUnquotedWord (word_from (mkargument acc false p))) pre (t ++ c' :: r'))).
    { destruct (spelling_nonempty_plain _ _ _ _ Hs Hn) as (c & t1 & -> & Hc); [reflexivity|].
      destruct (run_byte_facts c Hc) as (H1 & H2 & H3 & H4 & H5 & H6). cbn [app].
      destruct (is_expansion_start c) eqn:Ex.
      - rewrite (H6 eq_refl) in *.
        destruct first; [exfalso; apply Hf; reflexivity|].
        rewrite (lx_res _ _ _ _ (SExpansion (expansion_at (cu pre ("~" :: t1 ++ c' :: r')) false
                                             (mkargument acc false p))))
          by (exact I || reflexivity).
        apply lx_rb; [apply winv_expansion_at|reflexivity].
      - apply lx_res; [exact I|]. cbn [visit]. unfold visit_argument.
        cbn [peek cu cur_after hd_error a_home a_parts a_pos]. now rewrite H2, H3, H4, H5, Ex, H1. }
    rewrite <- app_assoc, E, W. unfold word_from.
    rewrite (lex_unquoted_run _ _ Hs). rewrite lex_unquoted_end by assumption.
    rewrite <- E, IH. rewrite <- !app_assoc. reflexivity.
  - cbn [app]. rewrite <- app_assoc. cbn [app].
    rewrite (lex_single_quoted _ s) by assumption.
    rewrite IH. rewrite <- !app_assoc. cbn [app]; repeat rewrite <- app_assoc; reflexivity.
  - cbn [app]. rewrite <- app_assoc. cbn [app].
    rewrite (lx_fwd _ _ _ _ (SDoubleQuoted (mkdq [] (mkargument acc false p)))) by (exact I || reflexivity).
    rewrite (lex_dq_units _ _ _ Hu). cbn [app]. unfold arg_push. cbn [a_parts a_home a_pos].
    replace ((pre ++ [QUOTE]) ++ t ++ [QUOTE]) with (pre ++ QUOTE :: t ++ [QUOTE])
      by (rewrite <- app_assoc; reflexivity).
    rewrite IH. rewrite <- !app_assoc. cbn [app]; repeat rewrite <- app_assoc; reflexivity.
  - cbn [app]. rewrite <- app_assoc.
    destruct (argument_text_head _ _ _ _ _ H eq_refl) as (c' & r' & E & Hb1 & Hb2).
    rewrite (lx_fwd _ _ _ _ (SDollar (dollar_at (cu pre []) (mkargument acc false p)))) by (exact I || reflexivity).
    rewrite (lex_dollar SDollar SArgument argument_push_dollar);
      [|reflexivity|intros; exact I|assumption|assumption|congruence].
    unfold argument_push_dollar, arg_push. cbn [a_parts a_home a_pos].
    replace ((pre ++ ["$"]) ++ w) with (pre ++ "$" :: w) by (rewrite <- app_assoc; reflexivity).
    rewrite IH. rewrite <- !app_assoc. reflexivity.
  - cbn [app].
    replace ((w ++ "}" :: t') ++ rest) with (w ++ "}" :: (t' ++ rest))
      by (rewrite <- app_assoc; reflexivity).
    rewrite (lx_fwd _ _ _ _ (SDollar (dollar_at (cu pre []) (mkargument acc false p)))) by (exact I || reflexivity).
    rewrite (lex_braces SDollar SArgument argument_push_dollar);
      [|reflexivity|intros; exact I|assumption].
    unfold argument_push_dollar, arg_push. cbn [a_parts a_home a_pos].
    replace ((pre ++ ["$"]) ++ "{" :: w ++ ["}"]) with (pre ++ "$" :: "{" :: w ++ ["}"])
      by (rewrite <- app_assoc; reflexivity).
    rewrite IH. rewrite <- !app_assoc. cbn [app]; repeat rewrite <- app_assoc; reflexivity.
  - cbn [app]. rewrite (lex_arg_glob _ _ _ _ _ EStar) by auto. rewrite IH, <- !app_assoc. reflexivity.
  - cbn [app]. rewrite (lex_arg_glob _ _ _ _ _ EPercent) by auto. rewrite IH, <- !app_assoc. reflexivity.
  - cbn [app].
    set (ex := expansion_at (cu pre ("~" :: "/" :: t' ++ rest)) true (mkargument acc false p)).
    rewrite (lx_res _ _ _ _ (SExpansion ex)) by (exact I || reflexivity).
    rewrite (lx_fwd _ _ _ _ (SExpansion (mkexpansion (e_start ex) false true (e_context ex))));
      [|apply winv_expansion_at|reflexivity].
    rewrite (lx_fwd _ _ _ _ (SArgument (mkargument (acc ++ [PExpansion EHome]) false p)));
      [|cbn; split; [lia|discriminate]|reflexivity].
    replace ((pre ++ ["~"]) ++ ["/"]) with (pre ++ ["~"; "/"]) by (rewrite <- app_assoc; reflexivity).
    rewrite IH, <- !app_assoc. reflexivity.
  - cbn [app]. rewrite (lx_fwd _ _ _ _ (SArgument (mkargument (acc ++ [PEnvAssign]) false p)))
      by (exact I || reflexivity).
    rewrite IH, <- !app_assoc. reflexivity.
Qed.

Lemma argument_first pre w rest ps :
  argument_text true pre w rest ps -> w <> [] -> ~ starts_with (fun c => Byte.eqb c "|") w ->
  exists c r, w = c :: r /\ is_ascii_whitespace c = false /\ byte_eqb c "#" = false /\
    byte_eqb c "}" = false /\ command_symbol_char_from c = SCNone.
Proof.
  assert (R : forall c, run_byte c = true -> Byte.eqb c "|" = false ->
     is_ascii_whitespace c = false /\ byte_eqb c "#" = false /\
     byte_eqb c "}" = false /\ command_symbol_char_from c = SCNone).
  { intros c Hc Hp. destruct c; try discriminate Hc; try discriminate Hp; repeat split. }
  intros H Hn Hp. remember true as first eqn:Ef in H.
  destruct H; try congruence; try (do 2 eexists; split; [reflexivity|repeat split]).
  destruct (spelling_nonempty_plain _ _ _ _ H0 H) as (c & t1 & -> & Hc); [reflexivity|].
  exists c, (t1 ++ t'). split; [reflexivity|].
  assert (Hp' : Byte.eqb c "|" = false).
  { cbn [app starts_with] in Hp. destruct (Byte.eqb c "|"); congruence. }
  exact (R c Hc Hp').
Qed.

Lemma lex_command_symbol pre w k r :
  In (w, k) command_symbols -> command_may_follow k r ->
  lex_from (at_ SCommand pre (w ++ r)) =
  lex_cons (OkTok (mktoken k (position_of pre))) (lex_from (at_ SCommand (pre ++ w) r)).
Proof.
  intros H Hr. cbn in H.
  repeat (destruct H as [H|H]; [injection H as <- <-|]); try contradiction; cbn [app].
  - apply lx_prod; [exact I|reflexivity].
  - apply lx_prod; [exact I|reflexivity].
  - apply lx_prod; [exact I|reflexivity].
  - rewrite (lx_fwd _ _ _ _ (SCommandSymbol ">" (position_of pre))) by (exact I || reflexivity).
    apply lx_res_prod; [exact I|]. destruct r as [|c r]; [reflexivity|].
    cbn [command_may_follow] in Hr. cbn -[byte_eqb]. now rewrite (neq_eqb _ _ Hr).
  - rewrite (lx_fwd _ _ _ _ (SCommandSymbol ">" (position_of pre))) by (exact I || reflexivity).
    rewrite (lx_prod _ _ _ _ SCommand (mktoken (TCmdOperator (COutput true)) (position_of pre)))
      by (exact I || reflexivity).
    now rewrite <- app_assoc.
  - rewrite (lx_fwd _ _ _ _ (SCommandSymbol "<" (position_of pre))) by (exact I || reflexivity).
    apply lx_res_prod; [exact I|]. destruct r as [|c r]; [reflexivity|].
    cbn [command_may_follow] in Hr. cbn -[byte_eqb]. now rewrite (neq_eqb _ _ Hr).
  - rewrite (lx_fwd _ _ _ _ (SCommandSymbol "<" (position_of pre))) by (exact I || reflexivity).
    rewrite (lx_prod _ _ _ _ SCommand (mktoken (TCmdOperator (CInput true)) (position_of pre)))
      by (exact I || reflexivity).
    now rewrite <- app_assoc.
Qed.

Theorem lex_layout m pre src ts :
  layout m pre src ts ->
  lex_from (at_ (mode_state m) pre src) = LexDone (map OkTok ts).
Proof.
  induction 1 as [pre|m pre c t ts Hc _ IH|m pre cs t ts Hcs _ IH|pre cs Hcs
    |pre w k t ts Hw Hf _ IH|pre t ts _ IH|pre w k t ts Hw Hf _ IH|pre w ps t ts Hn Hp Ha _ IH];
    cbn [map].
  - apply lex_end.
  - now rewrite lex_blank.
  - now rewrite lex_comment.
  - now apply lex_last_comment.
  - cbn [mode_state]. rewrite (lex_token _ _ k) by assumption. now rewrite IH.
  - cbn [mode_state]. rewrite (lx_prod _ _ _ _ SRoot (mktoken TCloseCommand (position_of pre)))
      by (exact I || reflexivity).
    cbn [mode_state] in IH. now rewrite IH.
  - cbn [mode_state]. rewrite (lex_command_symbol _ _ k) by assumption.
    cbn [mode_state] in IH. now rewrite IH.
  - cbn [mode_state]. destruct (argument_first _ _ _ _ Ha Hn Hp) as (c & r & -> & H1 & H2 & H3 & H4).
    cbn [app]. rewrite (lx_res _ _ _ _ (SArgument (mkargument [] true (position_of pre)))).
    + change (c :: r ++ t) with ((c :: r) ++ t). rewrite (lex_argument_text _ _ _ _ _ Ha).
      cbn [mode_state app] in IH |- *. now rewrite IH.
    + exact I.
    + cbn [visit]. unfold visit_command. cbn [peek cu cur_after hd_error].
      rewrite H1, H2, H3, H4. reflexivity.
Qed.

Lemma all_tokens_ok ts : all_tokens (map OkTok ts) = Some ts.
Proof. induction ts as [|t ts IH]; cbn; [reflexivity|]. now rewrite IH. Qed.
