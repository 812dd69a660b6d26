(** Positions of tokens and errors for arbitrary sources; where the lexer can crash. *)
From Verif Require Import Base Lexer LexerTermProofs SpecLexer LexerProofs.
Local Open Scope byte_scope.

Definition valid_pos (src : bytes) (p : pos) : Prop :=
  exists a b, src = a ++ b /\ p = position_of a.

Definition esc_ok (src : bytes) (esc : option (nat * pos)) : Prop :=
  match esc with Some (_, ep) => valid_pos src ep | None => True end.

(** A token begun after [gap] of which [w] has been read. *)
Definition pending (base pre : bytes) (p : pos) (gap w : bytes) : Prop :=
  pre = base ++ gap ++ w /\ p = position_of (base ++ gap).

Definition arg_started (base pre : bytes) (a : argument) : Prop :=
  exists gap w, pending base pre (a_pos a) gap w /\ w <> [].

Definition double_char (c : byte) : bool :=
  match symbol_char_from c with SCDouble => true | _ => false end.
Definition command_double_char (c : byte) : bool :=
  match command_symbol_char_from c with SCDouble => true | _ => false end.

(** [e_start] of an expansion is a place of the source where a word can begin. *)
Definition exp_ok (src base pre : bytes) (start : cursor) (p : pos) : Prop :=
  exists spre srest x gap w,
    start = cu spre srest /\ src = spre ++ srest /\ pre = spre ++ x /\
    pending base spre p gap w /\ starts_with arg_is_word srest.

Definition sinv (src base : bytes) (s : state) (pre rest : bytes) : Prop :=
  match s with
  | SRoot | SComment | SCommand | SCommandComment => exists gap, pre = base ++ gap
  | SNumber st d e p =>
    exists gap w, pending base pre p gap w /\ st = length (base ++ gap) /\ w <> [] /\
      (d = None -> e = None -> all_digits w)
  | SByte _ esc p =>
    (exists gap w, pending base pre p gap ("'" :: w)) /\ esc_ok src esc
  | SString _ esc p =>
    (exists gap w, pending base pre p gap (QUOTE :: w)) /\ esc_ok src esc
  | SWord st p =>
    exists gap w, pending base pre p gap w /\ st = length (base ++ gap) /\
      (w <> [] \/ starts_with is_word rest)
  | SSymbol f p => exists gap, pending base pre p gap [f] /\ double_char f = true
  | SCommandSymbol f p => exists gap, pending base pre p gap [f] /\ command_double_char f = true
  | SArgument a =>
    exists gap w, pending base pre (a_pos a) gap w /\ (w <> [] \/ starts_with to_arg rest)
  | SExpansion e => exp_ok src base pre (e_start e) (a_pos (e_context e))
  | SExpansionWord e =>
    exp_ok src base pre (e_start e) (a_pos (w_context (e_context e))) /\
    esc_ok src (w_escaping (e_context e))
  | SUnquotedWord w =>
    (exists gap t, pending base pre (a_pos (w_context w)) gap t /\
      (t <> [] \/ starts_with arg_is_word rest)) /\ esc_ok src (w_escaping w)
  | SSingleQuoted q => arg_started base pre (sq_parent q)
  | SDoubleQuoted q => arg_started base pre (dq_parent q)
  | SSingleQuotedWord w => arg_started base pre (sq_parent (w_context w)) /\ esc_ok src (w_escaping w)
  | SDoubleQuotedWord w => arg_started base pre (dq_parent (w_context w)) /\ esc_ok src (w_escaping w)
  | SDollar d => arg_started base pre (d_context d) /\ valid_pos src (d_pos d)
  | SQuotedDollar d => arg_started base pre (dq_parent (d_context d)) /\ valid_pos src (d_pos d)
  end.

Definition ainv (src base : bytes) (a : automaton) : Prop :=
  winv a /\ exists pre rest, au_cursor a = cu pre rest /\ src = pre ++ rest /\
    sinv src base (au_state a) pre rest.

(** What a round may do with respect to [base], the text up to the last token. *)
Definition round_ok (src base : bytes) (r : round) : Prop :=
  match r with
  | RContinue a' => ainv src base a'
  | ROutput (OkTok t) a' =>
    exists gap text rest, src = base ++ gap ++ text ++ rest /\ text <> [] /\
      written_as (tk_kind t) text /\ tk_pos t = position_of (base ++ gap) /\
      ainv src (base ++ gap ++ text) a'
  | ROutput (ErrTok e) a' => valid_pos src (le_pos e) /\ ainv src base a'
  | REnd a' => True
  | RCrash => True
  end.

Lemma to_token_cases w : to_token w = TIdentifier w \/ In (w, to_token w) reserved.
Proof.
  unfold to_token. destruct (assoc_bytes w keyword_table) as [k|] eqn:E; [right|now left].
  change keyword_table with reserved in E. revert E. generalize reserved as l.
  induction l as [|[k' a] l IH]; cbn; [discriminate|].
  destruct (bytes_eqb w k') eqn:Eb.
  - apply bytes_eqb_eq in Eb. subst. intros [= ->]. now left.
  - intros E. right. now apply IH.
Qed.

Lemma reserved_written w : written_as (to_token w) w.
Proof.
  destruct (to_token_cases w) as [E|H]; [rewrite E; reflexivity|].
  revert H. generalize (to_token w) as k. intros k H.
  assert (G : In (w, k) fixed_texts) by (unfold fixed_texts; apply in_or_app; now left).
  cbn in H. repeat (destruct H as [H|H]; [injection H as <- <-; exact G|]). contradiction.
Qed.

Ltac breakv H :=
  match type of H with
  | context [match ?x with _ => _ end] =>
    match x with
    | context [match _ with _ => _ end] => fail 1
    | _ => destruct x eqn:?
    end
  end.

Ltac visited Hv s cur :=
  let v := eval cbn [visit] in (visit s cur) in assert (Hv : visit s cur = v) by reflexivity.

(** The rounds, in a shape that keeps apart the move of the cursor and the new state. *)
Definition vok (src base : bytes) (s : state) (pre rest : bytes) : Prop :=
  match visit s (cu pre rest) with
  | Crash => True
  | Go t =>
    exists pre' rest', src = pre' ++ rest' /\
      (apply_step (t_step t) (cu pre rest) = cu pre' rest') /\
      match t_out t with
      | None => (rest <> [] -> sinv src base (t_state t) pre' rest')
      | Some (OkTok tk) =>
        exists gap text more, pre' = base ++ gap ++ text ++ more /\ text <> [] /\
          written_as (tk_kind tk) text /\ tk_pos tk = position_of (base ++ gap) /\
          sinv src (base ++ gap ++ text) (t_state t) pre' rest'
      | Some (ErrTok e) => valid_pos src (le_pos e) /\ sinv src base (t_state t) pre' rest'
      end
  end.

Lemma vok_round src base s pre rest :
  winv (at_ s pre rest) -> src = pre ++ rest ->
  vok src base s pre rest -> round_ok src base (lex_round (at_ s pre rest)).
Proof.
  intros Hw Hsrc H. pose proof (round_decreases (at_ s pre rest)) as D.
  unfold lex_round in *. unfold vok in H. cbn [au_state au_cursor at_] in *.
  destruct (visit s (cu pre rest)) as [t|]; [|exact I].
  destruct H as (pre' & rest' & H1 & H2 & H3).
  destruct (t_out t) as [o|] eqn:Eo.
  - destruct o as [tk|e]; cbn [round_ok].
    + destruct H3 as (gap & text & more & G1 & G2 & G3 & G4 & G5).
      exists gap, text, (more ++ rest'). subst pre'. repeat split; auto.
      * rewrite H1, <- !app_assoc. reflexivity.
      * apply D; [assumption|]. right. eauto.
      * cbn [au_cursor]. rewrite H2. eauto.
    + destruct H3 as [G1 G2]. split; [assumption|]. split.
      * apply D; [assumption|]. right. eauto.
      * cbn [au_cursor]. rewrite H2. eauto.
  - destruct rest as [|c rest]; cbn [is_eof cu cur_after].
    + exact I.
    + cbn [round_ok]. split.
      * apply D; [assumption|]. left. reflexivity.
      * cbn [au_cursor au_state]. rewrite H2. exists pre', rest'. repeat split; auto.
        apply H3. discriminate.
Qed.

Lemma vok_fwd src base s s' pre c rest :
  src = pre ++ c :: rest -> visit s (cu pre (c :: rest)) = tr_step s' ->
  sinv src base s' (pre ++ [c]) rest -> vok src base s pre (c :: rest).
Proof.
  intros Hs Hv H. unfold vok. rewrite Hv. cbn [tr_step t_step t_out t_state apply_step].
  exists (pre ++ [c]), rest. rewrite cu_step. repeat split; auto. now rewrite <- app_assoc.
Qed.

Lemma vok_res src base s s' pre rest :
  src = pre ++ rest -> visit s (cu pre rest) = tr_resume s' ->
  (rest <> [] -> sinv src base s' pre rest) -> vok src base s pre rest.
Proof.
  intros Hs Hv H. unfold vok. rewrite Hv. cbn [tr_resume t_step t_out t_state apply_step].
  exists pre, rest. auto.
Qed.

Lemma vok_rb src base s s' pre rest pre' rest' :
  src = pre' ++ rest' -> visit s (cu pre rest) = tr_rollback (cu pre' rest') s' ->
  sinv src base s' pre' rest' -> vok src base s pre rest.
Proof.
  intros Hs Hv H. unfold vok. rewrite Hv. cbn [tr_rollback t_step t_out t_state apply_step].
  exists pre', rest'. auto.
Qed.

Lemma vok_prod src base s s' pre c rest t gap text :
  src = pre ++ c :: rest -> visit s (cu pre (c :: rest)) = tr_produce s' t ->
  pre ++ [c] = base ++ gap ++ text -> text <> [] -> written_as (tk_kind t) text ->
  tk_pos t = position_of (base ++ gap) ->
  sinv src (base ++ gap ++ text) s' (pre ++ [c]) rest -> vok src base s pre (c :: rest).
Proof.
  intros Hs Hv H1 H2 H3 H4 H5. unfold vok. rewrite Hv.
  cbn [tr_produce t_step t_out t_state apply_step].
  exists (pre ++ [c]), rest. rewrite cu_step. split; [now rewrite <- app_assoc|].
  split; [reflexivity|]. exists gap, text, []. rewrite app_nil_r. auto.
Qed.

Lemma vok_res_prod src base s s' pre rest t gap text :
  src = pre ++ rest -> visit s (cu pre rest) = tr_resume_produce s' t ->
  pre = base ++ gap ++ text -> text <> [] -> written_as (tk_kind t) text ->
  tk_pos t = position_of (base ++ gap) ->
  sinv src (base ++ gap ++ text) s' pre rest -> vok src base s pre rest.
Proof.
  intros Hs Hv H1 H2 H3 H4 H5. unfold vok. rewrite Hv.
  cbn [tr_resume_produce t_step t_out t_state apply_step].
  exists pre, rest. split; [assumption|].
  split; [reflexivity|]. exists gap, text, []. rewrite app_nil_r. auto.
Qed.

Lemma vok_err src base s s' pre rest e :
  src = pre ++ rest -> visit s (cu pre rest) = tr_error s' e ->
  valid_pos src (le_pos e) ->
  (forall x y, rest = x ++ y -> length x <= 1 -> (rest = [] -> x = []) ->
     sinv src base s' (pre ++ x) y) ->
  vok src base s pre rest.
Proof.
  intros Hs Hv He H. unfold vok. rewrite Hv. cbn [tr_error t_step t_out t_state apply_step].
  destruct rest as [|c rest].
  - exists pre, []. split; [assumption|]. split; [reflexivity|]. split; [assumption|].
    specialize (H [] [] eq_refl (le_S _ _ (le_n 0)) (fun _ => eq_refl)). now rewrite app_nil_r in H.
  - exists (pre ++ [c]), rest. rewrite cu_step. repeat split; auto.
    + now rewrite <- app_assoc.
    + apply H; auto. discriminate.
Qed.

Lemma vok_res_err src base s s' pre rest e :
  src = pre ++ rest -> visit s (cu pre rest) = tr_resume_error s' e ->
  valid_pos src (le_pos e) -> sinv src base s' pre rest ->
  vok src base s pre rest.
Proof.
  intros Hs Hv He H. unfold vok. rewrite Hv. cbn [tr_resume_error t_step t_out t_state apply_step].
  exists pre, rest. auto.
Qed.

Lemma valid_here src pre rest : src = pre ++ rest -> valid_pos src (position_of pre).
Proof. intros ->. now exists pre, rest. Qed.

Lemma pending_valid src base pre rest p gap w :
  src = pre ++ rest -> pending base pre p gap w -> valid_pos src p.
Proof.
  intros -> [-> ->]. exists (base ++ gap), (w ++ rest). split; [|reflexivity].
  now rewrite <- !app_assoc.
Qed.

Lemma pending_snoc base pre p gap w c :
  pending base pre p gap w -> pending base (pre ++ [c]) p gap (w ++ [c]).
Proof. intros [-> ->]. split; [|reflexivity]. now rewrite <- !app_assoc. Qed.

Lemma pending_app base pre p gap w x :
  pending base pre p gap w -> pending base (pre ++ x) p gap (w ++ x).
Proof. intros [-> ->]. split; [|reflexivity]. now rewrite <- !app_assoc. Qed.

Lemma pending_root base pre p gap w x : pending base pre p gap w -> exists g, pre ++ x = base ++ g.
Proof. intros [-> _]. exists (gap ++ w ++ x). now rewrite <- !app_assoc. Qed.

Lemma started_app base pre a x : arg_started base pre a -> arg_started base (pre ++ x) a.
Proof.
  intros (gap & w & H & Hn). exists gap, (w ++ x). split; [now apply pending_app|].
  destruct w; [congruence|discriminate].
Qed.

Lemma started_parts base pre a a' : a_pos a' = a_pos a -> arg_started base pre a -> arg_started base pre a'.
Proof. intros E (gap & w & H & Hn). exists gap, w. now rewrite E. Qed.

Lemma started_argument src base pre rest a :
  arg_started base pre a -> sinv src base (SArgument a) pre rest.
Proof. intros (gap & w & H & Hn). exists gap, w. auto. Qed.

Lemma snoc_not_nil {A} (l : list A) x : l ++ [x] <> [].
Proof. destruct l; discriminate. Qed.

Lemma pending_started base pre a gap w c :
  pending base pre (a_pos a) gap w -> arg_started base (pre ++ [c]) a.
Proof.
  intros H. exists gap, (w ++ [c]). split; [now apply pending_snoc|apply snoc_not_nil].
Qed.

Lemma base_refl_root (base gap text pre : bytes) : pre = base ++ gap ++ text ->
  exists g, pre = (base ++ gap ++ text) ++ g.
Proof. intros ->. exists (@nil byte). now rewrite app_nil_r. Qed.

(** *** Root mode *)
Lemma single_written c k : symbol_char_from c = SCSingle k -> written_as k [c].
Proof.
  intros H.
  assert (G : In ([c], k) fixed_texts /\ written_as k [c] = In ([c], k) fixed_texts).
  { destruct c; try discriminate H; injection H as <-; (split; [cbn; tauto|reflexivity]). }
  destruct G as [G1 G2]. now rewrite G2.
Qed.

Lemma ok_root src base pre rest :
  src = pre ++ rest -> sinv src base SRoot pre rest -> vok src base SRoot pre rest.
Proof.
  intros Hs [gap Hp]. destruct rest as [|c r].
  - unfold vok. cbn. exists pre, []. repeat split; auto. congruence.
  - assert (Hg : exists g, pre ++ [c] = base ++ g).
    { exists (gap ++ [c]). subst pre. now rewrite <- app_assoc. }
    assert (Hpend : pending base (pre ++ [c]) (position_of pre) gap [c]).
    { subst pre. split; [now rewrite <- app_assoc|reflexivity]. }
    visited Hv SRoot (cu pre (c :: r)). unfold visit_root in Hv. cbn [peek cu cur_after hd_error cur_pos] in Hv.
    destruct (is_ascii_whitespace c). { eapply vok_fwd; eauto. }
    destruct (byte_eqb c "#"). { eapply vok_fwd; eauto. }
    destruct (byte_eqb c x22) eqn:E1.
    { apply byte_eqb_eq in E1. subst c. eapply vok_fwd; eauto. cbn. split; [|exact I]. eauto. }
    destruct (byte_eqb c "'") eqn:E2.
    { apply byte_eqb_eq in E2. subst c. eapply vok_fwd; eauto. cbn. split; [|exact I]. eauto. }
    destruct (is_ascii_digit c) eqn:E3.
    { eapply vok_fwd; eauto. cbn [sinv].
      change (mkcursor (rev pre) (c :: r) (position_of pre)) with (cu pre (c :: r)).
      rewrite offset_cu. exists gap, [c]. split; [assumption|].
      split; [now subst pre|]. split; [discriminate|]. intros _ _. split; [discriminate|].
      constructor; [|constructor]. now rewrite <- digit_is_digit. }
    destruct (is_word_start c) eqn:E4.
    { eapply vok_res; eauto. intros _. cbn [sinv].
      change (mkcursor (rev pre) (c :: r) (position_of pre)) with (cu pre (c :: r)).
      rewrite offset_cu. exists gap, []. repeat split; try (now subst pre).
      - subst pre. now rewrite app_nil_r.
      - right. cbn [starts_with]. unfold is_word, is_word_start, is_ascii_alphanumeric in *.
        destruct (is_ascii_alphabetic c), (byte_eqb c "_"); try discriminate; auto using orb_true_r. }
    destruct (symbol_char_from c) eqn:E5.
    + eapply vok_err; eauto.
      * cbn. eapply valid_here; eauto.
      * intros x y _ _ _. exists (gap ++ x). subst pre. now rewrite <- app_assoc.
    + assert (Hk : exists s', visit SRoot (cu pre (c :: r)) = tr_produce s' (mktoken k (position_of pre)) /\
                    (s' = SRoot \/ s' = SCommand)).
      { destruct k; eauto. }
      destruct Hk as (s' & Hk & Hs').
      eapply (vok_prod src base _ s' _ _ _ _ gap [c]); eauto.
      * now subst pre; rewrite <- app_assoc.
      * discriminate.
      * now apply single_written.
      * now subst pre.
      * assert (exists g, pre ++ [c] = (base ++ gap ++ [c]) ++ g).
        { exists (@nil byte). subst pre. rewrite app_nil_r, <- app_assoc. reflexivity. }
        destruct Hs'; subst s'; assumption.
    + eapply vok_fwd; eauto. cbn [sinv]. exists gap. split; [assumption|].
      unfold double_char. now rewrite E5.
Qed.

Lemma ok_comment m src base pre rest :
  src = pre ++ rest -> (exists gap, pre = base ++ gap) ->
  vok src base (comment_state m) pre rest.
Proof.
  intros Hs [gap Hp]. destruct rest as [|c r].
  - unfold vok. rewrite comment_visit. cbn. exists pre, []. repeat split; auto. congruence.
  - destruct (byte_eqb c NL) eqn:E.
    + apply byte_eqb_eq in E. subst c. eapply vok_res; eauto.
      * rewrite comment_visit. reflexivity.
      * intros _. destruct m; exists gap; assumption.
    + apply byte_eqb_neq in E. eapply vok_fwd; eauto.
      * rewrite comment_visit. now apply visit_comment_other.
      * assert (exists g, pre ++ [c] = base ++ g).
        { exists (gap ++ [c]). subst pre. now rewrite <- app_assoc. }
        destruct m; assumption.
Qed.

Lemma ok_number src base st d e p pre rest :
  src = pre ++ rest -> sinv src base (SNumber st d e p) pre rest ->
  vok src base (SNumber st d e p) pre rest.
Proof.
  intros Hs (gap & w & Hpe & Hst & Hw & Hd).
  pose proof (pending_valid _ _ _ _ _ _ _ Hs Hpe) as Hval.
  assert (Hfin : visit (SNumber st d e p) (cu pre rest) =
    match d, e with
    | Some false, _ | _, Some false =>
      match peek (cu pre rest) with
      | Some v => tr_error SRoot (mkerror (Unexpected v) p)
      | None => tr_error SRoot (mkerror UnexpectedEof p)
      end
    | _, _ =>
      match number_parse st d e p (cu pre rest) with
      | inl t => tr_resume_produce SRoot t
      | inr e => tr_error SRoot e
      end
    end -> vok src base (SNumber st d e p) pre rest).
  { intros Hv.
    assert (Herr : forall er, le_pos er = p ->
      visit (SNumber st d e p) (cu pre rest) = tr_error SRoot er ->
      vok src base (SNumber st d e p) pre rest).
    { intros er Her Hv'. eapply vok_err; eauto; [now rewrite Her|].
      intros x y _ _ _. eapply pending_root; eauto. }
    destruct Hpe as [Hpre Hpos].
    assert (Hsl : slice_to (cu pre rest) st = w).
    { rewrite Hpre, app_assoc, Hst. apply slice_cu. }
    assert (Hok : forall t, visit (SNumber st d e p) (cu pre rest) = tr_resume_produce SRoot t ->
      written_as (tk_kind t) w -> tk_pos t = p -> vok src base (SNumber st d e p) pre rest).
    { intros t Hv' Hwr Htp. eapply (vok_res_prod src base _ SRoot _ _ t gap w); eauto.
      - congruence.
      - now apply base_refl_root. }
    unfold number_parse in Hv. rewrite Hsl in Hv.
    destruct d as [[]|], e as [[]|];
      try (destruct (peek (cu pre rest)); (eapply Herr; [|exact Hv]; reflexivity));
      try (eapply Hok; [exact Hv|reflexivity|reflexivity]).
    destruct (in_i64 (digits_val w)) eqn:Ei.
    - eapply Hok; [exact Hv| |reflexivity]. cbn. split; [now apply Hd|]. split.
      + symmetry. apply digits_val_decimal.
      + unfold in_i64, i64_max in Ei. apply andb_true_iff in Ei. destruct Ei as [_ Ei]. now apply Z.leb_le.
    - eapply Herr; [|exact Hv]. reflexivity. }
  destruct rest as [|c r].
  - apply Hfin. cbn [visit]. unfold visit_number. cbn [peek cu cur_after hd_error].
    destruct d as [[]|], e as [[]|]; reflexivity.
  - assert (Hstep : forall d' e', visit (SNumber st d e p) (cu pre (c :: r)) = tr_step (SNumber st d' e' p) ->
       (d' = None -> e' = None -> d = None /\ e = None /\ digit c = true) ->
       vok src base (SNumber st d e p) pre (c :: r)).
    { intros d' e' Hv Hde. eapply vok_fwd; eauto. exists gap, (w ++ [c]).
      split; [now apply pending_snoc|]. split; [assumption|]. split; [apply snoc_not_nil|].
      intros -> ->. destruct (Hde eq_refl eq_refl) as (H1 & H2 & H3).
      destruct (Hd H1 H2) as [_ Hf]. split; [apply snoc_not_nil|].
      apply Forall_app. auto. }
    cbn [visit] in Hfin, Hstep. unfold visit_number in Hfin, Hstep.
    cbn [peek cu cur_after hd_error] in Hfin, Hstep.
    rewrite digit_is_digit in *.
    destruct d as [db|], e as [eb|].
    + destruct (digit c) eqn:E; [|now apply Hfin].
      eapply Hstep; [reflexivity|]. destruct db; discriminate.
    + destruct (byte_eqb c "e" || byte_eqb c "E"); [eapply Hstep; [reflexivity|discriminate]|].
      destruct (digit c) eqn:E; [|now apply Hfin].
      eapply Hstep; [reflexivity|]. destruct db; discriminate.
    + destruct (digit c) eqn:E; [|now apply Hfin].
      eapply Hstep; [reflexivity|]. destruct eb; discriminate.
    + destruct (byte_eqb c "."); [eapply Hstep; [reflexivity|discriminate]|].
      destruct (byte_eqb c "e" || byte_eqb c "E"); [eapply Hstep; [reflexivity|discriminate]|].
      destruct (digit c) eqn:E; [|now apply Hfin].
      eapply Hstep; [reflexivity|auto].
Qed.

Lemma ok_byte src base v esc p pre rest :
  src = pre ++ rest -> sinv src base (SByte v esc p) pre rest ->
  vok src base (SByte v esc p) pre rest.
Proof.
  intros Hs [(gap & w & Hpe) Hesc].
  pose proof (valid_here _ _ _ Hs) as Hhere.
  pose proof (pending_valid _ _ _ _ _ _ _ Hs Hpe) as Hval.
  visited Hv (SByte v esc p) (cu pre rest). unfold visit_byte in Hv.
  assert (Herr : forall er, valid_pos src (le_pos er) ->
      visit (SByte v esc p) (cu pre rest) = tr_error SRoot er ->
      vok src base (SByte v esc p) pre rest).
  { intros er Her Hv'. eapply vok_err; eauto. intros x y _ _ _. eapply pending_root; eauto. }
  assert (Herr2 : forall er v' esc', valid_pos src (le_pos er) -> esc_ok src esc' ->
      visit (SByte v esc p) (cu pre rest) = tr_error (SByte v' esc' p) er ->
      vok src base (SByte v esc p) pre rest).
  { intros er v' esc' Her He Hv'. eapply vok_err; eauto. intros x y _ _ _. cbn. split; [|assumption].
    exists gap, (w ++ x). change ("'" :: w ++ x) with (("'" :: w) ++ x). now apply pending_app. }
  destruct rest as [|c r]; cbn [peek cu cur_after hd_error cur_pos] in Hv.
  - eapply Herr; [|exact Hv]. exact Hhere.
  - assert (Hfwd : forall v' esc', esc_ok src esc' ->
       visit (SByte v esc p) (cu pre (c :: r)) = tr_step (SByte v' esc' p) ->
       vok src base (SByte v esc p) pre (c :: r)).
    { intros v' esc' He Hv'. eapply vok_fwd; eauto. cbn. split; [|assumption].
      exists gap, (w ++ [c]). change ("'" :: w ++ [c]) with (("'" :: w) ++ [c]). now apply pending_app. }
    destruct v as [v|].
    + destruct (byte_eqb c "'") eqn:E.
      * apply byte_eqb_eq in E. subst c. destruct Hpe as [Hpre Hpos].
        eapply (vok_prod src base _ SRoot _ _ _ _ gap ("'" :: w ++ ["'"])); eauto.
        -- rewrite Hpre, <- !app_assoc. reflexivity.
        -- discriminate.
        -- cbn. eauto.
        -- apply base_refl_root. rewrite Hpre, <- !app_assoc. reflexivity.
      * eapply Herr2; [| |exact Hv]; assumption.
    + destruct esc as [[off ep]|].
      * destruct (string_validate_escape c).
        -- eapply Hfwd; [|exact Hv]. exact I.
        -- eapply Herr2; [| |exact Hv]; [exact Hesc|exact I].
      * destruct (byte_eqb c "\"); [eapply Hfwd; [|exact Hv]; exact Hhere|].
        destruct (byte_eqb c "'"); [eapply Herr; [|exact Hv]; exact Hval|].
        eapply Hfwd; [|exact Hv]. exact I.
Qed.

Lemma ok_string src base v esc p pre rest :
  src = pre ++ rest -> sinv src base (SString v esc p) pre rest ->
  vok src base (SString v esc p) pre rest.
Proof.
  intros Hs [(gap & w & Hpe) Hesc].
  pose proof (valid_here _ _ _ Hs) as Hhere.
  pose proof (pending_valid _ _ _ _ _ _ _ Hs Hpe) as Hval.
  visited Hv (SString v esc p) (cu pre rest). unfold visit_string in Hv.
  destruct rest as [|c r]; cbn [peek cu cur_after hd_error cur_pos] in Hv.
  - eapply vok_err; eauto. intros x y _ _ _. eapply pending_root; eauto.
  - assert (Hfwd : forall v' esc', esc_ok src esc' ->
       visit (SString v esc p) (cu pre (c :: r)) = tr_step (SString v' esc' p) ->
       vok src base (SString v esc p) pre (c :: r)).
    { intros v' esc' He Hv'. eapply vok_fwd; eauto. cbn. split; [|assumption].
      exists gap, (w ++ [c]). change (QUOTE :: w ++ [c]) with ((QUOTE :: w) ++ [c]). now apply pending_app. }
    destruct esc as [[off ep]|].
    + destruct (string_validate_escape c).
      * eapply Hfwd; [|exact Hv]. exact I.
      * eapply vok_err; eauto. intros x y _ _ _. cbn. split; [|exact I].
        exists gap, (w ++ x). change (QUOTE :: w ++ x) with ((QUOTE :: w) ++ x). now apply pending_app.
    + destruct (byte_eqb c "\"); [eapply Hfwd; [|exact Hv]; exact Hhere|].
      destruct (byte_eqb c x22) eqn:E; [|eapply Hfwd; [|exact Hv]; exact I].
      apply byte_eqb_eq in E. subst c. destruct Hpe as [Hpre Hpos].
      eapply (vok_prod src base _ SRoot _ _ _ _ gap (QUOTE :: w ++ [QUOTE])); eauto.
      * rewrite Hpre, <- !app_assoc. reflexivity.
      * discriminate.
      * cbn. eauto.
      * apply base_refl_root. rewrite Hpre, <- !app_assoc. reflexivity.
Qed.

Lemma ok_word src base st p pre rest :
  src = pre ++ rest -> sinv src base (SWord st p) pre rest -> vok src base (SWord st p) pre rest.
Proof.
  intros Hs (gap & w & Hpe & Hst & Hw).
  assert (Hfin : visit (SWord st p) (cu pre rest) =
     tr_resume_produce SRoot (mktoken (to_token (slice_to (cu pre rest) st)) p) -> w <> [] ->
     vok src base (SWord st p) pre rest).
  { intros Hv Hn. destruct Hpe as [Hpre Hpos].
    assert (Hsl : slice_to (cu pre rest) st = w).
    { rewrite Hpre, app_assoc, Hst. apply slice_cu. }
    rewrite Hsl in Hv. eapply (vok_res_prod src base _ SRoot _ _ _ gap w); eauto.
    - cbn. apply reserved_written.
    - now apply base_refl_root. }
  destruct rest as [|c r].
  - apply Hfin; [reflexivity|]. destruct Hw as [Hw|[]]; assumption.
  - cbn [visit] in Hfin. unfold visit_word in Hfin. cbn [peek cu cur_after hd_error] in Hfin.
    destruct (is_word c) eqn:E.
    + eapply (vok_fwd _ _ _ (SWord st p)); eauto.
      * cbn [visit]. unfold visit_word. cbn [peek cu cur_after hd_error]. now rewrite E.
      * exists gap, (w ++ [c]). split; [now apply pending_snoc|]. split; [assumption|].
        left. apply snoc_not_nil.
    + apply Hfin; [reflexivity|]. destruct Hw as [Hw|Hw]; [assumption|].
      cbn [starts_with] in Hw. congruence.
Qed.

Lemma in_fixed text k : In (text, k) (symbols ++ command_symbols) -> In (text, k) fixed_texts.
Proof.
  intros H. unfold fixed_texts. apply in_or_app. right. rewrite app_assoc. apply in_or_app. now left.
Qed.

Lemma ok_symbol src base f p pre rest :
  src = pre ++ rest -> sinv src base (SSymbol f p) pre rest -> vok src base (SSymbol f p) pre rest.
Proof.
  intros Hs (gap & Hpe & Hf).
  pose proof (pending_valid _ _ _ _ _ _ _ Hs Hpe) as Hval.
  assert (Herr : visit (SSymbol f p) (cu pre rest) =
     tr_resume_error SRoot (mkerror (Unexpected f) p) -> vok src base (SSymbol f p) pre rest).
  { intros Hv. eapply vok_res_err; eauto. destruct Hpe as [-> _]. exists (gap ++ [f]).
    reflexivity. }
  assert (Hhalf : forall k, visit (SSymbol f p) (cu pre rest) = tr_resume_produce SRoot (mktoken k p) ->
     written_as k [f] -> vok src base (SSymbol f p) pre rest).
  { intros k Hv Hwr. destruct Hpe as [Hpre Hpos].
    eapply (vok_res_prod src base _ SRoot _ _ _ gap [f]); eauto; [discriminate|].
    now apply base_refl_root. }
  assert (Htwo : forall c r k s', rest = c :: r -> (s' = SRoot \/ s' = SCommand) ->
     visit (SSymbol f p) (cu pre rest) = tr_produce s' (mktoken k p) ->
     written_as k [f; c] -> vok src base (SSymbol f p) pre rest).
  { intros c r k s' -> Hs' Hv Hwr. destruct Hpe as [Hpre Hpos].
    eapply (vok_prod src base _ s' _ _ _ _ gap [f; c]); eauto.
    - rewrite Hpre, <- !app_assoc. reflexivity.
    - discriminate.
    - assert (exists g, pre ++ [c] = (base ++ gap ++ [f; c]) ++ g)
        by (apply base_refl_root; rewrite Hpre, <- !app_assoc; reflexivity).
      destruct Hs'; subst s'; assumption. }
  cbn [visit] in *. unfold visit_symbol in *.
  destruct f; try discriminate Hf; destruct rest as [|c r];
    cbn [peek cu cur_after hd_error] in Herr, Hhalf, Htwo;
    try (apply Herr; reflexivity);
    try (eapply Hhalf; [reflexivity|cbn; tauto]);
    match goal with
    | H : context [byte_eqb c ?d] |- _ =>
      destruct (byte_eqb c d) eqn:E;
        [apply byte_eqb_eq in E; subst c;
         eapply Htwo; [reflexivity| |reflexivity|cbn; tauto]; auto
        |first [apply Herr; reflexivity|eapply Hhalf; [reflexivity|cbn; tauto]]]
    end.
Qed.

Lemma ok_command_symbol src base f p pre rest :
  src = pre ++ rest -> sinv src base (SCommandSymbol f p) pre rest ->
  vok src base (SCommandSymbol f p) pre rest.
Proof.
  intros Hs (gap & Hpe & Hf).
  assert (Hhalf : forall k, visit (SCommandSymbol f p) (cu pre rest) = tr_resume_produce SCommand (mktoken k p) ->
     written_as k [f] -> vok src base (SCommandSymbol f p) pre rest).
  { intros k Hv Hwr. destruct Hpe as [Hpre Hpos].
    eapply (vok_res_prod src base _ SCommand _ _ _ gap [f]); eauto; [discriminate|].
    now apply base_refl_root. }
  assert (Htwo : forall c r k, rest = c :: r ->
     visit (SCommandSymbol f p) (cu pre rest) = tr_produce SCommand (mktoken k p) ->
     written_as k [f; c] -> vok src base (SCommandSymbol f p) pre rest).
  { intros c r k -> Hv Hwr. destruct Hpe as [Hpre Hpos].
    eapply (vok_prod src base _ SCommand _ _ _ _ gap [f; c]); eauto.
    - rewrite Hpre, <- !app_assoc. reflexivity.
    - discriminate.
    - apply base_refl_root; rewrite Hpre, <- !app_assoc; reflexivity. }
  cbn [visit] in *. unfold visit_command_symbol in *.
  destruct f; try discriminate Hf; destruct rest as [|c r];
    cbn [peek cu cur_after hd_error] in Hhalf, Htwo;
    try (eapply Hhalf; [reflexivity|cbn; tauto]);
    match goal with
    | H : context [byte_eqb c ?d] |- _ =>
      destruct (byte_eqb c d) eqn:E;
        [apply byte_eqb_eq in E; subst c;
         eapply Htwo; [reflexivity|reflexivity|cbn; tauto]
        |eapply Hhalf; [reflexivity|cbn; tauto]]
    end.
Qed.

(** *** Command mode *)
Lemma command_single_written c k : command_symbol_char_from c = SCSingle k -> written_as k [c].
Proof.
  intros H.
  assert (G : In ([c], k) fixed_texts /\ written_as k [c] = In ([c], k) fixed_texts).
  { destruct c; try discriminate H; injection H as <-; (split; [cbn; tauto|reflexivity]). }
  destruct G as [G1 G2]. now rewrite G2.
Qed.

Lemma ok_command src base pre rest :
  src = pre ++ rest -> sinv src base SCommand pre rest -> vok src base SCommand pre rest.
Proof.
  intros Hs [gap Hp].
  visited Hv SCommand (cu pre rest). unfold visit_command in Hv.
  destruct rest as [|c r]; cbn [peek cu cur_after hd_error cur_pos] in Hv.
  - eapply vok_err; eauto; [eapply valid_here; eauto|].
    intros x y _ _ _. exists (gap ++ x). subst pre. now rewrite <- app_assoc.
  - assert (Hg : exists g, pre ++ [c] = base ++ g).
    { exists (gap ++ [c]). subst pre. now rewrite <- app_assoc. }
    assert (Hpend : pending base (pre ++ [c]) (position_of pre) gap [c]).
    { subst pre. split; [now rewrite <- app_assoc|reflexivity]. }
    assert (Hprod : forall k s', visit SCommand (cu pre (c :: r)) = tr_produce s' (mktoken k (position_of pre)) ->
      (s' = SRoot \/ s' = SCommand) -> written_as k [c] -> vok src base SCommand pre (c :: r)).
    { intros k s' Hv' Hs' Hwr.
      eapply (vok_prod src base _ s' _ _ _ _ gap [c]); eauto.
      - now subst pre; rewrite <- app_assoc.
      - discriminate.
      - now subst pre.
      - assert (exists g, pre ++ [c] = (base ++ gap ++ [c]) ++ g).
        { exists (@nil byte). subst pre. rewrite app_nil_r, <- app_assoc. reflexivity. }
        destruct Hs'; subst s'; assumption. }
    destruct (is_ascii_whitespace c) eqn:E1; [eapply vok_fwd; eauto|].
    destruct (byte_eqb c "#") eqn:E2; [eapply vok_fwd; eauto|].
    destruct (byte_eqb c "}") eqn:E3.
    { apply byte_eqb_eq in E3. subst c. eapply Hprod; [exact Hv|auto|cbn; tauto]. }
    destruct (command_symbol_char_from c) eqn:E4.
    + eapply vok_res; eauto. intros _. cbn [sinv argument_at a_pos cur_pos].
      exists gap, []. split.
      * subst pre. split; [now rewrite app_nil_r|reflexivity].
      * right. cbn [starts_with]. unfold to_arg. rewrite E1, E2, E3, E4. reflexivity.
    + eapply Hprod; [exact Hv|auto|now apply command_single_written].
    + eapply vok_fwd; eauto. cbn [sinv]. exists gap. split; [assumption|].
      unfold command_double_char. now rewrite E4.
Qed.

Lemma ok_argument src base a pre rest :
  src = pre ++ rest -> sinv src base (SArgument a) pre rest -> vok src base (SArgument a) pre rest.
Proof.
  intros Hs (gap & w & Hpe & Hw).
  pose proof (valid_here _ _ _ Hs) as Hhere.
  visited Hv (SArgument a) (cu pre rest). unfold visit_argument in Hv. cbn [a_home a_parts a_pos] in Hv.
  assert (Hfin : visit (SArgument a) (cu pre rest) =
      tr_resume_produce SCommand (mktoken (TArgument (a_parts a)) (a_pos a)) -> w <> [] ->
      vok src base (SArgument a) pre rest).
  { intros Hv' Hn. destruct Hpe as [Hpre Hpos].
    eapply (vok_res_prod src base _ SCommand _ _ _ gap w); eauto.
    - exact I.
    - now apply base_refl_root. }
  destruct rest as [|c r]; cbn [peek cu cur_after hd_error cur_pos] in Hv.
  - apply Hfin; [exact Hv|]. destruct Hw as [Hw|[]]; assumption.
  - set (a0 := mkargument (a_parts a) false (a_pos a)) in *.
    assert (Hst : forall a', a_pos a' = a_pos a -> arg_started base (pre ++ [c]) a').
    { intros a' E. eapply pending_started. rewrite E. eassumption. }
    destruct (byte_eqb c "$") eqn:E1.
    { eapply vok_fwd; eauto. cbn. split; [now apply Hst|exact Hhere]. }
    destruct (byte_eqb c "'") eqn:E2. { eapply vok_fwd; eauto. cbn. now apply Hst. }
    destruct (byte_eqb c x22) eqn:E3. { eapply vok_fwd; eauto. cbn. now apply Hst. }
    destruct (byte_eqb c "=") eqn:E4.
    { eapply vok_fwd; eauto. apply started_argument. now apply Hst. }
    destruct (is_expansion_start c) eqn:E5.
    { eapply vok_res; eauto. intros _. cbn [sinv expansion_at e_start e_context a0 a_pos].
      exists pre, (c :: r), [], gap, w.
      rewrite app_nil_r. repeat split; auto; try apply Hpe. cbn. now apply exp_start_word. }
    destruct (arg_is_word c) eqn:E6.
    { eapply vok_res; eauto. intros _. cbn. split; [|exact I]. exists gap, w. auto. }
    apply Hfin; [exact Hv|]. destruct Hw as [Hw|Hw]; [assumption|]. exfalso.
    cbn [starts_with] in Hw. rewrite ends_arg_not_to_arg in Hw; [discriminate|].
    unfold ends_arg. now rewrite E1, E2, E3, E4, E6.
Qed.

Lemma ok_expansion src base e pre rest :
  src = pre ++ rest -> sinv src base (SExpansion e) pre rest -> vok src base (SExpansion e) pre rest.
Proof.
  intros Hs H. pose proof H as (spre & srest & x & gap & w & H1 & H2 & H3 & H4 & H5).
  visited Hv (SExpansion e) (cu pre rest). unfold visit_expansion in Hv.
  cbn [e_start e_tilde e_context] in Hv.
  assert (Hrb : visit (SExpansion e) (cu pre rest) = argument_expansion_rollback (e_context e) (e_start e) ->
    vok src base (SExpansion e) pre rest).
  { intros Hv'. unfold argument_expansion_rollback in Hv'. rewrite H1 in Hv'.
    eapply vok_rb; eauto. cbn. split; [|exact I]. exists gap, w. auto. }
  destruct rest as [|c r]; cbn [peek cu cur_after hd_error] in Hv; [now apply Hrb|].
  assert (Hpr : forall ex, visit (SExpansion e) (cu pre (c :: r)) = argument_expansion_produce (e_context e) ex ->
    vok src base (SExpansion e) pre (c :: r)).
  { intros ex Hv'. eapply vok_fwd; eauto. apply started_argument.
    apply (started_parts _ _ (e_context e)); [reflexivity|].
    rewrite H3. eapply pending_started, pending_app. eassumption. }
  destruct (byte_eqb c "~" && e_allow_home e).
  { eapply vok_fwd; eauto. cbn. exists spre, srest, (x ++ [c]), gap, w.
    rewrite H3, <- app_assoc. auto. }
  destruct (byte_eqb c "/" && e_tilde e); [eapply Hpr; exact Hv|].
  destruct (e_tilde e); [now apply Hrb|].
  destruct (byte_eqb c "*"); [eapply Hpr; exact Hv|].
  destruct (byte_eqb c "%"); [eapply Hpr; exact Hv|].
  destruct (byte_eqb c "["); [unfold vok; now rewrite Hv|].
  destruct (byte_eqb c "{"); [unfold vok; now rewrite Hv|].
  now apply Hrb.
Qed.

Lemma ok_expansion_word src base e pre rest :
  src = pre ++ rest -> sinv src base (SExpansionWord e) pre rest ->
  vok src base (SExpansionWord e) pre rest.
Proof.
  intros Hs [H He]. pose proof H as (spre & srest & x & gap & w & H1 & H2 & H3 & H4 & H5).
  visited Hv (SExpansionWord e) (cu pre rest). unfold visit_expansion in Hv.
  cbn [e_start e_tilde e_context] in Hv.
  assert (Hrb : visit (SExpansionWord e) (cu pre rest) = word_expansion_rollback (e_context e) (e_start e) ->
    vok src base (SExpansionWord e) pre rest).
  { intros Hv'. unfold word_expansion_rollback in Hv'. rewrite H1 in Hv'.
    eapply vok_rb; eauto. cbn. split; [|assumption]. exists gap, w. auto. }
  destruct rest as [|c r]; cbn [peek cu cur_after hd_error] in Hv; [now apply Hrb|].
  assert (Hpr : forall ex, visit (SExpansionWord e) (cu pre (c :: r)) = word_expansion_produce (e_context e) ex ->
    vok src base (SExpansionWord e) pre (c :: r)).
  { intros ex Hv'. eapply vok_fwd; eauto. apply started_argument.
    apply (started_parts _ _ (w_context (e_context e))); [reflexivity|].
    rewrite H3. eapply pending_started, pending_app. eassumption. }
  destruct (byte_eqb c "~" && e_allow_home e).
  { eapply vok_fwd; eauto. cbn. split; [|assumption]. exists spre, srest, (x ++ [c]), gap, w.
    rewrite H3, <- app_assoc. auto. }
  destruct (byte_eqb c "/" && e_tilde e); [eapply Hpr; exact Hv|].
  destruct (e_tilde e); [now apply Hrb|].
  destruct (byte_eqb c "*"); [eapply Hpr; exact Hv|].
  destruct (byte_eqb c "%"); [eapply Hpr; exact Hv|].
  destruct (byte_eqb c "["); [unfold vok; now rewrite Hv|].
  destruct (byte_eqb c "{"); [unfold vok; now rewrite Hv|].
  now apply Hrb.
Qed.

Lemma ok_unquoted src base w pre rest :
  src = pre ++ rest -> sinv src base (SUnquotedWord w) pre rest ->
  vok src base (SUnquotedWord w) pre rest.
Proof.
  intros Hs [(gap & t & Hpe & Ht) Hesc].
  pose proof (valid_here _ _ _ Hs) as Hhere.
  visited Hv (SUnquotedWord w) (cu pre rest). unfold visit_arg_word in Hv.
  assert (Hfin : visit (SUnquotedWord w) (cu pre rest) = arg_resume_produce (w_context w) (w_value w) ->
     t <> [] -> vok src base (SUnquotedWord w) pre rest).
  { intros Hv' Hn. eapply vok_res; eauto. intros _. cbn. exists gap, t. auto. }
  destruct rest as [|c r]; cbn [peek cu cur_after hd_error cur_pos] in Hv.
  - apply Hfin; [exact Hv|]. destruct Ht as [Ht|[]]; assumption.
  - assert (Hfwd : forall v' esc' al', esc_ok src esc' ->
       visit (SUnquotedWord w) (cu pre (c :: r)) = tr_step (SUnquotedWord (mkword v' esc' al' (w_context w))) ->
       vok src base (SUnquotedWord w) pre (c :: r)).
    { intros v' esc' al' He Hv'. eapply vok_fwd; eauto. cbn. split; [|assumption].
      exists gap, (t ++ [c]). split; [now apply pending_snoc|]. left. apply snoc_not_nil. }
    destruct (w_escaping w) as [[off ep]|] eqn:Ee.
    + destruct (arg_validate_escape c).
      * eapply Hfwd; [|exact Hv]. exact I.
      * eapply vok_err; eauto. intros x y Hx Hl Hx0. cbn. rewrite Ee. split; [|assumption].
        exists gap, (t ++ x). split; [now apply pending_app|].
        destruct x as [|x0 x].
        -- rewrite app_nil_r. cbn [app] in Hx. subst y. exact Ht.
        -- left. destruct t; discriminate.
    + destruct (byte_eqb c "\"); [eapply Hfwd; [|exact Hv]; exact Hhere|].
      destruct (arg_is_word c) eqn:E1.
      * destruct (w_allow w).
        -- unfold arg_expansion_start in Hv. destruct (is_expansion_start c) eqn:E2.
           ++ eapply vok_res; eauto. intros _. cbn. split; [|now rewrite Ee].
              exists pre, (c :: r), [], gap, t. rewrite app_nil_r.
              repeat split; auto; apply Hpe.
           ++ eapply Hfwd; [|exact Hv]. exact I.
        -- eapply Hfwd; [|exact Hv]. exact I.
      * apply Hfin; [exact Hv|]. destruct Ht as [Ht|Ht]; [assumption|]. cbn in Ht. congruence.
Qed.

Lemma ok_sq_word src base w pre rest :
  src = pre ++ rest -> sinv src base (SSingleQuotedWord w) pre rest ->
  vok src base (SSingleQuotedWord w) pre rest.
Proof.
  intros Hs [Ha Hesc].
  pose proof (valid_here _ _ _ Hs) as Hhere.
  visited Hv (SSingleQuotedWord w) (cu pre rest). unfold visit_arg_word in Hv.
  assert (Hfin : visit (SSingleQuotedWord w) (cu pre rest) = sq_resume_produce (w_context w) (w_value w) ->
     vok src base (SSingleQuotedWord w) pre rest).
  { intros Hv'. eapply vok_res; eauto. }
  destruct rest as [|c r]; cbn [peek cu cur_after hd_error cur_pos] in Hv; [now apply Hfin|].
  assert (Hfwd : forall v' esc' al', esc_ok src esc' ->
     visit (SSingleQuotedWord w) (cu pre (c :: r)) = tr_step (SSingleQuotedWord (mkword v' esc' al' (w_context w))) ->
     vok src base (SSingleQuotedWord w) pre (c :: r)).
  { intros v' esc' al' He Hv'. eapply vok_fwd; eauto. cbn. split; [|assumption].
    now apply started_app. }
  destruct (w_escaping w) as [[off ep]|] eqn:Ee.
  - destruct (sq_validate_escape c).
    + eapply Hfwd; [|exact Hv]. exact I.
    + eapply vok_err; eauto. intros x y _ _ _. cbn. rewrite Ee. split; [|assumption]. now apply started_app.
  - destruct (byte_eqb c "\"); [eapply Hfwd; [|exact Hv]; exact Hhere|].
    destruct (sq_is_word c); [|now apply Hfin].
    destruct (w_allow w); (eapply Hfwd; [|exact Hv]; exact I).
Qed.

Lemma ok_dq_word src base w pre rest :
  src = pre ++ rest -> sinv src base (SDoubleQuotedWord w) pre rest ->
  vok src base (SDoubleQuotedWord w) pre rest.
Proof.
  intros Hs [Ha Hesc].
  pose proof (valid_here _ _ _ Hs) as Hhere.
  visited Hv (SDoubleQuotedWord w) (cu pre rest). unfold visit_arg_word in Hv.
  assert (Hfin : visit (SDoubleQuotedWord w) (cu pre rest) = dq_resume_produce (w_context w) (w_value w) ->
     vok src base (SDoubleQuotedWord w) pre rest).
  { intros Hv'. eapply vok_res; eauto. }
  destruct rest as [|c r]; cbn [peek cu cur_after hd_error cur_pos] in Hv; [now apply Hfin|].
  assert (Hfwd : forall v' esc' al', esc_ok src esc' ->
     visit (SDoubleQuotedWord w) (cu pre (c :: r)) = tr_step (SDoubleQuotedWord (mkword v' esc' al' (w_context w))) ->
     vok src base (SDoubleQuotedWord w) pre (c :: r)).
  { intros v' esc' al' He Hv'. eapply vok_fwd; eauto. cbn. split; [|assumption].
    now apply started_app. }
  destruct (w_escaping w) as [[off ep]|] eqn:Ee.
  - destruct (dq_validate_escape c).
    + eapply Hfwd; [|exact Hv]. exact I.
    + eapply vok_err; eauto. intros x y _ _ _. cbn. rewrite Ee. split; [|assumption]. now apply started_app.
  - destruct (byte_eqb c "\"); [eapply Hfwd; [|exact Hv]; exact Hhere|].
    destruct (dq_is_word c); [|now apply Hfin].
    destruct (w_allow w); (eapply Hfwd; [|exact Hv]; exact I).
Qed.

Lemma ok_single_quoted src base q pre rest :
  src = pre ++ rest -> sinv src base (SSingleQuoted q) pre rest ->
  vok src base (SSingleQuoted q) pre rest.
Proof.
  intros Hs Ha. pose proof (valid_here _ _ _ Hs) as Hhere.
  visited Hv (SSingleQuoted q) (cu pre rest). unfold visit_single_quoted in Hv.
  destruct rest as [|c r]; cbn [peek cu cur_after hd_error cur_pos] in Hv.
  - eapply vok_err; eauto. intros x y _ _ _. apply started_argument. now apply started_app.
  - destruct (byte_eqb c "'").
    + eapply vok_fwd; eauto. apply started_argument. eapply started_parts; [|now apply started_app; eassumption].
      reflexivity.
    + eapply vok_res; eauto. intros _. cbn. auto.
Qed.

Lemma ok_double_quoted src base q pre rest :
  src = pre ++ rest -> sinv src base (SDoubleQuoted q) pre rest ->
  vok src base (SDoubleQuoted q) pre rest.
Proof.
  intros Hs Ha. pose proof (valid_here _ _ _ Hs) as Hhere.
  visited Hv (SDoubleQuoted q) (cu pre rest). unfold visit_double_quoted in Hv.
  destruct rest as [|c r]; cbn [peek cu cur_after hd_error cur_pos] in Hv.
  - eapply vok_err; eauto. intros x y _ _ _. apply started_argument. now apply started_app.
  - destruct (byte_eqb c x22).
    + eapply vok_fwd; eauto. apply started_argument. eapply started_parts; [|now apply started_app; eassumption].
      reflexivity.
    + destruct (byte_eqb c "$").
      * eapply vok_fwd; eauto. cbn. split; [|exact Hhere]. now apply started_app.
      * eapply vok_res; eauto. intros _. cbn. auto.
Qed.

Section DollarOk.
  Context {C : Type} (self : dollar C -> state) (ret : C -> state) (push : C -> symbol -> pos -> C).
  Variable par : C -> argument.
  Hypothesis self_visit : forall d cur, visit (self d) cur = visit_dollar self ret push d cur.
  Hypothesis self_inv : forall src base d pre rest,
    sinv src base (self d) pre rest = (arg_started base pre (par (d_context d)) /\ valid_pos src (d_pos d)).
  Hypothesis ret_inv : forall src base c pre rest,
    arg_started base pre (par c) -> sinv src base (ret c) pre rest.
  Hypothesis push_par : forall c s p, a_pos (par (push c s p)) = a_pos (par c).

  Lemma ok_dollar src base d pre rest :
    src = pre ++ rest -> sinv src base (self d) pre rest -> vok src base (self d) pre rest.
  Proof.
    intros Hs H. rewrite self_inv in H. destruct H as [Ha Hp].
    pose proof (valid_here _ _ _ Hs) as Hhere.
    assert (Herr : forall e, valid_pos src (le_pos e) ->
      visit (self d) (cu pre rest) = tr_error (ret (d_context d)) e -> vok src base (self d) pre rest).
    { intros e He Hv. eapply vok_err; eauto. intros x y _ _ _. apply ret_inv. now apply started_app. }
    assert (Hrerr : forall e, valid_pos src (le_pos e) ->
      visit (self d) (cu pre rest) = tr_resume_error (ret (d_context d)) e -> vok src base (self d) pre rest).
    { intros e He Hv. eapply vok_res_err; eauto. }
    assert (Hrok : forall s p, visit (self d) (cu pre rest) = tr_resume (ret (push (d_context d) s p)) ->
      vok src base (self d) pre rest).
    { intros s p Hv. eapply vok_res; eauto. intros _. apply ret_inv.
      eapply started_parts; [|eassumption]. apply push_par. }
    assert (Hfok : forall s p, visit (self d) (cu pre rest) = tr_step (ret (push (d_context d) s p)) ->
      vok src base (self d) pre rest).
    { intros s p Hv. destruct rest as [|c r].
      - unfold vok. rewrite Hv. cbn. exists pre, []. repeat split; auto. congruence.
      - eapply vok_fwd; eauto. apply ret_inv. apply started_app.
        eapply started_parts; [|eassumption]. apply push_par. }
    assert (Hself : forall d', (exists c r, rest = c :: r) -> d_context d' = d_context d -> d_pos d' = d_pos d ->
      visit (self d) (cu pre rest) = tr_step (self d') -> vok src base (self d) pre rest).
    { intros d' (c & r & ->) E1 E2 Hv. eapply vok_fwd; eauto. rewrite self_inv, E1, E2.
      split; [now apply started_app|assumption]. }
    pose proof (self_visit d (cu pre rest)) as Hv. unfold visit_dollar in Hv.
    assert (Hc : rest <> [] -> exists c r, rest = c :: r) by (destruct rest; [congruence|eauto]).
    destruct rest as [|c r]; cbn [peek cu cur_after hd_error cur_pos] in Hv;
      repeat (breakv Hv; try discriminate);
      try (eapply Hself; [apply Hc; discriminate| | |exact Hv]; reflexivity);
      try (eapply Herr; [|exact Hv]; assumption);
      try (eapply Hrerr; [|exact Hv]; assumption);
      try (eapply Hrok; exact Hv); try (eapply Hfok; exact Hv).
  Qed.
End DollarOk.

Lemma ainv_round src base a : ainv src base a -> round_ok src base (lex_round a).
Proof.
  intros (Hw & pre & rest & Hc & Hs & Hi). destruct a as [s cur]; cbn [au_cursor au_state] in *.
  subst cur. apply vok_round; [exact Hw|exact Hs|].
  destruct s.
  - now apply ok_root.
  - now apply (ok_comment InRoot).
  - now apply ok_number.
  - now apply ok_byte.
  - now apply ok_string.
  - now apply ok_word.
  - now apply ok_symbol.
  - now apply ok_command.
  - now apply (ok_comment InCommand).
  - now apply ok_argument.
  - now apply ok_expansion.
  - now apply ok_expansion_word.
  - now apply ok_single_quoted.
  - now apply ok_double_quoted.
  - now apply ok_unquoted.
  - now apply ok_sq_word.
  - now apply ok_dq_word.
  - apply (ok_dollar SDollar SArgument argument_push_dollar (fun a => a)); auto.
    intros. now apply started_argument.
  - apply (ok_dollar SQuotedDollar SDoubleQuoted dq_push_dollar dq_parent); auto.
  - now apply ok_command_symbol.
Qed.

Lemma placed_from : forall n a src base os tl,
  mu a < n -> ainv src base a -> src = base ++ tl ->
  lex_from a = LexDone os \/ lex_from a = LexCrash os -> placed base tl os.
Proof.
  induction n as [|n IH]; intros a src base os tl Hn Ha Hs Hl; [lia|].
  pose proof (proj1 Ha) as Hw. rewrite (lex_from_eq a Hw) in Hl.
  pose proof (ainv_round _ _ _ Ha) as Hr.
  destruct (lex_round a) as [a'|o a'|a'|] eqn:E.
  - destruct (round_decreases a a' Hw) as [D _]; [eauto|].
    apply (IH a' src); auto. lia.
  - destruct (round_decreases a a' Hw) as [D _]; [eauto|].
    assert (exists os', os = o :: os' /\ (lex_from a' = LexDone os' \/ lex_from a' = LexCrash os'))
      as (os' & -> & Hl').
    { destruct (lex_from a'); cbn in Hl; destruct Hl as [Hl|Hl]; try discriminate Hl;
        injection Hl as <-; eauto. }
    destruct o as [t|e]; cbn [round_ok] in Hr.
    + destruct Hr as (gap & text & rest & H1 & H2 & H3 & H4 & H5).
      assert (tl = gap ++ text ++ rest) as ->.
      { apply (app_inv_head base). congruence. }
      apply pl_token; auto. apply (IH a' src); auto; [lia|].
      rewrite <- !app_assoc. assumption.
    + destruct Hr as [(x & y & Hx & Hp) H2]. apply (pl_error _ _ x y); auto; [congruence|].
      apply (IH a' src); auto. lia.
  - destruct Hl as [Hl|Hl]; [|discriminate]. injection Hl as <-. constructor.
  - destruct Hl as [Hl|Hl]; [discriminate|]. injection Hl as <-. constructor.
Qed.

Lemma ainv_new src : ainv src [] (automaton_new src).
Proof.
  split; [exact I|]. exists [], src. repeat split. now exists [].
Qed.

Theorem lex_placed src os : lex src = LexDone os \/ lex src = LexCrash os -> placed [] src os.
Proof.
  rewrite lex_is_from. intros H.
  apply (placed_from (S (mu (automaton_new src))) (automaton_new src) src); auto.
  apply ainv_new.
Qed.
