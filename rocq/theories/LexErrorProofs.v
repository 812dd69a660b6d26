(** What the errors of the lexer are about. *)
From Verif Require Import Base Lexer LexerTermProofs SpecLexer SpecLexError LexerProofs LexerPosProofs.
Local Open Scope byte_scope.

Definition about (src : bytes) (e : lex_error) : Prop :=
  described src e \/ about_cut_number src e \/ about_long_escape src e.

(** A backslash was read, and after it [t], which is no escape. *)
Definition esc_from (valid : byte -> option byte) (pre : bytes) (off : nat) (ep : pos) (t : bytes) : Prop :=
  exists b, pre = b ++ BSLASH :: t /\ off = length b /\ ep = position_of b /\
    Forall (fun c => valid c = None) t.

Definition esc_one (pre : bytes) (esc : option (nat * pos)) : Prop :=
  match esc with Some (off, ep) => esc_from string_validate_escape pre off ep [] | None => True end.
Definition esc_many (valid : byte -> option byte) (pre : bytes) (esc : option (nat * pos)) : Prop :=
  match esc with Some (off, ep) => exists t, esc_from valid pre off ep t | None => True end.

Definition digits_only (b : bytes) : Prop := Forall (fun c => digit c = true) b.

Definition number_shape (d e : option bool) (w : bytes) : Prop :=
  match d, e with
  | None, None => all_digits w
  | Some false, None => exists a, all_digits a /\ w = a ++ ["."]
  | Some true, None => exists a b, all_digits a /\ digits_only b /\ w = a ++ "." :: b
  | None, Some false => exists a x, all_digits a /\ (x = "e" \/ x = "E") /\ w = a ++ [x]
  | Some _, Some false =>
    exists a b x, all_digits a /\ digits_only b /\ (x = "e" \/ x = "E") /\ w = a ++ "." :: b ++ [x]
  | Some false, Some true => False
  | _, _ => True
  end.

Definition bad_name (s : bytes) : bool :=
  match s with [] => true | c :: r => negb (is_word_start c) || existsb (fun c => negb (is_word c)) r end.

(** [w] was read after the dollar sign at the end of [a]. *)
Definition dollar_shape (start : option nat) (braces : option bool) (error : bool) (a w : bytes) : Prop :=
  match start, braces with
  | None, None => w = [] /\ error = false
  | None, Some true => w = ["{"] /\ error = false
  | Some o, Some true =>
    exists s, w = "{" :: s /\ s <> [] /\ o = length a + 2 /\ error = bad_name s /\ ~ In "}" s
  | Some o, Some false =>
    exists c s, w = c :: s /\ o = length a + 1 /\ error = negb (is_word_start c) /\
      Forall (fun c => is_word c = true) s
  | _, _ => False
  end.

Definition dollar_inv {C} (pre : bytes) (d : dollar C) : Prop :=
  exists a w, pre = a ++ "$" :: w /\ d_pos d = position_of a /\
    dollar_shape (d_start d) (d_braces d) (d_error d) a w.

Definition einv (src : bytes) (s : state) (pre : bytes) : Prop :=
  match s with
  | SNumber st d e p =>
    exists a w, pre = a ++ w /\ st = length a /\ p = position_of a /\ number_shape d e w
  | SByte v esc p =>
    (v = None -> esc = None -> exists a, pre = a ++ ["'"] /\ p = position_of a) /\
    (v <> None -> esc = None) /\ esc_one pre esc
  | SString _ esc _ => esc_one pre esc
  | SSymbol f p => exists a, pre = a ++ [f] /\ p = position_of a
  | SExpansion e => exists x y, e_start e = cu x y /\ src = x ++ y
  | SExpansionWord e =>
    (exists x y, e_start e = cu x y /\ src = x ++ y) /\ w_escaping (e_context e) = None
  | SUnquotedWord w => esc_many arg_validate_escape pre (w_escaping w)
  | SSingleQuotedWord w => esc_many sq_validate_escape pre (w_escaping w)
  | SDoubleQuotedWord w => esc_many dq_validate_escape pre (w_escaping w)
  | SDollar d => dollar_inv pre d
  | SQuotedDollar d => dollar_inv pre d
  | _ => True
  end.

Definition eok (src : bytes) (pre rest : bytes) (v : visited) : Prop :=
  match v with
  | Crash => True
  | Go t =>
    exists pre' rest', src = pre' ++ rest' /\ apply_step (t_step t) (cu pre rest) = cu pre' rest' /\
      (rest <> [] \/ t_out t <> None -> einv src (t_state t) pre') /\
      match t_out t with Some (ErrTok e) => about src e | _ => True end
  end.

Lemma eok_step src pre c rest s' :
  src = pre ++ c :: rest -> einv src s' (pre ++ [c]) -> eok src pre (c :: rest) (tr_step s').
Proof.
  intros Hs H. cbn. exists (pre ++ [c]), rest. rewrite <- app_assoc. rewrite <- cu_step. repeat split; auto.
Qed.
Lemma eok_end src pre s' : src = pre ++ [] -> eok src pre [] (tr_step s').
Proof. intros Hs. cbn. exists pre, []. repeat split; auto. intros [H|H]; congruence. Qed.
Lemma eok_end_resume src pre s' : src = pre ++ [] -> eok src pre [] (tr_resume s').
Proof. intros Hs. cbn. exists pre, []. repeat split; auto. intros [H|H]; congruence. Qed.
Lemma eok_resume src pre rest s' : src = pre ++ rest -> einv src s' pre -> eok src pre rest (tr_resume s').
Proof. intros Hs H. cbn. exists pre, rest. auto. Qed.
Lemma eok_produce src pre c rest s' t :
  src = pre ++ c :: rest -> einv src s' (pre ++ [c]) -> eok src pre (c :: rest) (tr_produce s' t).
Proof.
  intros Hs H. cbn. exists (pre ++ [c]), rest. rewrite <- app_assoc. rewrite <- cu_step. repeat split; auto.
Qed.
Lemma eok_resume_produce src pre rest s' t :
  src = pre ++ rest -> einv src s' pre -> eok src pre rest (tr_resume_produce s' t).
Proof. intros Hs H. cbn. exists pre, rest. auto. Qed.
Lemma eok_rollback src pre rest x y s' :
  src = x ++ y -> einv src s' x -> eok src pre rest (tr_rollback (cu x y) s').
Proof. intros Hs H. cbn. exists x, y. auto. Qed.
Lemma eok_error src pre rest s' e :
  src = pre ++ rest -> about src e -> (forall x, einv src s' (pre ++ x)) -> eok src pre rest (tr_error s' e).
Proof.
  intros Hs He H. cbn. destruct rest as [|c rest].
  - exists pre, []. repeat split; auto. intros _. specialize (H []). now rewrite app_nil_r in H.
  - exists (pre ++ [c]), rest. rewrite <- app_assoc. rewrite <- cu_step. repeat split; auto.
Qed.
Lemma eok_error_here src pre c rest s' e :
  src = pre ++ c :: rest -> about src e -> einv src s' (pre ++ [c]) -> eok src pre (c :: rest) (tr_error s' e).
Proof.
  intros Hs He H. cbn. exists (pre ++ [c]), rest. rewrite <- app_assoc. rewrite <- cu_step. repeat split; auto.
Qed.
Lemma eok_resume_error src pre rest s' e :
  src = pre ++ rest -> about src e -> einv src s' pre -> eok src pre rest (tr_resume_error s' e).
Proof. intros Hs He H. cbn. exists pre, rest. auto. Qed.

Lemma stands_at src pre w rest : src = pre ++ w ++ rest -> stands src w (position_of pre) rest.
Proof. intros H. now exists pre. Qed.

Lemma at_end src pre : src = pre ++ [] -> about src (mkerror UnexpectedEof (cur_pos (cu pre []))).
Proof. intros H. left. exists pre. cbn. auto. Qed.

Lemma at_byte src pre c rest : src = pre ++ c :: rest ->
  about src (mkerror (Unexpected c) (cur_pos (cu pre (c :: rest)))).
Proof. intros H. left. exists rest, pre. cbn. auto. Qed.

Lemma root_e src pre rest : src = pre ++ rest -> eok src pre rest (visit SRoot (cu pre rest)).
Proof.
  intros Hs. destruct rest as [|c r]; cbn [visit]; unfold visit_root;
    cbn [peek cu cur_after hd_error]; [now apply eok_end|].
  destruct (is_ascii_whitespace c); [now apply eok_step|].
  destruct (byte_eqb c "#"); [now apply eok_step|].
  destruct (byte_eqb c x22) eqn:E1; [now apply eok_step|].
  destruct (byte_eqb c "'") eqn:E2.
  { apply byte_eqb_eq in E2. subst c. apply eok_step; [assumption|]. cbn. split; [|split; [congruence|exact I]]. eauto. }
  destruct (is_ascii_digit c) eqn:E3.
  { apply eok_step; [assumption|]. cbn [einv]. exists pre, [c].
    change (mkcursor (rev pre) (c :: r) (position_of pre)) with (cu pre (c :: r)). rewrite offset_cu.
    repeat split; [discriminate|]. constructor; [|constructor]. now rewrite <- digit_is_digit. }
  destruct (is_word_start c) eqn:E4; [now apply eok_resume|].
  destruct (symbol_char_from c) eqn:E5.
  - apply eok_error_here; [assumption| |exact I]. now apply at_byte.
  - destruct k; now apply eok_produce.
  - apply eok_step; [assumption|]. exists pre. auto.
Qed.

Lemma comment_e src self parent pre rest :
  (forall p, einv src self p) -> (forall p, einv src parent p) ->
  src = pre ++ rest -> eok src pre rest (visit_comment self parent (cu pre rest)).
Proof.
  intros H1 H2 Hs. destruct rest as [|c r]; unfold visit_comment; cbn [peek cu cur_after hd_error];
    [now apply eok_end|].
  destruct c; try (now apply eok_step); now apply eok_resume.
Qed.

Lemma digit_stop c : is_ascii_digit c = false -> digit c = false.
Proof. now rewrite digit_is_digit. Qed.

Lemma all_digits_snoc w c : all_digits w -> digit c = true -> all_digits (w ++ [c]).
Proof.
  intros [H1 H2] Hc. split; [destruct w; discriminate|]. apply Forall_app. split; auto.
Qed.
Lemma digits_only_snoc w c : digits_only w -> digit c = true -> digits_only (w ++ [c]).
Proof. intros H Hc. apply Forall_app. split; auto. Qed.

Lemma number_e src st d e p pre rest :
  src = pre ++ rest -> einv src (SNumber st d e p) pre ->
  eok src pre rest (visit (SNumber st d e p) (cu pre rest)).
Proof.
  intros Hs (a & w & Hp & Hst & Hpos & Hsh).
  assert (Hsrc : src = a ++ w ++ rest) by (subst; now rewrite <- app_assoc).
  assert (Hcut : forall k, cut_number w -> ~ starts_with digit rest ->
     k = match rest with [] => UnexpectedEof | c :: _ => Unexpected c end ->
     eok src pre rest (tr_error SRoot (mkerror k p))).
  { intros k Hc Hn ->. apply eok_error; [assumption| |intros; exact I].
    right; left. exists w, rest. cbn [le_pos le_kind]. split; [subst p; now apply stands_at|]. auto. }
  assert (Hfin : ~ starts_with digit rest -> eok src pre rest
    (match d, e with
    | Some false, _ | _, Some false =>
      match peek (cu pre rest) with
      | Some v => tr_error SRoot (mkerror (Unexpected v) p)
      | None => tr_error SRoot (mkerror UnexpectedEof p)
      end
    | _, _ =>
      match number_parse st d e p (cu pre rest) with
      | inl t => tr_resume_produce SRoot t
      | inr e => tr_error SRoot e
      end
    end)).
  { intros Hn.
    assert (Hsl : slice_to (cu pre rest) st = w) by (rewrite Hp, Hst; apply slice_cu).
    assert (Hk : match peek (cu pre rest) with
      | Some v => tr_error SRoot (mkerror (Unexpected v) p)
      | None => tr_error SRoot (mkerror UnexpectedEof p)
      end = tr_error SRoot (mkerror match rest with [] => UnexpectedEof | c :: _ => Unexpected c end p)).
    { destruct rest; reflexivity. }
    rewrite Hk. unfold number_parse. rewrite Hsl.
    destruct d as [[]|], e as [[]|]; cbn [number_shape] in Hsh;
      try (now apply eok_resume_produce); try contradiction.
    - destruct Hsh as (b & f & x & H1 & H2 & H3 & ->). apply Hcut; auto. now apply cn_both.
    - destruct Hsh as (b & f & x & H1 & H2 & H3 & ->). apply Hcut; auto. now apply cn_both.
    - destruct Hsh as (b & H1 & ->). apply Hcut; auto. now apply cn_dot.
    - destruct Hsh as (b & x & H1 & H2 & ->). apply Hcut; auto. now apply cn_exp.
    - destruct (in_i64 (digits_val w)) eqn:Ei; [now apply eok_resume_produce|].
      apply eok_error; [assumption| |intros; exact I]. left. cbn. exists rest.
      split; [subst p; now apply stands_at|]. split; [assumption|]. split; [assumption|].
      rewrite digits_val_decimal in Ei. unfold in_i64, i64_max, i64_min in Ei.
      pose proof (decimal_value_nonneg w (proj2 Hsh)). lia. }
  cbn [visit]. unfold visit_number.
  destruct rest as [|c r]; [cbn [peek cu cur_after hd_error] in *; apply Hfin; cbn; tauto|].
  cbn [peek cu cur_after hd_error].
  assert (Hstep : forall d' e', number_shape d' e' (w ++ [c]) ->
     eok src pre (c :: r) (tr_step (SNumber st d' e' p))).
  { intros d' e' H. apply eok_step; [assumption|]. exists a, (w ++ [c]). subst. now rewrite <- app_assoc. }
  cbn [peek cu cur_after hd_error] in Hfin.
  change (mkcursor (rev pre) (c :: r) (position_of pre)) with (cu pre (c :: r)).
  assert (Hexp : byte_eqb c "e" || byte_eqb c "E" = true -> c = "e" \/ c = "E").
  { intros H. apply orb_true_iff in H. destruct H as [H|H]; apply byte_eqb_eq in H; auto. }
  destruct d as [[]|], e as [[]|]; cbn [number_shape] in Hsh; try contradiction;
    repeat match goal with
    | |- eok _ _ _ (if byte_eqb c "." then _ else _) =>
        let E := fresh "E" in destruct (byte_eqb c ".") eqn:E; [apply byte_eqb_eq in E; subst c|]
    | |- eok _ _ _ (if byte_eqb c "e" || _ then _ else _) =>
        let E := fresh "E" in destruct (byte_eqb c "e" || byte_eqb c "E") eqn:E; [specialize (Hexp eq_refl)|]
    | |- eok _ _ _ (if is_ascii_digit c then _ else _) =>
        let E := fresh "E" in destruct (is_ascii_digit c) eqn:E; rewrite digit_is_digit in E
    end; try (apply Hfin; cbn [starts_with]; congruence); apply Hstep; cbn [number_shape]; auto.
  - destruct Hsh as (b & f & H1 & H2 & ->). exists b, f, c.
    split; [assumption|]. split; [assumption|]. split; [assumption|]. now rewrite <- app_assoc.
  - destruct Hsh as (b & f & H1 & H2 & ->). exists b, (f ++ [c]).
    split; [assumption|]. split; [now apply digits_only_snoc|]. now rewrite <- app_assoc.
  - destruct Hsh as (b & H1 & ->). exists b, [], c.
    split; [assumption|]. split; [constructor|]. split; [assumption|]. now rewrite <- app_assoc.
  - destruct Hsh as (b & H1 & ->). exists b, [c].
    split; [assumption|]. split; [constructor; auto|]. now rewrite <- app_assoc.
  - exists w. auto.
  - exists w, c. auto.
  - now apply all_digits_snoc.
Qed.

(** Escapes *)
Lemma string_table c : string_validate_escape c = None -> ~ In c (map fst string_escapes).
Proof. destruct c; cbn; intros H; try discriminate H; intuition discriminate. Qed.
Lemma unquoted_table c : arg_validate_escape c = None -> ~ In c (map fst unquoted_escapes).
Proof. destruct c; cbn; intros H; try discriminate H; intuition discriminate. Qed.
Lemma single_table c : sq_validate_escape c = None -> ~ In c (map fst single_quoted_escapes).
Proof. destruct c; cbn; intros H; try discriminate H; intuition discriminate. Qed.
Lemma double_table c : dq_validate_escape c = None -> ~ In c (map fst double_quoted_escapes).
Proof. destruct c; cbn; intros H; try discriminate H; intuition discriminate. Qed.

Lemma slice_incl_cu b w c r : slice_to_incl (cu (b ++ w) (c :: r)) (length b) = w ++ [c].
Proof.
  unfold slice_to_incl. change (skipn (length b) (rev (cur_before (cu (b ++ w) (c :: r)))))
    with (slice_to (cu (b ++ w) (c :: r)) (length b)). rewrite slice_cu. reflexivity.
Qed.

Lemma escape_about src valid table pre c r off ep t :
  In table escape_tables -> (forall c, valid c = None -> ~ In c (map fst table)) ->
  src = pre ++ c :: r -> esc_from valid pre off ep t -> valid c = None ->
  about src (mkerror (InvalidEscapeSequence (slice_to_incl (cu pre (c :: r)) off)) ep).
Proof.
  intros Ht Hv Hs (b & -> & -> & -> & Hf) Hc. rewrite slice_incl_cu. cbn [app].
  assert (Hst : forall w, w = BSLASH :: t ++ [c] -> stands src w (position_of b) r).
  { intros w ->. apply stands_at. rewrite Hs. rewrite <- !app_assoc. cbn [app]. now rewrite <- !app_assoc. }
  assert (Hn : no_escapes (t ++ [c])).
  { exists table. split; [assumption|]. apply Forall_app. split; [|constructor; auto].
    eapply Forall_impl; [|exact Hf]. auto. }
  destruct t as [|d t].
  - left. cbn. exists c, r. auto.
  - right; right. destruct (t ++ [c]) as [|x y] eqn:E; [destruct t; discriminate|].
    exists d, x, y, r. cbn [le_kind le_pos]. cbn [app] in *. rewrite E in *. auto.
Qed.

Lemma esc_begin valid pre : esc_from valid (pre ++ ["\"]) (length pre) (position_of pre) [].
Proof. exists pre. repeat split; auto. Qed.

Lemma byte_e src v esc p pre rest :
  src = pre ++ rest -> einv src (SByte v esc p) pre ->
  eok src pre rest (visit (SByte v esc p) (cu pre rest)).
Proof.
  intros Hs (H1 & H2 & H3). cbn [visit]. unfold visit_byte.
  destruct rest as [|c r]; cbn [peek cu cur_after hd_error].
  { apply eok_error; [assumption|now apply at_end|intros; exact I]. }
  change (mkcursor (rev pre) (c :: r) (position_of pre)) with (cu pre (c :: r)).
  destruct v as [v|].
  - rewrite H2 by discriminate. destruct (byte_eqb c "'"); [now apply eok_produce|].
    apply eok_error_here; [assumption|now apply at_byte|]. cbn. repeat split; congruence.
  - destruct esc as [[off ep]|].
    + destruct (string_validate_escape c) eqn:E.
      * apply eok_step; [assumption|]. cbn. repeat split; congruence.
      * apply eok_error_here; [assumption| |cbn; repeat split; congruence].
        eapply escape_about; eauto using string_table. cbn; auto.
    + destruct (byte_eqb c "\") eqn:E.
      * apply byte_eqb_eq in E. subst c. apply eok_step; [assumption|]. cbn [einv esc_one].
        rewrite offset_cu. split; [discriminate|]. split; [congruence|]. apply esc_begin.
      * destruct (byte_eqb c "'") eqn:E'.
        -- apply byte_eqb_eq in E'. subst c. apply eok_error_here; [assumption| |exact I].
           left. destruct (H1 eq_refl eq_refl) as (a & -> & ->). exists r, a. cbn.
           rewrite <- app_assoc in Hs. auto.
        -- apply eok_step; [assumption|]. cbn. repeat split; congruence.
Qed.

Lemma string_e src v esc p pre rest :
  src = pre ++ rest -> einv src (SString v esc p) pre ->
  eok src pre rest (visit (SString v esc p) (cu pre rest)).
Proof.
  intros Hs H. cbn [visit]. unfold visit_string.
  destruct rest as [|c r]; cbn [peek cu cur_after hd_error].
  { apply eok_error; [assumption|now apply at_end|intros; exact I]. }
  change (mkcursor (rev pre) (c :: r) (position_of pre)) with (cu pre (c :: r)).
  destruct esc as [[off ep]|].
  - destruct (string_validate_escape c) eqn:E.
    + now apply eok_step.
    + apply eok_error_here; [assumption| |exact I].
      eapply escape_about; eauto using string_table. cbn; auto.
  - destruct (byte_eqb c "\") eqn:E.
    + apply byte_eqb_eq in E. subst c. apply eok_step; [assumption|]. cbn [einv esc_one].
      rewrite offset_cu. apply esc_begin.
    + destruct (byte_eqb c x22); [now apply eok_produce|now apply eok_step].
Qed.

Lemma word_e src st p pre rest : src = pre ++ rest -> eok src pre rest (visit (SWord st p) (cu pre rest)).
Proof.
  intros Hs. cbn [visit]. unfold visit_word. destruct rest as [|c r]; cbn [peek cu cur_after hd_error].
  - now apply eok_resume_produce.
  - destruct (is_word c); [now apply eok_step|now apply eok_resume_produce].
Qed.

Lemma symbol_e src f p pre rest :
  src = pre ++ rest -> einv src (SSymbol f p) pre ->
  eok src pre rest (visit (SSymbol f p) (cu pre rest)).
Proof.
  intros Hs (a & Ha & Hp). cbn [visit].
  assert (Hprod : forall c r s' t, rest = c :: r -> (forall x, einv src s' x) -> eok src pre rest (tr_produce s' t)).
  { intros c r s' t -> H. now apply eok_produce. }
  assert (Hres : forall t, eok src pre rest (tr_resume_produce SRoot t)).
  { intros t. now apply eok_resume_produce. }
  assert (Herr : eok src pre rest (tr_resume_error SRoot (mkerror (Unexpected f) p))).
  { apply eok_resume_error; [assumption| |exact I]. left. exists rest, a. cbn.
    rewrite Hs, Ha, <- app_assoc. auto. }
  assert (Hnext : forall x, match peek (cu pre rest) with Some c' => byte_eqb c' x | None => false end = true ->
     exists r, rest = x :: r).
  { intros x. destruct rest as [|c r]; cbn; [discriminate|]. intros H. apply byte_eqb_eq in H. subst. eauto. }
  unfold visit_symbol. cbv zeta.
  destruct f; try exact I;
    match goal with |- eok _ _ _ (if ?b then _ else _) => destruct b eqn:E end; auto;
    apply Hnext in E; destruct E as [r E]; (eapply Hprod; [exact E|intros; exact I]).
Qed.

Lemma command_symbol_e src f p pre rest :
  src = pre ++ rest -> eok src pre rest (visit (SCommandSymbol f p) (cu pre rest)).
Proof.
  intros Hs. cbn [visit].
  assert (Hprod : forall c r s' t, rest = c :: r -> (forall x, einv src s' x) -> eok src pre rest (tr_produce s' t)).
  { intros c r s' t -> H. now apply eok_produce. }
  assert (Hres : forall t, eok src pre rest (tr_resume_produce SCommand t)).
  { intros t. now apply eok_resume_produce. }
  assert (Hnext : forall x, match peek (cu pre rest) with Some c' => byte_eqb c' x | None => false end = true ->
     exists r, rest = x :: r).
  { intros x. destruct rest as [|c r]; cbn; [discriminate|]. intros H. apply byte_eqb_eq in H. subst. eauto. }
  unfold visit_command_symbol. cbv zeta.
  destruct f; try exact I;
    match goal with |- eok _ _ _ (if ?b then _ else _) => destruct b eqn:E end; auto;
    apply Hnext in E; destruct E as [r E]; (eapply Hprod; [exact E|intros; exact I]).
Qed.

Lemma command_e src pre rest : src = pre ++ rest -> eok src pre rest (visit SCommand (cu pre rest)).
Proof.
  intros Hs. cbn [visit]. unfold visit_command. destruct rest as [|c r]; cbn [peek cu cur_after hd_error].
  { apply eok_error; [assumption|now apply at_end|intros; exact I]. }
  destruct (is_ascii_whitespace c); [now apply eok_step|].
  destruct (byte_eqb c "#"); [now apply eok_step|].
  destruct (byte_eqb c "}"); [now apply eok_produce|].
  destruct (command_symbol_char_from c); [now apply eok_resume|now apply eok_produce|now apply eok_step].
Qed.

Lemma dollar_begins {C} pre rest (x : C) : dollar_inv (pre ++ ["$"]) (dollar_at (cu pre rest) x).
Proof. exists pre, []. cbn. auto. Qed.

Lemma argument_e src a pre rest : src = pre ++ rest -> eok src pre rest (visit (SArgument a) (cu pre rest)).
Proof.
  intros Hs. cbn [visit]. unfold visit_argument. destruct rest as [|c r]; cbn [peek cu cur_after hd_error].
  { now apply eok_resume_produce. }
  change (mkcursor (rev pre) (c :: r) (position_of pre)) with (cu pre (c :: r)).
  destruct (byte_eqb c "$") eqn:E.
  { apply byte_eqb_eq in E. subst c. apply eok_step; [assumption|]. apply dollar_begins. }
  destruct (byte_eqb c "'"); [now apply eok_step|].
  destruct (byte_eqb c x22); [now apply eok_step|].
  destruct (byte_eqb c "="); [now apply eok_step|].
  destruct (is_expansion_start c).
  { apply eok_resume; [assumption|]. cbn. exists pre, (c :: r). auto. }
  destruct (arg_is_word c); [now apply eok_resume|now apply eok_resume_produce].
Qed.

Lemma expansion_e {C} src (self : expansion C -> state) produce rollback e pre rest :
  src = pre ++ rest -> (exists x y, e_start e = cu x y /\ src = x ++ y) ->
  (forall e' p, e_start e' = e_start e -> e_context e' = e_context e -> einv src (self e') p) ->
  (forall k, exists s', produce (e_context e) k = tr_step s' /\ forall p, einv src s' p) ->
  (exists s', (forall cur, rollback (e_context e) cur = tr_rollback cur s') /\ forall p, einv src s' p) ->
  eok src pre rest (visit_expansion self produce rollback e (cu pre rest)).
Proof.
  intros Hs (x & y & Hx & Hxy) Hself Hprod (sr & Hr & Hri). unfold visit_expansion. cbn [e_context e_start e_tilde].
  assert (Hroll : eok src pre rest (rollback (e_context e) (e_start e))).
  { rewrite Hr, Hx. apply eok_rollback; auto. }
  destruct rest as [|c r]; cbn [peek cu cur_after hd_error]; [assumption|].
  assert (Hp : forall k, eok src pre (c :: r) (produce (e_context e) k)).
  { intros k. destruct (Hprod k) as (s' & -> & H). now apply eok_step. }
  destruct (byte_eqb c "~" && e_allow_home e). { apply eok_step; [assumption|]. now apply Hself. }
  destruct (byte_eqb c "/" && e_tilde e); auto.
  destruct (e_tilde e); auto.
  destruct (byte_eqb c "*"); auto. destruct (byte_eqb c "%"); auto.
  destruct (byte_eqb c "["); [exact I|]. destruct (byte_eqb c "{"); [exact I|]. assumption.
Qed.

Lemma argword_e {C} src table (self : word C -> state) resume_produce expansion_start isw valid w pre rest :
  In table escape_tables -> (forall c, valid c = None -> ~ In c (map fst table)) ->
  src = pre ++ rest ->
  (forall w p, esc_many valid p (w_escaping w) -> einv src (self w) p) ->
  (forall x v, exists s', resume_produce x v = tr_resume s' /\ forall p, einv src s' p) ->
  (forall c, w_escaping w = None -> match expansion_start w (cu pre rest) c with Some t => eok src pre rest t | None => True end) ->
  esc_many valid pre (w_escaping w) ->
  eok src pre rest (visit_arg_word self resume_produce expansion_start isw valid w (cu pre rest)).
Proof.
  intros Ht Hv Hs Hself Hres Hexp Hesc. unfold visit_arg_word.
  assert (Hend : eok src pre rest (resume_produce (w_context w) (w_value w))).
  { destruct (Hres (w_context w) (w_value w)) as (s' & -> & H). now apply eok_resume. }
  destruct rest as [|c r]; cbn [peek cu cur_after hd_error]; [assumption|].
  change (mkcursor (rev pre) (c :: r) (position_of pre)) with (cu pre (c :: r)).
  destruct (w_escaping w) as [[off ep]|] eqn:Ee.
  - cbn [esc_many] in Hesc. destruct Hesc as [t Hesc]. destruct (valid c) eqn:Ec.
    + apply eok_step; [assumption|]. apply Hself. exact I.
    + apply eok_error_here; [assumption| |].
      * eapply escape_about; eauto.
      * apply Hself. rewrite Ee. cbn [esc_many]. destruct Hesc as (b & -> & -> & -> & Hf).
        exists (t ++ [c]), b. rewrite <- app_assoc. repeat split; auto. apply Forall_app. auto.
  - destruct (byte_eqb c "\") eqn:E.
    { apply byte_eqb_eq in E. subst c. apply eok_step; [assumption|]. apply Hself. cbn [w_escaping esc_many].
      rewrite offset_cu. exists []. apply esc_begin. }
    destruct (isw c); [|assumption].
    assert (Hgo : forall k b, eok src pre (c :: r) (tr_step (self (mkword k None b (w_context w))))).
    { intros k b. apply eok_step; [assumption|]. apply Hself. exact I. }
    destruct (w_allow w); [|apply Hgo].
    specialize (Hexp c eq_refl). destruct (expansion_start w (cu pre (c :: r)) c); auto.
Qed.

Lemma single_e src q pre rest : src = pre ++ rest -> eok src pre rest (visit (SSingleQuoted q) (cu pre rest)).
Proof.
  intros Hs. cbn [visit]. unfold visit_single_quoted. destruct rest as [|c r]; cbn [peek cu cur_after hd_error].
  { apply eok_error; [assumption|now apply at_end|intros; exact I]. }
  destruct (byte_eqb c "'"); [now apply eok_step|now apply eok_resume].
Qed.

Lemma double_e src q pre rest : src = pre ++ rest -> eok src pre rest (visit (SDoubleQuoted q) (cu pre rest)).
Proof.
  intros Hs. cbn [visit]. unfold visit_double_quoted. destruct rest as [|c r]; cbn [peek cu cur_after hd_error].
  { apply eok_error; [assumption|now apply at_end|intros; exact I]. }
  change (mkcursor (rev pre) (c :: r) (position_of pre)) with (cu pre (c :: r)).
  destruct (byte_eqb c x22); [now apply eok_step|].
  destruct (byte_eqb c "$") eqn:E; [|now apply eok_resume].
  apply byte_eqb_eq in E. subst c. apply eok_step; [assumption|]. apply dollar_begins.
Qed.

Lemma bad_name_not s : bad_name s = true -> ~ is_identifier s.
Proof.
  intros H ((c & r & -> & Hl) & Hf & _). cbn [bad_name] in H. apply orb_true_iff in H. destruct H as [H|H].
  - rewrite letter_word_start, Hl in H. discriminate.
  - apply existsb_exists in H. destruct H as (x & Hx & H). rewrite word_byte_is_word in H.
    rewrite Forall_forall in Hf. rewrite (Hf x) in H; [discriminate|]. now right.
Qed.

Lemma reserved_not s : (forall sym, to_token s <> TIdentifier sym) -> ~ is_identifier s.
Proof.
  intros H (_ & _ & Hr). destruct (to_token_cases s) as [E|E]; [now apply (H s)|].
  apply Hr. apply in_map_iff. now exists (s, to_token s).
Qed.

Lemma bad_name_snoc s c : s <> [] -> bad_name (s ++ [c]) = bad_name s || negb (is_word c).
Proof.
  destruct s as [|x s]; [congruence|]. intros _. cbn [app bad_name]. rewrite existsb_app. cbn [existsb].
  rewrite orb_false_r, orb_assoc. reflexivity.
Qed.

Lemma bad_name_word s : Forall (fun c => is_word c = true) s -> existsb (fun c => negb (is_word c)) s = false.
Proof. induction 1 as [|c s H Hs IH]; cbn; [reflexivity|]. now rewrite H, IH. Qed.

Lemma dollar_e {C} src (self : dollar C -> state) (retc : C -> state) push d pre rest :
  src = pre ++ rest -> dollar_inv pre d ->
  (forall d p, dollar_inv p d -> einv src (self d) p) -> (forall x p, einv src (retc x) p) ->
  eok src pre rest (visit_dollar self retc push d (cu pre rest)).
Proof.
  intros Hs (a & w & Hp & Hpos & Hsh) Hself Hret. unfold visit_dollar. cbv zeta.
  set (off := match d_start d with Some o => o | None => cur_offset (cu pre rest) end).
  assert (Hprod : forall (consume : bool) s, slice_to (cu pre rest) off = s ->
    (consume = true -> rest = [] -> True) ->
    (d_error d = true -> bad_name s = true) ->
    (~ is_identifier s -> about src (mkerror (InvalidIdentifier s) (d_pos d))) ->
    eok src pre rest
     (if match slice_to (cu pre rest) off with [] => true | _ => false end || d_error d then
        tr_error (retc (d_context d)) (mkerror (InvalidIdentifier (slice_to (cu pre rest) off)) (d_pos d))
      else match to_token (slice_to (cu pre rest) off) with
         | TIdentifier sym =>
           if consume then tr_step (retc (push (d_context d) sym (d_pos d)))
           else tr_resume (retc (push (d_context d) sym (d_pos d)))
         | _ =>
           if consume then tr_error (retc (d_context d)) (mkerror (InvalidIdentifier (slice_to (cu pre rest) off)) (d_pos d))
           else tr_resume_error (retc (d_context d)) (mkerror (InvalidIdentifier (slice_to (cu pre rest) off)) (d_pos d))
         end)).
  { intros consume s Hsl _ Hbad Hab. rewrite Hsl.
    destruct (match s with [] => true | _ => false end || d_error d) eqn:E.
    - apply eok_error; [assumption| |auto]. apply Hab. apply bad_name_not. destruct s; [reflexivity|]. now apply Hbad.
    - assert (Herr : (forall sym, to_token s <> TIdentifier sym) -> eok src pre rest
        (if consume then tr_error (retc (d_context d)) (mkerror (InvalidIdentifier s) (d_pos d))
         else tr_resume_error (retc (d_context d)) (mkerror (InvalidIdentifier s) (d_pos d)))).
      { intros H. apply reserved_not in H. destruct consume; [apply eok_error|apply eok_resume_error]; auto. }
      destruct (to_token s) eqn:Et; try (apply Herr; congruence).
      destruct consume; [|now apply eok_resume]. destruct rest; [now apply eok_end|now apply eok_step]. }
  assert (Hto : forall st br er c r w', rest = c :: r -> w' = w ++ [c] -> dollar_shape st br er a w' ->
    eok src pre rest (tr_step (self (mkdollar st br er (d_pos d) (d_context d))))).
  { intros st br er c r w' -> -> H. apply eok_step; [assumption|]. apply Hself. exists a, (w ++ [c]). subst pre.
    rewrite <- app_assoc. cbn. auto. }
  assert (Hoff : forall c r, rest = c :: r -> cur_offset (cu pre rest) = length a + 1 + length w).
  { intros c r _. rewrite offset_cu, Hp, app_length. cbn. lia. }
  destruct rest as [|c r]; cbn [peek cu cur_after hd_error].
  - change (mkcursor (rev pre) [] (position_of pre)) with (cu pre []).
    unfold dollar_shape in Hsh.
    destruct (d_start d) as [o|] eqn:Eo, (d_braces d) as [[|]|] eqn:Eb; try contradiction.
    + apply eok_error; [assumption|now apply at_end|auto].
    + destruct Hsh as (c & s & -> & -> & He & Hf). apply (Hprod true (c :: s)); auto.
      * unfold off. rewrite Hp. change (a ++ "$" :: c :: s) with (a ++ ["$"] ++ c :: s). rewrite app_assoc.
        replace (length a + 1) with (length (a ++ ["$"])) by (rewrite app_length; reflexivity). apply slice_cu.
      * rewrite He. intros H. cbn [bad_name]. now rewrite H.
      * intros Hn. left. cbn [described le_kind le_pos]. split; [assumption|]. left. exists [].
        rewrite Hpos. split; [|cbn; tauto]. apply stands_at. subst. rewrite !app_nil_r. reflexivity.
    + apply eok_error; [assumption|now apply at_end|auto].
    + destruct Hsh as [-> He]. apply (Hprod true []); auto.
      * unfold off. rewrite offset_cu. unfold slice_to, cu. cbn [cur_before]. rewrite rev_involutive. apply skipn_all.
      * intros Hn. left. cbn [described le_kind le_pos]. split; [assumption|]. left. exists [].
        rewrite Hpos. split; [|cbn; tauto]. apply stands_at. subst. rewrite !app_nil_r. reflexivity.
  - change (mkcursor (rev pre) (c :: r) (position_of pre)) with (cu pre (c :: r)).
    unfold dollar_shape in Hsh.
    assert (Hbr : forall s, w = "{" :: s -> c = "}" -> ~ In "}" s -> ~ is_identifier s ->
      about src (mkerror (InvalidIdentifier s) (d_pos d))).
    { intros s -> -> Hi Hn. left. cbn [described le_kind le_pos]. split; [assumption|]. right. exists r.
      rewrite Hpos. split; [|assumption]. apply stands_at. rewrite Hs, Hp. cbn [app]. rewrite <- !app_assoc. cbn [app].
      reflexivity. }
    destruct (d_start d) as [o|] eqn:Eo, (d_braces d) as [[|]|] eqn:Eb; try contradiction.
    + destruct Hsh as (s & -> & Hn & -> & He & Hi). destruct (byte_eqb c "}") eqn:E.
      * apply byte_eqb_eq in E. subst c. apply (Hprod true s); auto.
        -- unfold off. rewrite Hp. change (a ++ "$" :: "{" :: s) with (a ++ ["$"; "{"] ++ s). rewrite app_assoc.
           replace (length a + 2) with (length (a ++ ["$"; "{"])) by (rewrite app_length; reflexivity). apply slice_cu.
        -- congruence.
      * eapply Hto; [reflexivity|reflexivity|]. cbn [dollar_shape app]. exists (s ++ [c]). repeat split; auto.
        -- apply snoc_not_nil.
        -- now rewrite bad_name_snoc, He.
        -- rewrite in_app_iff. cbn. intros [H|[H|[]]]; [auto|]. subst c. discriminate E.
    + destruct Hsh as (x & s & -> & -> & He & Hf). destruct (is_word c) eqn:E.
      * replace d with (mkdollar (d_start d) (d_braces d) (d_error d) (d_pos d) (d_context d)) by (destruct d; reflexivity).
        rewrite Eo, Eb. eapply Hto; [reflexivity|reflexivity|]. cbn [dollar_shape app]. exists x, (s ++ [c]). repeat split; auto.
        apply Forall_app. auto.
      * apply (Hprod false (x :: s)); auto.
        -- unfold off. rewrite Hp. change (a ++ "$" :: x :: s) with (a ++ ["$"] ++ x :: s). rewrite app_assoc.
           replace (length a + 1) with (length (a ++ ["$"])) by (rewrite app_length; reflexivity). apply slice_cu.
        -- rewrite He. intros H. cbn [bad_name]. now rewrite H.
        -- intros Hn. left. cbn [described le_kind le_pos]. split; [assumption|]. left. exists (c :: r).
           rewrite Hpos. split; [|cbn [starts_with]; rewrite <- word_byte_is_word; congruence].
           apply stands_at. rewrite Hs, Hp, <- app_assoc. reflexivity.
    + destruct Hsh as [-> He]. destruct (byte_eqb c "}") eqn:E.
      * apply byte_eqb_eq in E. subst c. apply (Hprod true []); auto.
        -- unfold off. rewrite offset_cu. unfold slice_to, cu. cbn [cur_before]. rewrite rev_involutive. apply skipn_all.
      * eapply Hto; [reflexivity|reflexivity|]. cbn [dollar_shape app]. exists [c].
        rewrite (Hoff c r eq_refl), He. cbn. repeat split; [discriminate|lia|now rewrite orb_false_r|].
        intros [H|[]]. subst c. discriminate E.
    + destruct Hsh as [-> He]. destruct (byte_eqb c "{") eqn:E.
      * apply byte_eqb_eq in E. subst c. eapply Hto; [reflexivity|reflexivity|]. cbn. auto.
      * eapply Hto; [reflexivity|reflexivity|]. cbn [dollar_shape app]. exists c, [].
        rewrite (Hoff c r eq_refl), He. cbn. repeat split; [lia|constructor].
Qed.

Lemma visit_e src s pre rest :
  src = pre ++ rest -> einv src s pre -> eok src pre rest (visit s (cu pre rest)).
Proof.
  intros Hs H. destruct s.
  - now apply root_e.
  - now apply comment_e.
  - now apply number_e.
  - now apply byte_e.
  - now apply string_e.
  - now apply word_e.
  - now apply symbol_e.
  - now apply command_e.
  - now apply comment_e.
  - now apply argument_e.
  - cbn [visit]. apply expansion_e; auto.
    + intros e' p H1 _. cbn. rewrite H1. exact H.
    + intros k. eexists. split; [reflexivity|]. intros; exact I.
    + eexists. split; [reflexivity|]. intros; exact I.
  - cbn [visit]. destruct H as [H1 H2]. apply expansion_e; auto.
    + intros e' p H3 H4. cbn. rewrite H3, H4. auto.
    + intros k. eexists. split; [reflexivity|]. intros; exact I.
    + eexists. split; [reflexivity|]. intros. cbn. rewrite H2. exact I.
  - now apply single_e.
  - now apply double_e.
  - cbn [visit]. apply (argword_e src unquoted_escapes); [cbn; tauto|apply unquoted_table|assumption|intros; assumption| | |exact H].
    + intros x v. eexists. split; [reflexivity|]. intros; exact I.
    + intros c Hn. unfold arg_expansion_start. destruct (is_expansion_start c); [|exact I].
      apply eok_resume; [assumption|]. cbn. split; [|assumption]. exists pre, rest. auto.
  - cbn [visit]. apply (argword_e src single_quoted_escapes); [cbn; tauto|apply single_table|assumption|intros; assumption| | |exact H].
    + intros x v. eexists. split; [reflexivity|]. intros; exact I.
    + intros; exact I.
  - cbn [visit]. apply (argword_e src double_quoted_escapes); [cbn; tauto|apply double_table|assumption|intros; assumption| | |exact H].
    + intros x v. eexists. split; [reflexivity|]. intros; exact I.
    + intros; exact I.
  - cbn [visit]. apply dollar_e; auto. intros; exact I.
  - cbn [visit]. apply dollar_e; auto. intros; exact I.
  - now apply command_symbol_e.
Qed.

Lemma rounds_e src n : forall s pre rest,
  src = pre ++ rest -> einv src s pre ->
  forall e, In (ErrTok e) (outputs (lex_rounds n (at_ s pre rest))) -> about src e.
Proof.
  induction n as [|n IH]; intros s pre rest Hs H e; [contradiction|].
  cbn [lex_rounds]. unfold lex_round. cbn [at_ au_state au_cursor].
  pose proof (visit_e src s pre rest Hs H) as V. destruct (visit s (cu pre rest)) as [t|]; [|contradiction].
  cbn [eok] in V. destruct V as (pre' & rest' & H1 & H2 & H3 & H4). rewrite H2.
  change (mkauto (t_state t) (cu pre' rest')) with (at_ (t_state t) pre' rest').
  destruct (t_out t) as [o|] eqn:Eo.
  - intros Hi.
    assert (Hi' : ErrTok e = o \/ In (ErrTok e) (outputs (lex_rounds n (at_ (t_state t) pre' rest')))).
    { destruct (lex_rounds n (at_ (t_state t) pre' rest')); cbn in Hi |- *; intuition. }
    destruct Hi' as [<-|Hi']; [exact H4|].
    eapply IH; [exact H1| |exact Hi']. apply H3. right. discriminate.
  - destruct rest as [|c r]; cbn [is_eof cu cur_after]; [contradiction|].
    apply IH; [exact H1|]. apply H3. left. discriminate.
Qed.

Lemma lex_errors_about src e : In (ErrTok e) (outputs (lex src)) -> about src e.
Proof. apply (rounds_e src (lex_fuel src) SRoot [] src); [reflexivity|exact I]. Qed.

Lemma number_misplaced : exists src e, In (ErrTok e) (outputs (lex src)) /\
  le_kind e = Unexpected "x" /\ ~ described src e.
Proof.
  exists ["1"; "."; "x"], (mkerror (Unexpected "x") (mkpos 1 0)).
  split; [vm_compute; auto|]. split; [reflexivity|].
  intros (rest & pre & H1 & H2). cbn [le_pos] in H2.
  destruct pre as [|a pre]; [discriminate|].
  assert (H : In NL (a :: pre)).
  { cbn [app] in H1. destruct (in_dec Byte.byte_eq_dec NL (a :: pre)) as [H|H]; [assumption|exfalso].
    assert (L : forall l, ~ In NL l -> l <> [] -> bytes_until_nl l <> 0%N).
    { intros [|x l] Hx Hn; [congruence|]. cbn [bytes_until_nl]. destruct (Byte.eqb x NL) eqn:E; [|lia].
      exfalso. apply Hx. left. now apply Byte.byte_dec_bl. }
    apply (L (rev (a :: pre))).
    - now rewrite <- in_rev.
    - cbn [rev]. destruct (rev pre); discriminate.
    - injection H2 as _ H2. now symmetry. }
  assert (H' : In NL ["1"; "."; "x"]) by (rewrite H1; apply in_or_app; now left).
  cbn in H'. repeat (destruct H' as [H'|H']; [discriminate|]). contradiction.
Qed.

Lemma escape_misplaced : exists src e s, In (ErrTok e) (outputs (lex src)) /\
  le_kind e = InvalidEscapeSequence s /\ ~ described src e.
Proof.
  exists ["{"; " "; BSLASH; "e"; "f"; " "; "}"], (mkerror (InvalidEscapeSequence [BSLASH; "e"; "f"]) (mkpos 1 2)).
  eexists. split; [vm_compute; auto|]. split; [reflexivity|].
  intros (c & rest & H & _). discriminate.
Qed.
