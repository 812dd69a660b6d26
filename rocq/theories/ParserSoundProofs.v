(** When the parser reports no error, the tokens follow the grammar of SpecParser.v. *)
From Coq Require Import Strings.String.
From Verif Require Import Base Lexer Ast Parser SpecLexer SpecParser LexerProofs.
From Coq Require Import Lia.

Definition nerr (s : pstate) : nat := length (ps_errors s).
Definition toks (s : pstate) : list token :=
  match ps_token s with None => [] | Some t => t :: ps_rest s end.

Lemma toks_list ts b es : toks (mkps (hd_error ts) (tl ts) b es) = ts.
Proof. destruct ts; reflexivity. Qed.

(** ** Errors are never taken back *)
Definition mono {A} (f : P A) : Prop :=
  forall s, match f s with Ok _ s' | Er _ _ s' => nerr s <= nerr s' | PFuel => True end.

Lemma mono_ret {A} (a : A) : mono (ret a).
Proof. intros s; apply le_n. Qed.
Lemma mono_fail {A} e y : mono (@fail A e y).
Proof. intros s; apply le_n. Qed.
Lemma mono_fuel {A} : mono (@out_of_fuel A).
Proof. intros s; exact I. Qed.
Lemma mono_step : mono step.
Proof. intros s; apply le_n. Qed.
Lemma mono_peek : mono ppeek.
Proof. intros s; apply le_n. Qed.
Lemma mono_take : mono take_token.
Proof. intros s; apply le_n. Qed.
Lemma mono_bind {A B} (m : P A) (k : A -> P B) : mono m -> (forall a, mono (k a)) -> mono (bind m k).
Proof.
  intros Hm Hk s. unfold bind. specialize (Hm s). destruct (m s) as [a s1|e y s1|]; auto.
  specialize (Hk a s1). destruct (k a s1); lia || auto.
Qed.
Lemma mono_with_token {A} (k : option token -> P A) : (forall t, mono (k t)) -> mono (with_token k).
Proof. intros H s. apply H. Qed.
Lemma nerr_sync e y s : nerr (sync e y s) = S (nerr s).
Proof. unfold sync, nerr. destruct (ps_token s); cbn; rewrite app_length; cbn; lia. Qed.
Lemma mono_synchronize {A} (ill : A) m : mono m -> mono (synchronize ill m).
Proof. intros H s. unfold synchronize. specialize (H s). destruct (m s); auto. rewrite nerr_sync; lia. Qed.
Lemma mono_with_sync {A} y (m : P A) : mono m -> mono (with_sync y m).
Proof. intros H s. unfold with_sync. specialize (H s). destruct (m s); auto. Qed.
Lemma mono_force {A} (m : P A) : mono m -> mono (force_sync_skip m).
Proof. intros H s. unfold force_sync_skip. specialize (H s). destruct (m s); auto. destruct y; auto. Qed.
Lemma mono_eat {A} (f : token -> A + perror) : mono (eat f).
Proof.
  unfold eat. apply mono_with_token. intros [t|]; [|apply mono_fail].
  destruct (f t); [apply mono_bind; [apply mono_step|intros; apply mono_ret]|apply mono_fail].
Qed.
Lemma mono_expect k : mono (expect k).
Proof. apply mono_eat. Qed.
Lemma mono_identifier : mono parse_identifier.
Proof. apply mono_with_sync, mono_eat. Qed.

#[export] Hint Resolve mono_ret mono_fail mono_fuel mono_step mono_peek mono_take mono_bind mono_with_token
  mono_synchronize mono_with_sync mono_force mono_eat mono_expect mono_identifier : mono.

Ltac mono1 :=
  match goal with
  | |- mono (bind _ _) => apply mono_bind; [|intros]
  | |- mono (with_token _) => apply mono_with_token; intros
  | |- mono (synchronize _ _) => apply mono_synchronize
  | |- mono (with_sync _ _) => apply mono_with_sync
  | |- mono (force_sync_skip _) => apply mono_force
  | |- mono (match ?x with _ => _ end) => destruct x
  | |- _ => solve [auto with mono]
  end.
Ltac mono := repeat mono1.

Lemma mono_sep_by {A} n (ill : A) parse sep stop : mono parse -> mono (sep_by n ill parse sep stop).
Proof. intros H. induction n; cbn [sep_by]; mono. Qed.
Lemma mono_comma_sep {A} n (ill : A) parse stop : mono parse -> mono (comma_sep n ill parse stop).
Proof. apply mono_sep_by. Qed.
Lemma mono_semicolon_sep {A} n (ill : A) parse stop : mono parse -> mono (semicolon_sep n ill parse stop).
Proof. apply mono_sep_by. Qed.
#[export] Hint Resolve mono_sep_by mono_comma_sep mono_semicolon_sep : mono.
Lemma mono_argument : mono parse_argument.
Proof. apply mono_eat. Qed.
#[export] Hint Resolve mono_argument : mono.
Lemma mono_env_assign : mono parse_env_assign.
Proof. unfold parse_env_assign; mono. Qed.
#[export] Hint Resolve mono_env_assign : mono.
Lemma mono_env n : mono (parse_env n).
Proof. induction n; cbn [parse_env]; mono. Qed.
Lemma mono_fd : mono parse_file_descriptor.
Proof. unfold parse_file_descriptor; mono. Qed.
#[export] Hint Resolve mono_env mono_fd : mono.
Lemma mono_output_redirection n : mono (parse_output_redirection n).
Proof. unfold parse_output_redirection; mono. Qed.
#[export] Hint Resolve mono_output_redirection : mono.
Lemma mono_redirection : mono parse_redirection.
Proof. unfold parse_redirection; mono. Qed.
#[export] Hint Resolve mono_redirection : mono.
Lemma mono_operators n : mono (parse_operators n).
Proof. induction n; cbn [parse_operators]; mono. Qed.
Lemma mono_redirection_next : mono is_redirection_next.
Proof. unfold is_redirection_next; mono. Qed.
#[export] Hint Resolve mono_operators mono_redirection_next : mono.
Lemma mono_arguments n : mono (parse_arguments n).
Proof. induction n; cbn [parse_arguments]; mono. Qed.
#[export] Hint Resolve mono_arguments : mono.
Lemma mono_basic n : mono (parse_basic_command n).
Proof. unfold parse_basic_command; mono. Qed.
#[export] Hint Resolve mono_basic : mono.
Lemma mono_pipe n b : mono b -> mono (parse_pipe n b).
Proof. intros H; induction n; cbn [parse_pipe]; mono. Qed.
#[export] Hint Resolve mono_pipe : mono.
Lemma mono_command n : mono (parse_command n).
Proof. unfold parse_command; mono. Qed.
#[export] Hint Resolve mono_command : mono.
Lemma mono_command_block n : mono (parse_command_block n).
Proof. unfold parse_command_block; mono. Qed.
#[export] Hint Resolve mono_command_block : mono.
Lemma mono_expect_sync k y : mono (expect_sync k y).
Proof. unfold expect_sync; mono. Qed.
Lemma mono_expect_keep k y : mono (expect_keep k y).
Proof. unfold expect_keep; mono. Qed.
#[export] Hint Resolve mono_expect_sync mono_expect_keep : mono.

Section MonoBodies.
  Variables (n : nat) (pe : P expr) (pb : P block).
  Hypotheses (Hpe : mono pe) (Hpb : mono pb).
  Lemma mono_function : mono (parse_function n pb).
  Proof.
    unfold parse_function. apply mono_bind; [|intros; mono].
    intros s. pose proof (mono_expect TOpenParens s). destruct (expect TOpenParens s); auto.
    rewrite nerr_sync; lia.
  Qed.
  Hint Resolve mono_function : mono.
  Lemma mono_condblock m : mono (parse_condblock pe pb m).
  Proof. induction m; cbn [parse_condblock]; mono. Qed.
  Lemma mono_dict_item : mono (parse_dict_item pe).
  Proof. unfold parse_dict_item; mono. Qed.
  Hint Resolve mono_condblock mono_dict_item : mono.
  Lemma mono_primary : mono (parse_primary n pe pb).
  Proof. unfold parse_primary; mono. Qed.
  Lemma mono_postfix_loop m e : mono (postfix_loop n pe m e).
  Proof. revert e; induction m; intros; cbn [postfix_loop]; mono. Qed.
  Hint Resolve mono_primary mono_postfix_loop : mono.
  Lemma mono_postfix : mono (parse_postfix n pe pb).
  Proof. unfold parse_postfix; mono. Qed.
  Hint Resolve mono_postfix : mono.
  Lemma mono_prefix m : mono (parse_prefix n pe pb m).
  Proof. induction m; cbn [parse_prefix]; mono. Qed.
  Lemma mono_binop_loop m higher check e : mono higher -> mono (binop_loop m higher check e).
  Proof. intros H. revert e; induction m; intros; cbn [binop_loop]; mono. Qed.
  Hint Resolve mono_prefix mono_binop_loop : mono.
  Lemma mono_binop higher check : mono higher -> mono (parse_binop n higher check).
  Proof. unfold parse_binop; intros; mono. Qed.
  Hint Resolve mono_binop : mono.
  Lemma mono_expression_body : mono (expression_body n pe pb).
  Proof. unfold expression_body. repeat apply mono_binop. mono. Qed.
  Lemma mono_statement : mono (parse_statement n pe pb).
  Proof. unfold parse_statement; mono. Qed.
  Hint Resolve mono_statement : mono.
  Lemma mono_block_loop m : mono (block_loop n pe pb m).
  Proof. induction m; cbn [block_loop]; mono. Qed.
End MonoBodies.
#[export] Hint Resolve mono_function mono_condblock mono_dict_item mono_primary mono_postfix_loop mono_postfix
  mono_prefix mono_binop_loop mono_binop mono_expression_body mono_statement mono_block_loop : mono.

Lemma mono_both n : mono (parse_expression n) /\ mono (parse_block n).
Proof.
  induction n as [|n [IHe IHb]]; [split; intros s; exact I|]. split.
  - cbn [parse_expression]. apply mono_expression_body; [intros s; apply IHe|intros s; apply IHb].
  - cbn [parse_block]. apply mono_bind; [|intros; apply mono_ret].
    apply mono_block_loop; [intros s; apply IHe|intros s; apply IHb].
Qed.

Lemma mono_expression n : mono (parse_expression n).
Proof. apply mono_both. Qed.
Lemma mono_block n : mono (parse_block n).
Proof. apply mono_both. Qed.

(** ** Results without a new error *)
Definition wp {A} (f : P A) (s : pstate) (Q : A -> list token -> Prop) : Prop :=
  match f s with Ok a s' => nerr s' = nerr s -> Q a (toks s') | _ => True end.

Lemma wp_bind {A B} (m : P A) (k : A -> P B) s Q1 Q :
  mono m -> (forall a, mono (k a)) ->
  wp m s Q1 -> (forall a s1, Q1 a (toks s1) -> wp (k a) s1 Q) -> wp (bind m k) s Q.
Proof.
  intros Hm Hk H1 H2. unfold wp, bind in *. specialize (Hm s).
  destruct (m s) as [a s1|e y s1|] eqn:E; auto.
  specialize (Hk a s1). specialize (H2 a s1).
  destruct (k a s1) as [b s2|e y s2|]; auto. intros He.
  apply H2; [apply H1|]; lia.
Qed.

Lemma wp_ret {A} (a : A) s (Q : A -> list token -> Prop) : Q a (toks s) -> wp (ret a) s Q.
Proof. intros H _; exact H. Qed.
Lemma wp_fail {A} e y s (Q : A -> list token -> Prop) : wp (@fail A e y) s Q.
Proof. exact I. Qed.
Lemma wp_fuel {A} s (Q : A -> list token -> Prop) : wp (@out_of_fuel A) s Q.
Proof. exact I. Qed.

Lemma wp_weaken {A} (f : P A) s (Q Q' : A -> list token -> Prop) :
  wp f s Q -> (forall a r, Q a r -> Q' a r) -> wp f s Q'.
Proof. unfold wp; destruct (f s); auto. Qed.

Lemma wp_token {A} (k : option token -> P A) s (Q : A -> list token -> Prop) :
  (toks s = [] -> wp (k None) s Q) -> (forall t r, toks s = t :: r -> wp (k (Some t)) s Q) ->
  wp (with_token k) s Q.
Proof.
  intros H1 H2. unfold wp, with_token in *. unfold toks in H1, H2.
  destruct (ps_token s); [apply (H2 _ _ eq_refl)|apply (H1 eq_refl)].
Qed.

Lemma wp_step s t r (Q : unit -> list token -> Prop) : toks s = t :: r -> Q tt r -> wp step s Q.
Proof.
  intros H HQ. unfold wp, step. intros _. rewrite toks_list.
  unfold toks in H. destruct (ps_token s); [|discriminate]. injection H as _ ->. exact HQ.
Qed.

Lemma wp_peek s (Q : option token -> list token -> Prop) :
  (forall t r, toks s = t :: r -> Q (hd_error r) (toks s)) -> (toks s = [] -> forall x, Q x []) -> wp ppeek s Q.
Proof.
  intros H1 H2. unfold wp, ppeek. intros _. unfold toks in *; cbn [ps_token ps_rest].
  destruct (ps_token s); [apply (H1 _ _ eq_refl)|apply (H2 eq_refl)].
Qed.

Lemma wp_synchronize {A} (ill : A) m s (Q : A -> list token -> Prop) : mono m -> wp m s Q -> wp (synchronize ill m) s Q.
Proof.
  intros Hm H. unfold wp, synchronize in *. specialize (Hm s). destruct (m s); auto.
  intros E. rewrite nerr_sync in E. lia.
Qed.

Lemma wp_with_sync {A} y (m : P A) s (Q : A -> list token -> Prop) : wp m s Q -> wp (with_sync y m) s Q.
Proof. unfold wp, with_sync; destruct (m s); auto. Qed.

Lemma wp_force {A} (m : P A) s (Q : A -> list token -> Prop) : wp m s Q -> wp (force_sync_skip m) s Q.
Proof. unfold wp, force_sync_skip; destruct (m s); auto. destruct y; auto. Qed.

Lemma wp_eat {A} (f : token -> A + perror) s (Q : A -> list token -> Prop) :
  (forall t r a, toks s = t :: r -> f t = inl a -> Q a r) -> wp (eat f) s Q.
Proof.
  intros H. unfold eat. apply wp_token; [intros; apply wp_fail|]. intros t r E.
  destruct (f t) eqn:Ef; [|apply wp_fail].
  eapply wp_bind; [mono|intros; mono| |].
  - eapply wp_step with (Q := fun _ r' => r' = r); eauto.
  - cbv beta. intros _ s1 E1. apply wp_ret. rewrite E1. eapply H; eauto.
Qed.

Lemma kind_eqb_kw k' k : kind_eqb k' (TKeyword k) = true -> k' = TKeyword k.
Proof. destruct k'; cbn; try discriminate. destruct k0, k; cbn; congruence. Qed.

Definition simple_kind (k : token_kind) : bool :=
  match k with
  | TKeyword _ | TColon | TComma | TOpenParens | TCloseParens | TOpenBracket | TOpenDict | TCloseBracket
  | TCommand | TAsyncCommand | TCaptureCommand | TCloseCommand | TSemicolon | TPipe => true
  | _ => false
  end.

Lemma kind_eqb_eq k' k : kind_eqb k' k = true -> k' = k.
Proof.
  destruct k; try (destruct k'; cbn; congruence). apply kind_eqb_kw.
Qed.

Lemma kind_eqb_refl k : simple_kind k = true -> kind_eqb k k = true.
Proof. destruct k; cbn; try congruence. destruct k; auto. Qed.

Lemma wp_expect k s (Q : pos -> list token -> Prop) :
  (forall p r, toks s = tok k p :: r -> Q p r) -> wp (expect k) s Q.
Proof.
  intros H. apply wp_eat. intros [k' p] r a E. cbn [tk_kind tk_pos].
  destruct (kind_eqb k' k) eqn:Ek; [|discriminate]. apply kind_eqb_eq in Ek as ->.
  intros [= <-]. apply H; auto.
Qed.

Lemma wp_expect_sync k y s (Q : pos -> list token -> Prop) :
  (forall p r, toks s = tok k p :: r -> Q p r) -> wp (expect_sync k y) s Q.
Proof. intros. apply wp_with_sync, wp_expect; auto. Qed.
Lemma wp_expect_keep k y s (Q : pos -> list token -> Prop) :
  (forall p r, toks s = tok k p :: r -> Q p r) -> wp (expect_keep k y) s Q.
Proof. intros. apply wp_synchronize; [mono|]. apply wp_with_sync, wp_expect; auto. Qed.

Lemma wp_identifier s (Q : symbol * pos -> list token -> Prop) :
  (forall x p r, toks s = tok (TIdentifier x) p :: r -> Q (x, p) r) -> wp parse_identifier s Q.
Proof.
  intros H. apply wp_with_sync, wp_eat. intros [k p] r a E. destruct k; try discriminate.
  intros [= <-]. apply H; auto.
Qed.

(** [f] reads tokens related to its result by [G], leaving a rest satisfying [R]. *)
Definition reads {A} (f : P A) (G : list token -> A -> list token -> Prop) : Prop :=
  forall s, wp f s (fun a rest => exists ts, toks s = ts ++ rest /\ G ts a rest).

Ltac wbind := eapply wp_bind; [solve [mono]|intros; solve [mono]| |].
Ltac wstep E :=
  lazymatch type of E with toks _ = _ :: ?r0 =>
    wbind; [eapply (wp_step _ _ _ (fun _ r' => r' = r0)); [exact E|reflexivity]|cbv beta; intros _ ?s ?H] end.
Ltac apps := subst; repeat (rewrite <- ?app_assoc; cbn [app]); try reflexivity.

Lemma sep_by_reads {A} n (ill : A) parse sep stop (G : list token -> A -> Prop)
    (GS : list token -> list A -> Prop) (F : list token -> Prop) :
  mono parse ->
  reads parse (fun ts a rest => G ts a /\ F rest) ->
  GS [] [] ->
  (forall ts a, G ts a -> GS ts [a]) ->
  (forall t1 a t t2 l, sep (tk_kind t) = true -> G t1 a -> GS t2 l -> GS (t1 ++ t :: t2) (a :: l)) ->
  reads (sep_by n ill parse sep stop) (fun ts l rest => GS ts l).
Proof.
  intros Hm Hp Hnil Hone Hcons. induction n as [|n IH]; intros s; [apply wp_fuel|].
  cbn [sep_by].
  assert (Hmain : wp (item <- synchronize ill parse ;;
        with_token (fun t =>
          if match t with Some t => sep (tk_kind t) | None => false end
          then _ <- step ;; items <- sep_by n ill parse sep stop ;; ret (item :: items)
          else ret [item])) s (fun a rest => exists ts, toks s = ts ++ rest /\ GS ts a)).
  { wbind; [apply wp_synchronize; [assumption|apply Hp]|].
    intros a s1 (t1 & E1 & G1 & F1).
    apply wp_token.
    - intros E2. apply wp_ret. exists t1. split; auto.
    - intros t r E2. destruct (sep (tk_kind t)) eqn:Es.
      + wstep E2. wbind; [apply IH|]. intros l s3 (t3 & E3 & G3). apply wp_ret.
        exists (t1 ++ t :: t3). split; [|auto]. rewrite E1, E2, <- H, E3. apps.
      + apply wp_ret. exists t1. split; auto. }
  apply wp_token.
  - intros _; exact Hmain.
  - intros t r E. destruct (stop (tk_kind t)); [|exact Hmain].
    apply wp_ret. exists []. split; auto.
Qed.

Lemma params_reads n : reads (comma_sep n ill_ident parse_identifier TCloseParens) (fun ts ps _ => gparams ts ps).
Proof.
  apply sep_by_reads with (G := fun ts sp => ts = [tok (TIdentifier (fst sp)) (snd sp)]) (F := fun _ => True).
  - mono.
  - intros s. apply wp_identifier. intros x p r E. exists [tok (TIdentifier x) p]. auto.
  - constructor.
  - intros ts [x p] ->. constructor.
  - intros t1 [x p] [k q] t2 l Hk -> Hl. apply kind_eqb_eq in Hk. cbn in Hk; subst. cbn. now constructor.
Qed.

(** ** Commands *)

Definition flush_of (lit : bytes) : list ast_part := match lit with [] => [] | _ => [APUnit (AULiteral lit)] end.

(** Joining with a literal in front. *)
Lemma joined_lit_head a b ps :
  joined (APUnit (AULiteral (a ++ b)) :: ps) = joined (APUnit (AULiteral a) :: APUnit (AULiteral b) :: ps).
Proof.
  cbn [joined]. destruct (joined ps) as [|[[c|]|] r] eqn:E; destruct a as [|x a], b as [|y b]; cbn; rewrite ?app_nil_r; try reflexivity;
  try (rewrite <- app_assoc; reflexivity).
Qed.

Lemma joined_lit_other lit p ps :
  (forall s, p <> APUnit (AULiteral s)) ->
  joined (APUnit (AULiteral lit) :: p :: ps) = flush lit ++ joined (p :: ps).
Proof.
  intros H. cbn [joined]. destruct p as [[c|x q]|e]; [destruct (H c eq_refl)|..]; destruct lit; reflexivity.
Qed.

Lemma build_units_spec us lit rest :
  let '(parts, lit') := build_units us lit in
  parts ++ joined (APUnit (AULiteral lit') :: rest) = joined (APUnit (AULiteral lit) :: map APUnit us ++ rest).
Proof.
  revert lit; induction us as [|[l|x p] us IH]; intros lit; cbn [build_units map].
  - reflexivity.
  - specialize (IH (lit ++ l)). destruct (build_units us (lit ++ l)) as [parts lit'].
    rewrite IH. rewrite joined_lit_head. reflexivity.
  - specialize (IH []). destruct (build_units us []) as [parts lit'].
    cbn [app]. rewrite joined_lit_other by congruence.
    change (match lit with [] => [] | _ => [APUnit (AULiteral lit)] end) with (flush lit).
    rewrite <- app_assoc. f_equal. cbn [app]. f_equal. rewrite IH.
    cbn [joined]. destruct (joined (map APUnit us ++ rest)) as [|[[]|] ?]; reflexivity.
Qed.

Lemma build_parts_spec ps lit : build_parts ps lit = joined (APUnit (AULiteral lit) :: flat_map pieces ps).
Proof.
  revert lit; induction ps as [|p ps IH]; intros lit.
  - cbn. destruct lit; reflexivity.
  - assert (Hnil : forall l, joined (APUnit (AULiteral []) :: l) = joined l).
    { intros l. cbn [joined]. destruct (joined l) as [|[[]|] ?]; reflexivity. }
    destruct p as [[l|x q]|l|us|e|]; cbn [build_parts flat_map pieces app].
    + rewrite IH. apply joined_lit_head.
    + rewrite joined_lit_other by congruence. rewrite IH, Hnil. reflexivity.
    + rewrite IH. apply joined_lit_head.
    + pose proof (build_units_spec us lit (flat_map pieces ps)) as H.
      destruct (build_units us lit) as [parts lit']. rewrite IH. exact H.
    + rewrite joined_lit_other by congruence. rewrite IH, Hnil. reflexivity.
    + rewrite IH. apply joined_lit_head.
Qed.

Lemma build_arg_spec ps p : build_arg ps p = argument_of ps p.
Proof.
  unfold build_arg, argument_of. rewrite build_parts_spec. f_equal.
  cbn [joined]. destruct (joined (flat_map pieces ps)) as [|[[]|] ?]; reflexivity.
Qed.

Lemma wp_argument s (Q : ast_argument -> list token -> Prop) :
  (forall ps p r, toks s = tok (TArgument ps) p :: r -> Q (argument_of ps p) r) -> wp parse_argument s Q.
Proof.
  intros H. apply wp_eat. intros [k p] r a E. destruct k; try discriminate.
  intros [= <-]. rewrite build_arg_spec. apply H; auto.
Qed.

Lemma env_reads n :
  reads (parse_env n) (fun ts env rest => genvironment ts env /\
    match rest with mktoken (TArgument ps) _ :: _ => is_assignment ps = false | _ => True end).
Proof.
  induction n as [|n IH]; intros s; [apply wp_fuel|]. cbn [parse_env].
  eapply wp_bind with (Q1 := fun e rest =>
     match e with
     | Some (key, a) => exists ps p, toks s = tok (TArgument (PUnquoted key :: PEnvAssign :: ps)) p :: rest /\ a = argument_of ps p
     | None => toks s = rest /\ match rest with mktoken (TArgument ps) _ :: _ => is_assignment ps = false | _ => True end
     end); [mono|intros; mono| |].
  - unfold parse_env_assign. apply wp_token; [intros E; apply wp_ret; rewrite E; auto|].
    intros [k p] r E.
    assert (Hd : match k with TArgument ps => is_assignment ps = false | _ => True end ->
                 wp (ret None) s (fun (e : option (arg_unit * ast_argument)) rest =>
       match e with
       | Some (key, a) => exists ps p, toks s = tok (TArgument (PUnquoted key :: PEnvAssign :: ps)) p :: rest /\ a = argument_of ps p
       | None => toks s = rest /\ match rest with mktoken (TArgument ps) _ :: _ => is_assignment ps = false | _ => True end
       end)).
    { intros Hk. apply wp_ret. rewrite E. split; auto. }
    cbn [tk_kind tk_pos]. destruct k; try (apply Hd; exact I).
    destruct parts as [|[] [|[] parts]]; try (apply Hd; reflexivity).
    wstep E. apply wp_ret. rewrite H. exists parts, p. rewrite build_arg_spec. auto.
  - intros [[key a]|] s1 H1.
    + destruct H1 as (ps & p & E1 & ->). wbind; [apply IH|].
      intros env s2 (ts & E2 & G2 & F2). apply wp_ret. eexists (_ :: ts).
      rewrite E1, E2. split; [reflexivity|]. split; [|exact F2]. now constructor.
    + destruct H1 as [E1 F1]. apply wp_ret. exists []. repeat split; auto. constructor.
Qed.

Lemma forallb_digit s : forallb is_ascii_digit s = true <-> is_number_text s.
Proof.
  unfold is_number_text. rewrite Forall_forall, forallb_forall.
  split; intros H x Hx; specialize (H x Hx); rewrite ?digit_is_digit in *; auto.
Qed.

Lemma plus_not_digit : digit x2b = false.
Proof. reflexivity. Qed.

Lemma parse_u8_spec s n : parse_u8 s = Some n <-> fd_text s n.
Proof.
  unfold parse_u8, fd_text.
  assert (Hds : forall ds, match ds with
     | [] => None
     | _ :: _ => if forallb is_ascii_digit ds && (digits_val ds <=? 255)%Z then Some (digits_val ds) else None
     end = Some n <-> ds <> [] /\ is_number_text ds /\ n = decimal_value ds /\ (n <= 255)%Z).
  { intros ds. rewrite <- digits_val_decimal, <- forallb_digit.
    destruct ds as [|d ds]; [split; [discriminate|tauto]|].
    destruct (forallb is_ascii_digit (d :: ds)); cbn [andb];
      [|split; [discriminate|intros (_ & ? & _); discriminate]].
    destruct (Z.leb_spec (digits_val (d :: ds)) 255).
    - split; [intros [= <-]; repeat split; auto; discriminate|]. intros (_ & _ & -> & _); reflexivity.
    - split; [discriminate|]. intros (_ & _ & -> & ?). lia. }
  set (ds := match s with x2b :: ds => ds | _ => s end).
  specialize (Hds ds). cbv zeta. fold ds.
  transitivity (match ds with [] => None | _ :: _ => if forallb is_ascii_digit ds && (digits_val ds <=? 255)%Z then Some (digits_val ds) else None end = Some n).
  { destruct ds; reflexivity. }
  rewrite Hds. split.
  - intros H. exists ds. split; [|exact H]. unfold ds. destruct s as [|[] s]; auto.
  - intros (ds' & Hs & Hne & Hnum & Hv & Hb).
    assert (ds = ds') as ->; [|auto].
    unfold ds. destruct Hs as [->| ->]; [|reflexivity].
    destruct ds' as [|c ds']; [congruence|]. inversion Hnum as [|? ? Hc]; subst.
    destruct c; try reflexivity. discriminate Hc.
Qed.

Lemma fd_reads s :
  wp parse_file_descriptor s (fun fd rest =>
    match fd with
    | Some n => exists l p, toks s = tok (TArgument [PUnquoted (AULiteral l)]) p :: rest /\ fd_text l n
    | None => toks s = rest /\
        match rest with mktoken (TArgument [PUnquoted (AULiteral l)]) _ :: _ => forall n, ~ fd_text l n | _ => True end
    end).
Proof.
  unfold parse_file_descriptor. apply wp_token; [intros E; apply wp_ret; rewrite E; auto|].
  intros [k p] r E. cbn [tk_kind].
  destruct k; try (apply wp_ret; rewrite E; split; auto; fail).
  destruct parts as [|[[l|]| | | |] [|]]; try (apply wp_ret; rewrite E; split; auto; fail).
  destruct (parse_u8 l) as [n|] eqn:El.
  - wstep E. apply wp_ret. exists l, p. rewrite H. split; auto. now apply parse_u8_spec.
  - apply wp_ret. rewrite E. split; auto. intros n Hn. apply parse_u8_spec in Hn. congruence.
Qed.

Lemma output_redirection_reads src a t1 s :
  gsource a t1 src ->
  wp (parse_output_redirection src) s (fun r rest => exists ts, toks s = ts ++ rest /\ gredirection a (t1 ++ ts) r).
Proof.
  intros Hsrc. unfold parse_output_redirection. apply wp_token; [intros; apply wp_fail|].
  intros [k p] r E. cbn [tk_kind]. destruct k; try apply wp_fail. destruct o; try apply wp_fail.
  wstep E. destruct append.
  - wbind.
    + apply wp_with_sync, wp_argument with (Q := fun x rest => exists ps q, toks s0 = tok (TArgument ps) q :: rest /\ x = argument_of ps q).
      intros ps q r' E'. eauto.
    + intros x s2 (ps & q & E2 & ->). apply wp_ret. eexists [_; _].
      rewrite E, <- H, E2. split; [reflexivity|]. now constructor.
  - wbind; [apply fd_reads|]. intros [n|] s2.
    + intros (l & q & E2 & Hl). apply wp_ret. eexists [_; _]. rewrite E, <- H, E2. split; [reflexivity|]. now constructor.
    + intros (E2 & Hno). wbind.
      * apply wp_with_sync, wp_argument with (Q := fun x rest => exists ps q, toks s2 = tok (TArgument ps) q :: rest /\ x = argument_of ps q).
        intros ps q r' E'. eauto.
      * intros x s3 (ps & q & E3 & ->). apply wp_ret. eexists [_; _].
        rewrite E, <- H, E2, E3. split; [reflexivity|]. apply gr_overwrite; auto.
        intros l n -> Hl. rewrite E3 in Hno. apply (Hno n Hl).
Qed.

Lemma redirection_reads (a : bool) s :
  (a = true -> match toks s with mktoken (TArgument ps) _ :: _ => exists x, ps = [PUnquoted (AULiteral x)] /\ is_number_text x | _ => True end) ->
  wp parse_redirection s (fun r rest => exists ts, toks s = ts ++ rest /\ gredirection a ts r).
Proof.
  intros Ha. unfold parse_redirection. apply wp_token; [intros; apply wp_fail|].
  intros [k p] r E. cbn [tk_kind].
  assert (Hd : wp (fd <- parse_file_descriptor ;;
     parse_output_redirection (match fd with Some fd => fd | None => 1%Z end)) s
     (fun r rest => exists ts, toks s = ts ++ rest /\ gredirection a ts r)).
  { wbind; [apply fd_reads|]. intros [n|] s2.
    - intros (l & q & E2 & Hl). eapply wp_weaken; [eapply output_redirection_reads|].
      + eapply gsrc_fd; [|exact Hl]. intros Hat. specialize (Ha Hat). rewrite E2 in Ha.
        destruct Ha as (x & [= ->] & Hx). exact Hx.
      + intros x rest (ts & E3 & G). eexists (_ :: ts). rewrite E2, E3. split; [reflexivity|]. exact G.
    - intros (E2 & _). eapply wp_weaken; [eapply output_redirection_reads; constructor|].
      intros x rest (ts & E3 & G). exists ts. rewrite E2, E3. split; [reflexivity|]. exact G. }
  destruct k; try exact Hd. destruct o; try exact Hd.
  wstep E. wbind.
  - apply wp_with_sync, wp_argument with (Q := fun x rest => exists ps q, toks s0 = tok (TArgument ps) q :: rest /\ x = argument_of ps q).
    intros ps q r' E'. eauto.
  - intros x s2 (ps & q & E2 & ->). apply wp_ret. eexists [_; _].
    rewrite E, <- H, E2. split; [reflexivity|]. now constructor.
Qed.

Definition cmd_stop (ts : list token) : Prop :=
  match ts with mktoken (TSemicolon | TPipe | TCloseCommand) _ :: _ => True | _ => False end.

Lemma operators_reads n (a : bool) s :
  (a = true -> match toks s with mktoken (TArgument ps) _ :: _ => exists x, ps = [PUnquoted (AULiteral x)] /\ is_number_text x | _ => True end) ->
  wp (parse_operators n) s (fun '(rs, abort) rest => exists ts, toks s = ts ++ rest /\ goperators a ts rs abort /\
      (abort = true -> cmd_stop rest)).
Proof.
  revert a s; induction n as [|n IH]; intros a s Ha; [apply wp_fuel|]. cbn [parse_operators].
  apply wp_token; [intros; apply wp_fail|]. intros [k p] r E. cbn [tk_kind].
  destruct (is_basic_command_terminator k) eqn:Ek.
  - apply wp_ret. exists []. split; [reflexivity|]. split; [constructor|]. intros _. rewrite E.
    destruct k; try discriminate; exact I.
  - assert (Hd : wp (r <- synchronize RIllFormed parse_redirection ;;
               '(rs, abort) <- parse_operators n ;;
               ret (r :: rs, abort)) s (fun '(rs, abort) rest => exists ts, toks s = ts ++ rest /\ goperators a ts rs abort /\
                   (abort = true -> cmd_stop rest))).
    { wbind; [apply wp_synchronize; [mono|apply (redirection_reads a); exact Ha]|].
      intros x s1 (t1 & E1 & G1). wbind; [apply (IH false); discriminate|].
      intros [rs abort] s2 (t2 & E2 & G2 & F2). apply wp_ret. exists (t1 ++ t2).
      rewrite E1, E2, app_assoc. split; [reflexivity|]. split; [|exact F2]. econstructor; eauto. }
    destruct k; try exact Hd. destruct o; try exact Hd.
    wstep E. apply wp_ret. eexists [_]. rewrite E, H. split; [reflexivity|]. split; [constructor|discriminate].
Qed.

Lemma redirection_next_reads s :
  wp is_redirection_next s (fun b rest => toks s = rest /\
     if b then match rest with
               | mktoken (TArgument [PUnquoted (AULiteral x)]) _ :: rest' => is_number_text x /\ redirects rest'
               | _ => False
               end
     else match rest with
               | mktoken (TArgument [PUnquoted (AULiteral x)]) _ :: rest' => is_number_text x -> ~ redirects rest'
               | _ => True
               end).
Proof.
  unfold is_redirection_next. apply wp_token; [intros E; apply wp_ret; rewrite E; auto|].
  intros [k p] r E. cbn [tk_kind].
  destruct k; try (apply wp_ret; rewrite E; split; auto; fail).
  destruct parts as [|part [|]]; try (apply wp_ret; rewrite E; split; [reflexivity|destruct a; auto]; destruct u; auto; fail).
  { apply wp_ret; rewrite E; split; auto. }
  2: { apply wp_ret; rewrite E; split; auto. destruct part; auto. destruct u; auto. }
  destruct (is_unquoted_number part) eqn:En.
  - assert (exists x, part = PUnquoted (AULiteral x) /\ is_number_text x) as (x & -> & Hx).
    { destruct part as [[x|]| | | |]; try discriminate. exists x. split; auto. now apply forallb_digit. }
    wbind.
    + apply wp_peek with (Q := fun o rest => rest = toks s /\ o = hd_error r).
      * intros t r' E'. rewrite E in E'. injection E' as _ <-. auto.
      * intros E'. rewrite E in E'. discriminate.
    + intros o s1 (E1 & ->). apply wp_ret. rewrite E1. split; [reflexivity|]. rewrite E.
      destruct r as [|[k' p'] r']; cbn; [tauto|].
      destruct k'; cbn; try tauto. destruct o; cbn; tauto.
  - apply wp_ret. rewrite E. split; [reflexivity|]. destruct part as [[x|]| | | |]; auto.
    intros Hx. apply forallb_digit in Hx. cbn in En. congruence.
Qed.

(** What an arguments list looks like depends on what follows; [rest] is what follows. *)
Lemma arguments_reads n s :
  wp (parse_arguments n) s (fun args rest => exists ts, toks s = ts ++ rest /\ garguments rest ts args /\
    match rest with mktoken (TArgument ps) _ :: _ => exists x, ps = [PUnquoted (AULiteral x)] /\ is_number_text x | _ => True end).
Proof.
  revert s; induction n as [|n IH]; intros s; [apply wp_fuel|]. cbn [parse_arguments].
  wbind; [apply redirection_next_reads|]. intros [] s1 (E1 & H1).
  - apply wp_ret. exists []. split; [exact E1|]. split; [constructor|].
    destruct (toks s1) as [|[k p] r]; auto. destruct k; auto.
    destruct parts as [|[[x|]| | | |] [|]]; try tauto. exists x; tauto.
  - apply wp_token; [intros E2; apply wp_ret; exists []; rewrite E2 in *; repeat split; auto; constructor|].
    intros [k p] r E2.
    assert (Hd : match k with TArgument _ => False | _ => True end -> wp (ret []) s1
      (fun (args : list ast_argument) rest => exists ts, toks s = ts ++ rest /\ garguments rest ts args /\
       match rest with mktoken (TArgument ps) _ :: _ => exists x, ps = [PUnquoted (AULiteral x)] /\ is_number_text x | _ => True end)).
    { intros Hk. apply wp_ret. exists []. split; [exact E1|]. split; [constructor|]. rewrite E2. destruct k; tauto. }
    cbn [tk_kind]. destruct k; try (apply Hd; exact I).
    wbind; [apply wp_argument with (Q := fun x rest => exists ps q, toks s1 = tok (TArgument ps) q :: rest /\ x = argument_of ps q); eauto|].
    intros x s2 (ps & q & E3 & ->). wbind; [apply IH|].
    intros args s3 (ts & E4 & G4 & F4). apply wp_ret. eexists (_ :: ts).
    rewrite E1, E3, E4. split; [reflexivity|]. split; [|exact F4].
    constructor; [|exact G4].
    intros (y & -> & Hy). rewrite E3 in H1. rewrite <- E4. apply H1. exact Hy.
Qed.

Lemma garguments_follow rest rest' ts args :
  (redirects rest' -> redirects rest) -> garguments rest ts args -> garguments rest' ts args.
Proof.
  intros Hr H; induction H; constructor; auto. intros Hx Hn. apply (H Hx).
  destruct ts; cbn in *; auto.
Qed.

Lemma basic_reads n : reads (parse_basic_command n) (fun ts b rest => gbasic ts b /\ (bc_abort b = true -> cmd_stop rest)).
Proof.
  intros s. unfold parse_basic_command.
  wbind; [apply env_reads|]. intros env s1 (t1 & E1 & G1 & F1).
  wbind; [apply wp_with_sync, wp_argument with (Q := fun x rest => exists ps q, toks s1 = tok (TArgument ps) q :: rest /\ x = argument_of ps q); eauto|].
  intros pr s2 (ps & q & E2 & ->).
  wbind; [apply arguments_reads|]. intros args s3 (t3 & E3 & G3 & F3).
  wbind; [apply wp_with_sync, (operators_reads n true); intros _; exact F3|].
  intros [rs abort] s4 (t4 & E4 & G4 & F4). apply wp_ret.
  exists (t1 ++ tok (TArgument ps) q :: t3 ++ t4).
  rewrite E1, E2, E3, E4. split; [now apps|].
  split; [|exact F4]. rewrite E2 in F1. constructor; auto.
  eapply garguments_follow; [|exact G3]. rewrite E4. destruct t4; cbn; tauto.
Qed.

(** After a whole command comes a semicolon or the end of the block, or a [?] ended it. *)
Lemma pipe_reads n m : reads (parse_pipe m (parse_basic_command n)) (fun ts bs rest => gpipe ts bs).
Proof.
  induction m as [|m IH]; intros s; [apply wp_fuel|]. cbn [parse_pipe].
  assert (Hd : wp (ret []) s (fun (a : list basic_command) rest => exists ts, toks s = ts ++ rest /\ gpipe ts a)).
  { apply wp_ret. exists []. split; [reflexivity|constructor]. }
  apply wp_token; [intros _; exact Hd|]. intros [k p] r E. destruct k; try exact Hd.
  wstep E. wbind; [apply wp_synchronize; [mono|apply basic_reads]|].
  intros b s1 (t1 & E1 & G1 & _). wbind; [apply IH|]. intros bs s2 (t2 & E2 & G2). apply wp_ret.
  exists (tok TPipe p :: t1 ++ t2). rewrite E, <- H, E1, E2. split; [now apps|]. now constructor.
Qed.

Lemma command_reads n : reads (parse_command n) (fun ts c rest => gcommand ts c).
Proof.
  intros s. unfold parse_command.
  wbind; [apply wp_synchronize; [mono|apply basic_reads]|]. intros b s1 (t1 & E1 & G1 & _).
  wbind; [apply pipe_reads|]. intros bs s2 (t2 & E2 & G2). apply wp_ret.
  exists (t1 ++ t2). rewrite E1, E2. split; [now apps|]. now constructor.
Qed.

Lemma command_block_reads n s :
  wp (parse_command_block n) s (fun b rest => exists k p ts, toks s = (tok k p :: ts) ++ rest /\ gcommand_block (tok k p :: ts) b p).
Proof.
  unfold parse_command_block. wbind.
  - apply wp_with_sync, wp_eat with (Q := fun kind rest => exists k p, toks s = tok k p :: rest /\ opens k = Some kind).
    intros [k p] r a E. cbn [tk_kind]. destruct (block_kind_of k) eqn:Ek; [|discriminate].
    intros [= <-]. exists k, p. split; auto.
  - intros kind s1 (k & p & E1 & Hk).
    assert (Hd : wp (head <- parse_command n ;;
      tail <- with_token (fun t =>
                match t with
                | Some (mktoken TSemicolon _) =>
                  _ <- step ;; semicolon_sep n ill_command (parse_command n) TCloseCommand
                | _ => ret []
                end) ;;
      _ <- with_sync (YToken TCloseCommand) (expect TCloseCommand) ;;
      ret (mkblock kind head tail)) s1
      (fun b rest => exists k p ts, toks s = (tok k p :: ts) ++ rest /\ gcommand_block (tok k p :: ts) b p)).
    { wbind; [apply command_reads|]. intros c s2 (t2 & E2 & G2).
      eapply wp_bind with (Q1 := fun cs rest => (toks s2 = rest /\ cs = []) \/
          exists q ts, toks s2 = tok TSemicolon q :: ts ++ rest /\ gcommands ts cs); [mono|intros; mono| |].
      - assert (Hn : wp (ret []) s2 (fun cs rest => (toks s2 = rest /\ cs = []) \/
          exists q ts, toks s2 = tok TSemicolon q :: ts ++ rest /\ gcommands ts cs)).
        { apply wp_ret. auto. }
        apply wp_token; [intros; exact Hn|]. intros [k' p'] r E. destruct k'; try exact Hn.
        wstep E. eapply wp_weaken; [apply (sep_by_reads n ill_command (parse_command n)
            (fun k => kind_eqb k TSemicolon) (fun k => kind_eqb k TCloseCommand) gcommand gcommands (fun _ => True))|].
        + mono.
        + intros s3. eapply wp_weaken; [apply command_reads|]. intros a r' (ts & ? & ?); eauto.
        + constructor.
        + constructor; auto.
        + intros t1 a [k' q'] t3 l Hs Ga Gl. apply kind_eqb_eq in Hs. cbn in Hs; subst k'. now constructor.
        + intros cs rest (ts & E3 & G3). right. exists p', ts. rewrite E, <- H, E3. auto.
      - intros cs s3 H3. wbind; [apply wp_with_sync, wp_expect with (Q := fun q rest => toks s3 = tok TCloseCommand q :: rest); auto|].
        intros q s4 E4. apply wp_ret. exists k, p. destruct H3 as [[E3 ->]|(sp & ts & E3 & G3)].
        + exists (t2 ++ [tok TCloseCommand q]). rewrite E1, E2, E3, E4. split; [now apps|]. now constructor.
        + exists (t2 ++ tok TSemicolon sp :: ts ++ [tok TCloseCommand q]).
          rewrite E1, E2, E3, E4. split; [now apps|]. now constructor. }
    apply wp_token; [intros; exact Hd|]. intros [k' p'] r E. destruct k'; try exact Hd. apply wp_fail.
Qed.

(** ** Where expressions stop *)
Definition cont_level (k : token_kind) : option nat :=
  match k with
  | TOpenParens | TOpenBracket | TOperator (ODot | OTry) => Some 1
  | TOperator o => match binop o with Some (l, _) => Some l | None => None end
  | _ => None
  end.

Definition stops (l : nat) (ts : list token) : Prop :=
  match ts with
  | mktoken k _ :: _ => match cont_level k with Some n => l < n | None => True end
  | [] => True
  end.

Definition terminated (ts : list token) : bool :=
  match ts with mktoken k _ :: _ => is_block_terminator k | [] => false end.

Definition block_rest (ss : list statement) (rest : list token) : Prop :=
  rest = [] \/ terminated rest = true \/ (ends_in_return ss /\ stops 9 rest).

Definition gblock (ts : list token) (b : block) (rest : list token) : Prop :=
  exists ss, b = BBlock ss /\ gstatements (terminated rest) ts ss /\ block_rest ss rest.

Scheme gexpr_mut := Minimality for gexpr Sort Prop
with gexprs_mut := Minimality for gexprs Sort Prop
with gitems_mut := Minimality for gitems Sort Prop
with gfunction_mut := Minimality for gfunction Sort Prop
with gcond_mut := Minimality for gcond Sort Prop
with gelse_mut := Minimality for gelse Sort Prop
with gstatement_mut := Minimality for gstatement Sort Prop
with gstatements_mut := Minimality for gstatements Sort Prop.
Combined Scheme grammar_ind from gexpr_mut, gexprs_mut, gitems_mut, gfunction_mut, gcond_mut, gelse_mut,
  gstatement_mut, gstatements_mut.

(** The first token of an expression. *)
Definition starts_expr (ts : list token) : Prop :=
  match ts with
  | mktoken k _ :: ts' =>
    match k with
    | TIdentifier _ | TKeyword (KSelf | KIf) | TLiteral _ | TOpenBracket | TOpenDict | TOpenParens
    | TCommand | TAsyncCommand | TCaptureCommand | TOperator (OMinus | ONot) => True
    | TKeyword KFunction => exists p r, ts' = tok TOpenParens p :: r
    | _ => False
    end
  | [] => False
  end.

Lemma starts_app t1 t2 : starts_expr t1 -> starts_expr (t1 ++ t2).
Proof.
  destruct t1 as [|[k p] t1]; cbn; [tauto|]. destruct k; auto. destruct k; auto.
  intros (q & r & ->). cbn. eauto.
Qed.

Lemma gexpr_starts l ts e : gexpr l ts e -> starts_expr ts.
Proof.
  induction 1; cbn; auto using starts_app.
  - destruct H; cbn. eauto.
  - destruct H; cbn; destruct k; try discriminate; auto.
  - destruct o; try discriminate; auto.
Qed.

(** The first token of a statement or return. *)
Lemma gstatement_not_assign t s b p r : gstatement t s b -> t <> [] /\ t <> tok (TOperator OAssign) p :: r.
Proof.
  intros H; destruct H; try (split; discriminate).
  - apply gexpr_starts in H. destruct t1 as [|[k q] t1]; [destruct H|]. split; [discriminate|].
    intros [= -> _ _]. destruct H.
  - apply gexpr_starts in H. destruct ts as [|[k q] t1]; [destruct H|]. split; [discriminate|].
    intros [= -> _ _]. destruct H.
Qed.

Lemma gstatements_not_assign n ts ss p r : gstatements n ts ss -> ts <> tok (TOperator OAssign) p :: r.
Proof.
  intros H; destruct H; try discriminate.
  destruct (gstatement_not_assign _ _ _ p (match t1 with [] => [] | _ :: t1 => t1 end) H) as [H2 H3].
  destruct t1 as [|t t1]; [congruence|]. intros [= -> _]. congruence.
Qed.

Lemma gstatements_empty n ss : gstatements n [] ss -> ss = [].
Proof.
  remember [] as ts eqn:E. destruct 1; try discriminate; auto.
  destruct (gstatement_not_assign _ _ _ (mkpos 0 0) [] H) as [H2 _]. destruct t1; [congruence|discriminate].
Qed.

Lemma gprogram_not_assign ts b p r : gprogram ts b -> ts <> tok (TOperator OAssign) p :: r.
Proof.
  intros H; destruct H; [eapply gstatements_not_assign; eauto|].
  destruct t1 as [|t t1].
  - apply gstatements_empty in H as ->. destruct H0 as (ss & ? & ? & E). destruct ss; discriminate.
  - intros [= -> _]. eapply gstatements_not_assign in H. apply H. reflexivity.
Qed.

Lemma stops_continues ts ts' :
  stops 9 (ts ++ ts') -> (forall p r, ts <> tok (TOperator OAssign) p :: r) -> continues ts = false.
Proof.
  destruct ts as [|[k p] ts]; cbn; auto. intros H1 H2. destruct k; cbn in *; auto; try lia.
  destruct o; cbn in *; auto; try lia. exfalso; eapply H2; reflexivity.
Qed.

Section SoundBodies.
  Variables (n : nat) (pe : P expr) (pb : P block).
  Hypotheses (Mpe : mono pe) (Mpb : mono pb).
  Hypothesis Hpe : reads pe (fun ts e rest => gexpr 9 ts e /\ stops 9 rest).
  Hypothesis Hpb : reads pb gblock.

  Hint Resolve Mpe Mpb : mono.

  Lemma exprs_reads stop :
    reads (comma_sep n EIllFormed pe stop) (fun ts es _ => gexprs ts es).
  Proof.
    apply sep_by_reads with (G := gexpr 9) (F := stops 9); auto; try constructor; auto.
    intros t1 a [k p] t2 l Hk Ha Hl. apply kind_eqb_eq in Hk. cbn in Hk; subst. now constructor.
  Qed.

  Lemma pe_sync_reads : reads (synchronize EIllFormed pe) (fun ts e rest => gexpr 9 ts e /\ stops 9 rest).
  Proof. intros s. apply wp_synchronize; auto. Qed.

  Lemma items_reads stop :
    reads (comma_sep n (ill_ident, EIllFormed) (parse_dict_item pe) stop) (fun ts es _ => gitems ts es).
  Proof.
    apply sep_by_reads with (F := stops 9) (G := fun ts kv =>
      exists q t1, ts = tok (TIdentifier (fst (fst kv))) (snd (fst kv)) :: tok TColon q :: t1 /\ gexpr 9 t1 (snd kv)).
    - mono.
    - intros s. unfold parse_dict_item.
      wbind; [apply wp_synchronize; [mono|]; apply wp_with_sync, wp_identifier with
        (Q := fun id rest => toks s = tok (TIdentifier (fst id)) (snd id) :: rest); auto|].
      intros id s1 E1.
      wbind; [apply wp_expect_keep with (Q := fun q rest => toks s1 = tok TColon q :: rest); auto|].
      intros q s2 E2. wbind; [apply Hpe|]. intros e s3 (ts & E3 & G3 & F3). apply wp_ret.
      eexists (_ :: _ :: ts). rewrite E1, E2, E3. split; [reflexivity|]. split; [|exact F3]. cbn. eauto.
    - constructor.
    - intros ts [[s p] e] (q & t1 & -> & H). cbn. now constructor.
    - intros ts [[s p] e] [k r] t2 l Hk (q & t1 & -> & H) Hl. apply kind_eqb_eq in Hk. cbn in Hk; subst. cbn.
      now constructor.
  Qed.

  (** A block followed by a keyword that ends it. *)
  Lemma block_then t b rest : gblock t b rest -> terminated rest = true -> exists ss, b = BBlock ss /\ gstatements true t ss.
  Proof. intros (ss & -> & H & _) Ht. rewrite Ht in H. eauto. Qed.

  Lemma function_reads : reads (parse_function n pb) (fun ts pb _ => gfunction ts (fst pb) (snd pb)).
  Proof.
    intros s. unfold parse_function.
    eapply wp_bind with (Q1 := fun b rest => exists p, toks s = tok TOpenParens p :: rest).
    - intros s'. pose proof (mono_expect TOpenParens s'). destruct (expect TOpenParens s'); auto.
      rewrite nerr_sync; lia.
    - intros; mono.
    - pose proof (wp_expect TOpenParens s (fun p rest => toks s = tok TOpenParens p :: rest) ltac:(auto)) as H.
      unfold wp in *. pose proof (mono_expect TOpenParens s).
      destruct (expect TOpenParens s); auto.
      + intros E. eauto.
      + intros E. rewrite nerr_sync in E. lia.
    - intros op s1 (p & E1). wbind; [apply params_reads|]. intros ps s2 (t2 & E2 & G2).
      wbind; [apply wp_expect_keep with (Q := fun q rest => toks s2 = tok TCloseParens q :: rest); auto|].
      intros q s3 E3. wbind; [apply Hpb|]. intros b s4 (t4 & E4 & G4).
      wbind; [apply wp_expect_sync with (Q := fun q rest => toks s4 = kw KEnd q :: rest); auto|].
      intros r s5 E5. apply wp_ret. eexists (_ :: t2 ++ _ :: t4 ++ [_]).
      rewrite E1, E2, E3, E4, E5. split; [now apps|].
      eapply block_then in G4 as (ss & -> & G4); [|rewrite E5; reflexivity]. now constructor.
  Qed.

  Lemma condblock_reads m : reads (parse_condblock pe pb m)
    (fun ts cte rest => gcond ts (fst (fst cte)) (snd (fst cte)) (snd cte) \/ terminated rest = false).
  Proof.
    induction m as [|m IH]; intros s; [apply wp_fuel|]. cbn [parse_condblock].
    wbind; [apply pe_sync_reads|]. intros c s1 (t1 & E1 & G1 & _).
    wbind; [apply wp_expect_keep with (Q := fun q rest => toks s1 = kw KThen q :: rest); auto|].
    intros p s2 E2. wbind; [apply Hpb|]. intros b s3 (t3 & E3 & G3).
    eapply wp_bind with (Q1 := fun e rest => terminated (toks s3) = true /\ exists ts, toks s3 = ts ++ rest /\
       (gelse ts e \/ terminated rest = false)); [mono|intros; mono| |].
    - apply wp_token; [intros; apply wp_fail|]. intros [k q] r E.
      assert (Hf : forall t, wp (A := block) (_ <- take_token ;; fail (unexpected_msg t "end, else or elseif") YBlockTerminator) s3
         (fun e rest => terminated (toks s3) = true /\ exists ts, toks s3 = ts ++ rest /\ (gelse ts e \/ terminated rest = false))).
      { intros; exact I. }
      destruct k; try apply Hf. destruct k; try apply Hf.
      + wstep E. eapply wp_weaken; [apply Hpb|]. intros b' rest (ts & E4 & G4). rewrite E. split; [reflexivity|].
        eexists (_ :: ts). rewrite <- H, E4. split; [reflexivity|].
        destruct (terminated rest) eqn:Et; [left|right; auto].
        eapply block_then in G4 as (ss & -> & G4); auto. now constructor.
      + wstep E. wbind; [apply IH|]. intros [[c' t'] e'] s4 (ts & E4 & G4). apply wp_ret. rewrite E. split; [reflexivity|].
        eexists (_ :: ts). rewrite <- H, E4. split; [reflexivity|]. destruct G4; [left|auto]. now constructor.
      + apply wp_ret. rewrite E. split; [reflexivity|]. exists []. split; [reflexivity|]. left; constructor.
    - intros e s4 (T3 & t4 & E4 & G4). apply wp_ret.
      eexists (t1 ++ _ :: t3 ++ t4). rewrite E1, E2, E3, E4. split; [now apps|]. cbn [fst snd].
      destruct G4 as [G4|G4]; [left|right; exact G4].
      eapply block_then in G3 as (ss & -> & G3); auto. now constructor.
  Qed.

  Lemma primary_reads : reads (parse_primary n pe pb) (fun ts e _ => gexpr 0 ts e).
  Proof.
    intros s. unfold parse_primary. apply wp_token; [intros; apply wp_fail|]. intros [k p] r E.
    assert (Hc : wp (b <- synchronize ill_command_block (parse_command_block n) ;; ret (ECommand b p)) s
       (fun e rest => exists ts, toks s = ts ++ rest /\ gexpr 0 ts e)).
    { wbind; [apply wp_synchronize; [mono|apply command_block_reads]|].
      intros b s1 (k' & p' & ts & E1 & G1). apply wp_ret. rewrite E in E1. injection E1 as <- <- ->.
      exists (tok k p :: ts). rewrite E. split; [reflexivity|]. now constructor. }
    destruct k; try apply wp_fail; try exact Hc.
    - wstep E. apply wp_ret. eexists [_]. rewrite E, H. split; [reflexivity|]. constructor.
    - destruct k; try apply wp_fail.
      + wstep E. wbind; [apply condblock_reads|]. intros [[c t] e] s1 (ts & E1 & G1).
        wbind; [apply wp_expect_sync with (Q := fun q rest => toks s1 = kw KEnd q :: rest); auto|].
        intros q s2 E2. apply wp_ret. eexists (_ :: ts ++ [_]). rewrite E, <- H, E1, E2. split; [now apps|].
        destruct G1 as [G1|G1]; [|rewrite E2 in G1; discriminate]. now constructor.
      + wstep E. wbind; [apply function_reads|]. intros [ps b] s1 (ts & E1 & G1). apply wp_ret.
        eexists (_ :: ts). rewrite E, <- H, E1. split; [now apps|]. now constructor.
      + wstep E. apply wp_ret. eexists [_]. rewrite E, H. split; [reflexivity|]. constructor.
    - wstep E. apply wp_ret. eexists [_]. rewrite E, H. split; [reflexivity|]. constructor.
    - wstep E. wbind; [apply pe_sync_reads|]. intros e s1 (ts & E1 & G1 & _).
      wbind; [apply wp_expect_sync with (Q := fun q rest => toks s1 = tok TCloseParens q :: rest); auto|].
      intros q s2 E2. apply wp_ret. eexists (_ :: ts ++ [_]). rewrite E, <- H, E1, E2. split; [now apps|]. now constructor.
    - wstep E. wbind; [apply exprs_reads|]. intros e s1 (ts & E1 & G1).
      wbind; [apply wp_expect_sync with (Q := fun q rest => toks s1 = tok TCloseBracket q :: rest); auto|].
      intros q s2 E2. apply wp_ret. eexists (_ :: ts ++ [_]). rewrite E, <- H, E1, E2. split; [now apps|]. now constructor.
    - wstep E. wbind; [apply items_reads|]. intros e s1 (ts & E1 & G1).
      wbind; [apply wp_expect_sync with (Q := fun q rest => toks s1 = tok TCloseBracket q :: rest); auto|].
      intros q s2 E2. apply wp_ret. eexists (_ :: ts ++ [_]). rewrite E, <- H, E1, E2. split; [now apps|]. now constructor.
  Qed.

  Lemma postfix_loop_reads m e t0 s :
    gexpr 1 t0 e ->
    wp (postfix_loop n pe m e) s (fun e' rest => exists ts, toks s = ts ++ rest /\ gexpr 1 (t0 ++ ts) e' /\ stops 1 rest).
  Proof.
    revert e t0 s; induction m as [|m IH]; intros e t0 s He; [apply wp_fuel|]. cbn [postfix_loop].
    assert (Hr : stops 1 (toks s) ->
      wp (ret e) s (fun e' rest => exists ts, toks s = ts ++ rest /\ gexpr 1 (t0 ++ ts) e' /\ stops 1 rest)).
    { intros Hs. apply wp_ret. exists []. rewrite app_nil_r. auto. }
    apply wp_token; [intros E; apply Hr; rewrite E; exact I|]. intros [k p] r E.
    rewrite (eq_trans (f_equal (stops 1) E) eq_refl : stops 1 (toks s) = stops 1 (tok k p :: r)) in Hr.
    assert (Hgo : forall s1 e1 t1, toks s = t1 ++ toks s1 -> gexpr 1 (t0 ++ t1) e1 ->
        wp (postfix_loop n pe m e1) s1 (fun e' rest => exists ts, toks s = ts ++ rest /\ gexpr 1 (t0 ++ ts) e' /\ stops 1 rest)).
    { intros s1 e1 t1 E1 G1. eapply wp_weaken; [apply (IH _ _ _ G1)|]. intros e' rest (ts & E2 & G2 & F2).
      exists (t1 ++ ts). rewrite E1, E2, app_assoc. rewrite <- app_assoc in G2. auto. }
    destruct k; try (apply Hr; exact I).
    - destruct o; try (apply Hr; cbn; auto; lia).
      + wstep E. wbind; [apply wp_identifier with (Q := fun id rest => toks s0 = tok (TIdentifier (fst id)) (snd id) :: rest); auto|].
        intros [id ip] s1 E1. cbn [fst snd] in E1. eapply (Hgo s1 _ [_; _]); [rewrite E, <- H, E1; reflexivity|].
        now constructor.
      + wstep E. eapply (Hgo s0 _ [_]); [rewrite E, H; reflexivity|]. now constructor.
    - wstep E. wbind; [apply exprs_reads|]. intros args s1 (ts & E1 & G1).
      wbind; [apply wp_expect_sync with (Q := fun q rest => toks s1 = tok TCloseParens q :: rest); auto|].
      intros q s2 E2. eapply (Hgo s2 _ (_ :: ts ++ [_])); [rewrite E, <- H, E1, E2; now apps|]. now constructor.
    - wstep E. wbind; [apply pe_sync_reads|]. intros f s1 (ts & E1 & G1 & _).
      wbind; [apply wp_expect_sync with (Q := fun q rest => toks s1 = tok TCloseBracket q :: rest); auto|].
      intros q s2 E2. eapply (Hgo s2 _ (_ :: ts ++ [_])); [rewrite E, <- H, E1, E2; now apps|]. now constructor.
  Qed.

  Lemma postfix_reads : reads (parse_postfix n pe pb) (fun ts e rest => gexpr 1 ts e /\ stops 1 rest).
  Proof.
    intros s. unfold parse_postfix. wbind; [apply primary_reads|]. intros e s1 (t1 & E1 & G1).
    eapply wp_weaken; [apply (postfix_loop_reads n e t1)|].
    - apply g_up; [lia|exact G1].
    - intros e' rest (ts & E2 & G2 & F2). exists (t1 ++ ts). rewrite E1, E2, app_assoc. auto.
  Qed.

  Lemma prefix_reads m : reads (parse_prefix n pe pb m) (fun ts e rest => gexpr 2 ts e /\ stops 2 rest).
  Proof.
    induction m as [|m IH]; intros s; [apply wp_fuel|]. cbn [parse_prefix].
    assert (Hp : wp (parse_postfix n pe pb) s (fun e rest => exists ts, toks s = ts ++ rest /\ gexpr 2 ts e /\ stops 2 rest)).
    { eapply wp_weaken; [apply postfix_reads|]. intros e rest (ts & E & G & F). exists ts. split; auto.
      split; [apply g_up; [lia|auto]|]. destruct rest as [|[k p] rest]; auto. cbn in *.
      destruct k; auto; cbn in *; try lia. destruct o; cbn in *; auto; lia. }
    apply wp_token; [intros; exact Hp|]. intros [k p] r E. destruct k; try exact Hp.
    destruct (is_prefix o) eqn:Eo; [|exact Hp].
    wstep E. wbind; [apply IH|]. intros e s1 (ts & E1 & G1 & F1). apply wp_ret. eexists (_ :: ts).
    rewrite E, <- H, E1. split; [reflexivity|]. split; [|exact F1]. constructor; auto. destruct o; try discriminate; reflexivity.
  Qed.

  Lemma binop_reads l check higher :
    (forall o, check o = true <-> exists b, binop o = Some (S l, b)) -> l < 9 -> 2 <= l ->
    mono higher ->
    reads higher (fun ts e rest => gexpr l ts e /\ stops l rest) ->
    reads (parse_binop n higher check) (fun ts e rest => gexpr (S l) ts e /\ stops (S l) rest).
  Proof.
    intros Hcheck Hl Hl2 Mh Hh.
    assert (Hloop : forall m e t0 s, gexpr (S l) t0 e -> stops l (toks s) ->
      wp (binop_loop m higher check e) s (fun e' rest => exists ts, toks s = ts ++ rest /\ gexpr (S l) (t0 ++ ts) e' /\ stops (S l) rest)).
    { induction m as [|m IH]; intros e t0 s He Hs; [apply wp_fuel|]. cbn [binop_loop].
      assert (Hr : stops (S l) (toks s) ->
        wp (ret e) s (fun e' rest => exists ts, toks s = ts ++ rest /\ gexpr (S l) (t0 ++ ts) e' /\ stops (S l) rest)).
      { intros Hs'. apply wp_ret. exists []. rewrite app_nil_r. auto. }
      apply wp_token; [intros E; apply Hr; rewrite E; exact I|]. intros [k p] r E. rewrite E in Hs.
      rewrite (eq_trans (f_equal (stops (S l)) E) eq_refl : stops (S l) (toks s) = stops (S l) (tok k p :: r)) in Hr.
      destruct k; try (apply Hr; cbn in *; auto; lia).
      destruct (check o) eqn:Eo.
      - wstep E. wbind; [apply Hh|]. intros e2 s1 (t2 & E2 & G2 & F2).
        apply Hcheck in Eo as (b & Eb).
        assert (binary_of o = b) as -> by (destruct o; try discriminate; injection Eb; auto).
        eapply wp_weaken; [apply (IH _ (t0 ++ tok (TOperator o) p :: t2))|].
        + econstructor; eauto.
        + exact F2.
        + intros e' rest (ts & E3 & G3 & F3). exists (tok (TOperator o) p :: t2 ++ ts).
          rewrite E, <- H, E2, E3. split; [now apps|]. rewrite <- app_assoc in G3. auto.
      - apply Hr. cbn in Hs |- *.
        destruct (match o with ODot | OTry => _ | _ => _ end) as [x|] eqn:Ex; [|exact I].
        enough (x <> S l) by lia. intros ->.
        assert (check o = true); [|congruence]. apply Hcheck.
        destruct o; cbn in Ex; try discriminate; injection Ex as Ex; try lia; cbn; rewrite <- Ex; eauto. }
    intros s. unfold parse_binop. wbind; [apply Hh|]. intros e s1 (t1 & E1 & G1 & F1).
    eapply wp_weaken; [apply (Hloop n e t1)|].
    - apply g_up; auto.
    - exact F1.
    - intros e' rest (ts & E2 & G2 & F2). exists (t1 ++ ts). rewrite E1, E2, app_assoc. auto.
  Qed.

  Lemma expression_reads : reads (expression_body n pe pb) (fun ts e rest => gexpr 9 ts e /\ stops 9 rest).
  Proof.
    unfold expression_body.
    assert (Hc : forall f l, (forall o, f o = true <-> exists b, binop o = Some (l, b)) ->
             forall o, f o = true <-> exists b, binop o = Some (l, b)) by auto.
    Ltac chk := let o := fresh "o" in intros o; split;
      [destruct o; intros E0; try discriminate E0; cbn; eauto|intros (b & E0); destruct o; try discriminate E0; reflexivity].
    apply binop_reads; [chk|lia|lia|repeat apply mono_binop; mono|].
    apply binop_reads; [chk|lia|lia|repeat apply mono_binop; mono|].
    apply binop_reads; [chk|lia|lia|repeat apply mono_binop; mono|].
    apply binop_reads; [chk|lia|lia|repeat apply mono_binop; mono|].
    apply binop_reads; [chk|lia|lia|repeat apply mono_binop; mono|].
    apply binop_reads; [chk|lia|lia|repeat apply mono_binop; mono|].
    apply binop_reads; [chk|lia|lia|mono|].
    apply prefix_reads.
  Qed.

  (** A statement: a return is told apart. *)
  Definition one_statement (ts : list token) (s : statement) (rest : list token) : Prop :=
    match s with
    | SReturn _ _ => gstatements (terminated rest) ts [s] /\ (terminated rest = true \/ stops 9 rest)
    | _ => exists b, gstatement ts s b /\ (b = true -> stops 9 rest)
    end.

  Lemma statement_reads : reads (parse_statement n pe pb) one_statement.
  Proof.
    intros s. unfold parse_statement. apply wp_token; [intros; apply wp_fail|]. intros [k p] r E.
    assert (Hd : wp (e <- pe ;;
          with_token (fun t =>
            match t with
            | Some (mktoken (TOperator OAssign) p) =>
              _ <- step ;; r <- pe ;; ret (SAssign e r p)
            | _ => ret (SExpr e)
            end)) s (fun a rest => exists ts, toks s = ts ++ rest /\ one_statement ts a rest)).
    { wbind; [apply Hpe|]. intros e s1 (t1 & E1 & G1 & F1).
      assert (Hr : wp (ret (SExpr e)) s1 (fun a rest => exists ts, toks s = ts ++ rest /\ one_statement ts a rest)).
      { apply wp_ret. exists t1. split; auto. exists true. split; [now constructor|auto]. }
      apply wp_token; [intros; exact Hr|]. intros [k' p'] r' E'. destruct k'; try exact Hr. destruct o; try exact Hr.
      wstep E'. wbind; [apply Hpe|]. intros e2 s2 (t2 & E2 & G2 & F2). apply wp_ret.
      exists (t1 ++ tok (TOperator OAssign) p' :: t2). rewrite E1, E', <- H, E2. split; [now apps|].
      exists true. split; [now constructor|auto]. }
    destruct k; try exact Hd. destruct k; try exact Hd; cbn [tk_kind tk_pos].
    - wstep E. wbind; [apply wp_synchronize; [mono|apply wp_identifier with
         (Q := fun id rest => toks s0 = tok (TIdentifier (fst id)) (snd id) :: rest); auto]|].
      intros [x q] s1 E1. cbn [fst snd] in E1.
      eapply wp_bind with (Q1 := fun e rest =>
         (toks s1 = rest /\ e = ELit LNil q) \/
         exists r ts, toks s1 = tok (TOperator OAssign) r :: ts ++ rest /\ gexpr 9 ts e /\ stops 9 rest); [mono|intros; mono| |].
      + assert (Hr : wp (ret (ELit LNil q)) s1 (fun e rest =>
         (toks s1 = rest /\ e = ELit LNil q) \/
         exists r ts, toks s1 = tok (TOperator OAssign) r :: ts ++ rest /\ gexpr 9 ts e /\ stops 9 rest)).
        { apply wp_ret; auto. }
        apply wp_token; [intros; exact Hr|]. intros [k' p'] r' E'. destruct k'; try exact Hr. destruct o; try exact Hr.
        wstep E'. eapply wp_weaken; [apply Hpe|]. intros e rest (ts & E2 & G2 & F2). right. exists p', ts.
        rewrite E', <- H0, E2. auto.
      + intros e s2 [[E2 ->]|(q' & ts & E2 & G2 & F2)]; apply wp_ret.
        * eexists [_; _]. rewrite E, <- H, E1, E2. split; [reflexivity|]. exists false. split; [constructor|discriminate].
        * eexists (_ :: _ :: _ :: ts). rewrite E, <- H, E1, E2. split; [reflexivity|]. exists true. split; [now constructor|auto].
    - wstep E. wbind; [apply wp_synchronize; [mono|apply wp_identifier with
         (Q := fun id rest => toks s0 = tok (TIdentifier (fst id)) (snd id) :: rest); auto]|].
      intros [x q] s1 E1. cbn [fst snd] in E1.
      wbind; [apply wp_expect_keep with (Q := fun q rest => toks s1 = kw KIn q :: rest); auto|]. intros q1 s2 E2.
      wbind; [apply pe_sync_reads|]. intros e s3 (t3 & E3 & G3 & _).
      wbind; [apply wp_expect_keep with (Q := fun q rest => toks s3 = kw KDo q :: rest); auto|]. intros q2 s4 E4.
      wbind; [apply Hpb|]. intros b s5 (t5 & E5 & G5).
      wbind; [apply wp_expect_sync with (Q := fun q rest => toks s5 = kw KEnd q :: rest); auto|]. intros q3 s6 E6.
      apply wp_ret. eexists (_ :: _ :: _ :: t3 ++ _ :: t5 ++ [_]). rewrite E, <- H, E1, E2, E3, E4, E5, E6.
      split; [now apps|]. eapply block_then in G5 as (ss & -> & G5); [|rewrite E6; reflexivity].
      exists false. split; [now constructor|discriminate].
    - wstep E.
      wbind; [apply pe_sync_reads|]. intros e s3 (t3 & E3 & G3 & _).
      wbind; [apply wp_expect_keep with (Q := fun q rest => toks s3 = kw KDo q :: rest); auto|]. intros q2 s4 E4.
      wbind; [apply Hpb|]. intros b s5 (t5 & E5 & G5).
      wbind; [apply wp_expect_sync with (Q := fun q rest => toks s5 = kw KEnd q :: rest); auto|]. intros q3 s6 E6.
      apply wp_ret. eexists (_ :: t3 ++ _ :: t5 ++ [_]). rewrite E, <- H, E3, E4, E5, E6.
      split; [now apps|]. eapply block_then in G5 as (ss & -> & G5); [|rewrite E6; reflexivity].
      exists false. split; [now constructor|discriminate].
    - wbind.
      + apply wp_peek with (Q := fun o rest => rest = toks s /\ o = hd_error r).
        * intros t r' E'. rewrite E in E'. injection E' as _ <-. auto.
        * intros E'. rewrite E in E'. discriminate.
      + intros o s1 (E1 & ->).
        assert (Hd1 : wp (e <- pe ;;
          with_token (fun t =>
            match t with
            | Some (mktoken (TOperator OAssign) p) =>
              _ <- step ;; r <- pe ;; ret (SAssign e r p)
            | _ => ret (SExpr e)
            end)) s1 (fun a rest => exists ts, toks s = ts ++ rest /\ one_statement ts a rest)).
        { wbind; [apply Hpe|]. intros e s2 (t1 & E2 & G1 & F1).
          assert (Hr : wp (ret (SExpr e)) s2 (fun a rest => exists ts, toks s = ts ++ rest /\ one_statement ts a rest)).
          { apply wp_ret. exists t1. split; [congruence|]. exists true. split; [now constructor|auto]. }
          apply wp_token; [intros; exact Hr|]. intros [k' p'] r' E'. destruct k'; try exact Hr. destruct o; try exact Hr.
          wstep E'. wbind; [apply Hpe|]. intros e2 s3 (t2 & E3 & G2 & F2). apply wp_ret.
          exists (t1 ++ tok (TOperator OAssign) p' :: t2). rewrite <- E1, E2, E', <- H, E3. split; [now apps|].
          exists true. split; [now constructor|auto]. }
        destruct r as [|[k' p'] r]; cbn [hd_error]; [exact Hd1|]. destruct k'; try exact Hd1.
        rewrite <- E1 in E. wstep E.
        wbind; [apply wp_identifier with (Q := fun id rest => toks s2 = tok (TIdentifier (fst id)) (snd id) :: rest); auto|].
        intros [x q] s4 E2. cbn [fst snd] in E2.
        wbind; [apply function_reads|]. intros [ps b] s5 (t3 & E3 & G3). apply wp_ret.
        eexists (_ :: _ :: t3). rewrite <- E1, E, <- H, E2, E3. split; [reflexivity|].
        exists false. split; [now constructor|discriminate].
    - wstep E.
      eapply wp_bind with (Q1 := fun e rest =>
         (toks s0 = rest /\ terminated rest = true /\ e = ELit LNil p) \/
         exists ts, toks s0 = ts ++ rest /\ gexpr 9 ts e /\ stops 9 rest); [mono|intros; mono| |].
      + assert (Hr : wp pe s0 (fun e rest =>
         (toks s0 = rest /\ terminated rest = true /\ e = ELit LNil p) \/
         exists ts, toks s0 = ts ++ rest /\ gexpr 9 ts e /\ stops 9 rest)).
        { eapply wp_weaken; [apply Hpe|]. auto. }
        apply wp_token; [intros; exact Hr|]. intros [k' p'] r' E'. cbn [tk_kind].
        destruct (is_block_terminator k') eqn:Et; [|exact Hr]. apply wp_ret. left. rewrite E'. auto.
      + intros e s1 [(E1 & T1 & ->)|(ts & E1 & G1 & F1)]; apply wp_ret.
        * eexists [_]. rewrite E, <- H, E1. split; [reflexivity|]. split; [rewrite T1; apply gss_return_nil|auto].
        * eexists (_ :: ts). rewrite E, <- H, E1. split; [reflexivity|]. split; [now constructor|auto].
    - wstep E. apply wp_ret. eexists [_]. rewrite E, H. split; [reflexivity|]. exists false. split; [constructor|discriminate].
  Qed.

  Lemma block_loop_reads m : reads (block_loop n pe pb m)
    (fun ts ss rest => gstatements (terminated rest) ts ss /\ block_rest ss rest).
  Proof.
    induction m as [|m IH]; intros s; [apply wp_fuel|]. cbn [block_loop].
    assert (Hr : block_rest [] (toks s) -> wp (ret []) s (fun (ss : list statement) rest => exists ts, toks s = ts ++ rest /\
       gstatements (terminated rest) ts ss /\ block_rest ss rest)).
    { intros Hr. apply wp_ret. exists []. split; [reflexivity|]. split; [constructor|exact Hr]. }
    apply wp_token; [intros E; apply Hr; rewrite E; left; reflexivity|]. intros [k p] r E. cbn [tk_kind].
    destruct (is_block_terminator k) eqn:Ek; [apply Hr; rewrite E; right; left; exact Ek|].
    wbind; [apply wp_synchronize; [mono|apply wp_force; apply statement_reads]|].
    intros st s1 (t1 & E1 & G1).
    assert (Hgo : match st with SReturn _ _ => False | _ => True end -> one_statement t1 st (toks s1) ->
       wp (rest <- block_loop n pe pb m ;; ret (st :: rest)) s1 (fun ss rest => exists ts, toks s = ts ++ rest /\
       gstatements (terminated rest) ts ss /\ block_rest ss rest)).
    { intros Hn G. assert (G' : exists b, gstatement t1 st b /\ (b = true -> stops 9 (toks s1))).
      { destruct st; auto. destruct Hn. }
      destruct G' as (b & Gs & Fs). wbind; [apply IH|]. intros ss s2 (t2 & E2 & G2 & F2).
      apply wp_ret. exists (t1 ++ t2). rewrite E1, E2, app_assoc. split; [reflexivity|]. split.
      - econstructor; eauto. intros Hb. eapply (stops_continues _ (toks s2)); [rewrite <- E2; auto|].
        intros q r'. eapply gstatements_not_assign; eauto.
      - destruct F2 as [F2|[F2|[(ss' & e & q & ->) F2]]]; [left; auto|right; left; auto|].
        right; right. split; auto. exists (st :: ss'), e, q. reflexivity. }
    destruct st; try (apply Hgo; [exact I|exact G1]).
    apply wp_ret. destruct G1 as [G1 F1]. exists t1. split; [exact E1|]. split; [exact G1|].
    destruct F1 as [F1|F1]; [right; left; auto|]. right; right. split; [|exact F1]. exists [], e, p0. reflexivity.
  Qed.
End SoundBodies.

Lemma parse_reads n :
  reads (parse_expression n) (fun ts e rest => gexpr 9 ts e /\ stops 9 rest) /\ reads (parse_block n) gblock.
Proof.
  induction n as [|n [IHe IHb]]; [split; intros s; exact I|]. split.
  - cbn [parse_expression]. apply expression_reads; auto; intros s; [apply mono_expression|apply mono_block].
  - intros s. cbn [parse_block].
    eapply wp_bind; [apply mono_block_loop; intros s'; [apply mono_expression|apply mono_block]|intros; mono| |].
    + apply block_loop_reads; auto; intros s'; [apply mono_expression|apply mono_block].
    + intros ss s1 (ts & E & G & F). apply wp_ret. exists ts. split; [exact E|]. exists ss. auto.
Qed.

Lemma mono_program n m : mono (parse_program n (parse_block m)).
Proof.
  induction n; cbn [parse_program]; [intros s; exact I|].
  apply mono_bind; [apply mono_block|]. intros; mono.
Qed.

Lemma program_reads n m s :
  wp (parse_program n (parse_block m)) s (fun b rest => rest = [] /\ gprogram (toks s) b).
Proof.
  revert s; induction n as [|n IH]; intros s; [apply wp_fuel|]. cbn [parse_program].
  pose proof (mono_program n m) as Mp. pose proof (mono_block m) as Mb.
  wbind; [apply (parse_reads m)|]. intros b s1 (ts & E1 & ss & -> & G1 & F1).
  apply wp_token.
  - intros E. apply wp_ret. rewrite E in *. split; auto. rewrite E1, app_nil_r. constructor. exact G1.
  - intros [k p] r E. cbn [tk_kind]. destruct (is_block_terminator k) eqn:Ek.
    + (* an error is reported *)
      unfold wp, bind, take_token, synchronize, fail.
      set (s2 := sync _ _ _).
      assert (nerr s2 = S (nerr s1)) by (unfold s2; rewrite nerr_sync; reflexivity).
      pose proof (Mp s2). destruct (parse_program n (parse_block m) s2) as [b s3|e y s3|]; auto.
      intros. lia.
    + eapply wp_weaken; [apply IH|]. intros b rest [-> G]. split; auto. rewrite E1.
      rewrite E in F1, G1. cbn [terminated] in G1. rewrite Ek in G1.
      destruct F1 as [F1|[F1|[F1 F2]]]; [discriminate|cbn in F1; congruence|].
      apply gp_more with (ss := ss); auto.
      * rewrite E; discriminate.
      * apply (stops_continues _ []); [rewrite app_nil_r, E; exact F2|].
        intros q r'. eapply gprogram_not_assign; eauto.
Qed.

Lemma parse_tokens_sound ts b r : parse_tokens ts = Parsed b [] r -> gprogram ts b.
Proof.
  unfold parse_tokens, parse_tokens_with. set (n := parser_fuel ts). intros H.
  pose proof (program_reads n n (pnew ts)) as Hw. unfold wp in Hw.
  destruct (parse_program n (parse_block n) (pnew ts)) as [b' s|e y s|]; try discriminate.
  injection H as -> He _. apply map_eq_nil in He. unfold pnew, nerr in Hw. rewrite toks_list, He in Hw.
  apply Hw. reflexivity.
Qed.
