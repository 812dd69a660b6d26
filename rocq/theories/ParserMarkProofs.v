(** How far the parser has read the tokens, and when it has reported errors. *)
From Coq Require Import Strings.String.
From Verif Require Import Base Lexer Ast Program Sema Value Text StdLib SpecReport Parser SpecLexer SpecParser LexerProofs ParserTermProofs.
From Coq Require Import Lia Sorting.Sorted.

(** Errors were reported before reading on. *)
Definition timely (s : pstate) : Prop :=
  StronglySorted (fun a b => fst b <= fst a) (ps_errors s) /\ Forall (fun e => ps_left s <= fst e) (ps_errors s).
(** Without an error there is a token unless all have been read. *)
Definition reading (s : pstate) : Prop := ps_errors s = [] -> ps_token s = None -> ps_left s = 0.

Section Keeps.
Variable ts : list token.

(** The error is about the token at hand when [m] is the number for how far the tokens are read. *)
Definition at_mark (m : nat) (e : perror) : Prop :=
  match subject e with
  | Some t => exists pre rest, ts = pre ++ t :: rest /\ length rest <= m <= S (length rest)
  | None => e <> PInvalidEnvAssign
  end.
Lemma at_mark_about m e : at_mark m e -> about ts e.
Proof.
  destruct e as [|t x|p|]; cbn; auto.
  - intros (pre & rest & -> & _). apply in_or_app. right. now left.
  - intros (pre & rest & -> & _). apply in_or_app. right. now left.
Qed.

(** Tokens and errors are from the source. *)
Definition within (s : pstate) : Prop :=
  (exists pre, ts = pre ++ (match ps_token s with Some t => [t] | None => [] end) ++ ps_rest s) /\
  length (ps_rest s) <= ps_left s <= S (length (ps_rest s)) /\ Forall (fun e => at_mark (fst e) (snd e)) (ps_errors s).
Definition fine (s : pstate) : Prop := timely s /\ within s /\ reading s.
Definition after {A} (r : res A) : Prop :=
  match r with Ok _ s' => fine s' | Er e _ s' => timely s' /\ within s' /\ at_mark (ps_left s') e | PFuel => True end.
Definition keeps {A} (f : P A) : Prop := forall s, fine s -> after (f s).
Definition keeps_at {A} (t : option token) (f : P A) : Prop := forall s, fine s -> ps_token s = t -> after (f s).

Lemma timely_less t r k k' es t' r' : timely (mkps t r k es) -> k' <= k -> timely (mkps t' r' k' es).
Proof. unfold timely. cbn. intros [H0 H] L. split; [exact H0|]. eapply Forall_impl; [|exact H]. cbn. intros a. lia. Qed.
Lemma within_rest l k es : (exists pre, ts = pre ++ l) -> length (tl l) <= k <= S (length (tl l)) ->
  Forall (fun e => at_mark (fst e) (snd e)) es -> within (mkps (hd_error l) (tl l) k es).
Proof. intros [pre I] L E. split; [|split; [exact L|exact E]]; cbn. exists pre. rewrite I. now destruct l. Qed.
Lemma keeps_weaken {A} t (f : P A) : keeps f -> keeps_at t f.
Proof. intros H s F _. now apply H. Qed.

Lemma keeps_ret {A} (a : A) : keeps (ret a).
Proof. intros s H; exact H. Qed.
Lemma keeps_fail {A} e y t : subject e = Some t -> keeps_at (Some t) (@fail A e y).
Proof.
  intros E s (H1 & H2 & _) T. split; [exact H1|]. split; [exact H2|]. unfold at_mark. rewrite E. destruct H2 as ([pre P] & L & _). rewrite T in P.
  exists pre, (ps_rest s). split; [exact P|exact L].
Qed.
Lemma keeps_fail_eof {A} y t : keeps_at t (@fail A PUnexpectedEof y).
Proof. intros s (H1 & H2 & _) T. split; [exact H1|]. split; [exact H2|]. discriminate. Qed.
Lemma keeps_fuel {A} : keeps (@out_of_fuel A).
Proof. intros s _; exact I. Qed.
Lemma keeps_step : keeps step.
Proof.
  intros [t r k es] (H & ([pre Q] & L & E) & R). cbn in *. split; [apply (timely_less _ _ _ _ _ _ _ H); lia|]. split.
  - apply within_rest; [|destruct r; cbn in *; lia|exact E]. eexists. rewrite app_assoc in Q. exact Q.
  - unfold reading; cbn. intros _. destruct r; [cbn; lia|discriminate].
Qed.
Lemma keeps_peek : keeps ppeek.
Proof.
  intros [t r k es] (H & (Q & L & E) & R). cbn in *. split; [apply (timely_less _ _ _ _ _ _ _ H); lia|]. split; [split; [exact Q|split; [cbn; lia|exact E]]|].
  unfold reading in *; cbn in *. intros E0 F. specialize (R E0 F). lia.
Qed.
Lemma keeps_bind {A B} (m : P A) (k : A -> P B) : keeps m -> (forall a, keeps (k a)) -> keeps (bind m k).
Proof.
  intros Hm Hk s H. unfold bind. specialize (Hm s H). destruct (m s) as [a s1|e y s1|]; auto. exact (Hk a s1 Hm).
Qed.
Lemma keeps_with_token {A} (k : option token -> P A) : (forall t, keeps_at t (k t)) -> keeps (with_token k).
Proof. intros H s K. now apply H. Qed.
Lemma keeps_with_token_at {A} t (k : option token -> P A) : keeps_at t (k t) -> keeps_at t (with_token k).
Proof. intros H s K T. unfold with_token. rewrite T. now apply H. Qed.
Lemma skip_suffix y l : exists pre, l = pre ++ skip_tokens y l.
Proof.
  assert (G : forall f l, exists pre, l = pre ++ skip_until f l).
  { intros f l0. induction l0 as [|t l0 [pre IH]]; cbn; [exists []; reflexivity|]. destruct (f _); [exists [t]; reflexivity|exists (t :: pre); cbn; now rewrite <- IH]. }
  destruct y; cbn; try apply G; [exists []; reflexivity|]. destruct l as [|t l]; [exists []|exists [t]]; reflexivity.
Qed.
Lemma sorted_last {A} (R : A -> A -> Prop) l x : StronglySorted R l -> Forall (fun a => R a x) l -> StronglySorted R (l ++ [x]).
Proof.
  induction 1 as [|a l S IH F]; intros G; cbn; [repeat constructor|]. inversion G; subst. constructor; [now apply IH|]. apply Forall_app. split; [exact F|]. now constructor.
Qed.
Lemma fine_sync e y s : timely s -> within s -> at_mark (ps_left s) e -> fine (sync e y s).
Proof.
  intros [S H] ([pre Q] & L & E) A. assert (E' : Forall (fun e => at_mark (fst e) (snd e)) (ps_errors s ++ [(ps_left s, e)])).
  { apply Forall_app. split; [exact E|]. constructor; [exact A|constructor]. }
  assert (S' : StronglySorted (fun a b => fst b <= fst a) (ps_errors s ++ [(ps_left s, e)])) by (apply sorted_last; assumption).
  split; [|split].
  - unfold sync. destruct s as [t r k es]. unfold timely in *; cbn [ps_token ps_rest ps_left ps_errors] in *. destruct t as [t|]; cbn [ps_left ps_errors]; (split; [exact S'|]).
    + apply Forall_app. split; [eapply Forall_impl; [|exact H]; cbn; intros; lia|]. constructor; [cbn; lia|constructor].
    + apply Forall_app. split; [exact H|]. constructor; [cbn; lia|constructor].
  - unfold sync. destruct (ps_token s) as [t|] eqn:T.
    + destruct (skip_suffix y (t :: ps_rest s)) as [pre' P]. apply within_rest; [|cbv zeta|exact E'].
      * exists (pre ++ pre'). rewrite <- app_assoc, <- P. exact Q.
      * apply (f_equal (@length token)) in P. rewrite app_length in P. cbn [length] in P.
        destruct (skip_tokens y (t :: ps_rest s)) as [|t' l] eqn:K; cbn [length tl] in *; [lia|].
        assert (pre' = [] \/ 1 <= length pre') as [->|] by (destruct pre'; cbn; [now left|right; lia]); cbn [length] in *; lia.
    + split; [exists pre; exact Q|]. split; [exact L|exact E'].
  - unfold reading, sync. destruct (ps_token s); cbn; intros C; destruct (ps_errors s); discriminate.
Qed.
Lemma keeps_synchronize {A} (ill : A) m : keeps m -> keeps (synchronize ill m).
Proof. intros H s K. unfold synchronize. specialize (H s K). destruct (m s); auto. destruct H as (H1 & H2 & H3). now apply fine_sync. Qed.
Lemma keeps_with_sync {A} y (m : P A) : keeps m -> keeps (with_sync y m).
Proof. intros H s K. unfold with_sync. specialize (H s K). destruct (m s); auto. Qed.
Lemma keeps_synchronize_at {A} t (ill : A) m : keeps_at t m -> keeps_at t (synchronize ill m).
Proof. intros H s K T. unfold synchronize. specialize (H s K T). destruct (m s); auto. destruct H as (H1 & H2 & H3). now apply fine_sync. Qed.
Lemma keeps_with_sync_at {A} t y (m : P A) : keeps_at t m -> keeps_at t (with_sync y m).
Proof. intros H s K T. unfold with_sync. specialize (H s K T). destruct (m s); auto. Qed.
Lemma keeps_force {A} (m : P A) : keeps m -> keeps (force_sync_skip m).
Proof. intros H s K. unfold force_sync_skip. specialize (H s K). destruct (m s); auto. destruct y; auto. Qed.
Lemma keeps_eat {A} (f : token -> A + perror) : (forall t e, f t = inr e -> subject e = Some t) -> keeps (eat f).
Proof.
  intros H. unfold eat. apply keeps_with_token. intros [t|]; [|apply keeps_fail_eof].
  destruct (f t) eqn:E; [apply keeps_weaken, keeps_bind; [apply keeps_step|intros; apply keeps_ret]|apply keeps_fail; eapply H; eassumption].
Qed.
Lemma keeps_expect k : keeps (expect k).
Proof. apply keeps_eat. intros t e. destruct (kind_eqb _ _); [discriminate|]. intros Q. injection Q as <-. reflexivity. Qed.
Lemma keeps_identifier : keeps parse_identifier.
Proof. apply keeps_with_sync, keeps_eat. intros t e. destruct (tk_kind t); intros Q; try discriminate; injection Q as <-; reflexivity. Qed.
Lemma keeps_take_fail {A} e y t : subject e = Some t -> keeps_at (Some t) (bind take_token (fun _ => @fail A e y)).
Proof.
  intros E [t0 r k es] (H & ([pre Q] & L & F) & _) T. cbn in *. subst t0. split; [exact H|]. split.
  - split; [exists (pre ++ [t]); cbn; rewrite <- app_assoc; exact Q|]. split; [exact L|exact F].
  - unfold at_mark. rewrite E. exists pre, r. split; [exact Q|exact L].
Qed.

#[local] Hint Resolve keeps_ret keeps_fuel keeps_step keeps_peek keeps_bind keeps_with_token
  keeps_synchronize keeps_with_sync keeps_force keeps_expect keeps_identifier : keeps.

Ltac keeps1 :=
  match goal with
  | |- keeps_at _ (bind take_token (fun _ => fail _ _)) => apply keeps_take_fail; reflexivity
  | |- keeps_at _ (fail PUnexpectedEof _) => apply keeps_fail_eof
  | |- keeps_at _ (fail _ _) => apply keeps_fail; reflexivity
  | |- keeps_at _ (with_token _) => apply keeps_with_token_at
  | |- keeps_at _ (synchronize _ _) => apply keeps_synchronize_at
  | |- keeps_at _ (with_sync _ _) => apply keeps_with_sync_at
  | |- keeps_at _ (match ?x with _ => _ end) => destruct x
  | |- keeps_at _ _ => apply keeps_weaken
  | |- keeps (bind _ _) => apply keeps_bind; [|intros]
  | |- keeps (with_token _) => apply keeps_with_token; intros
  | |- keeps (synchronize _ _) => apply keeps_synchronize
  | |- keeps (with_sync _ _) => apply keeps_with_sync
  | |- keeps (force_sync_skip _) => apply keeps_force
  | |- keeps (match ?x with _ => _ end) => destruct x
  | |- _ => solve [auto with keeps]
  end.
Ltac keeps := repeat keeps1.

Lemma keeps_sep_by {A} n (ill : A) parse sep stop : keeps parse -> keeps (sep_by n ill parse sep stop).
Proof. intros H. induction n; cbn [sep_by]; keeps. Qed.
Lemma keeps_comma_sep {A} n (ill : A) parse stop : keeps parse -> keeps (comma_sep n ill parse stop).
Proof. apply keeps_sep_by. Qed.
Lemma keeps_semicolon_sep {A} n (ill : A) parse stop : keeps parse -> keeps (semicolon_sep n ill parse stop).
Proof. apply keeps_sep_by. Qed.
#[local] Hint Resolve keeps_sep_by keeps_comma_sep keeps_semicolon_sep : keeps.
Lemma keeps_argument : keeps parse_argument.
Proof. apply keeps_eat. intros t e. destruct (tk_kind t); intros Q; try discriminate; injection Q as <-; reflexivity. Qed.
#[local] Hint Resolve keeps_argument : keeps.
Lemma keeps_env_assign : keeps parse_env_assign.
Proof. unfold parse_env_assign; keeps. Qed.
#[local] Hint Resolve keeps_env_assign : keeps.
Lemma keeps_env n : keeps (parse_env n).
Proof. induction n; cbn [parse_env]; keeps. Qed.
Lemma keeps_fd : keeps parse_file_descriptor.
Proof. unfold parse_file_descriptor; keeps. Qed.
#[local] Hint Resolve keeps_env keeps_fd : keeps.
Lemma keeps_output_redirection n : keeps (parse_output_redirection n).
Proof. unfold parse_output_redirection; keeps. Qed.
#[local] Hint Resolve keeps_output_redirection : keeps.
Lemma keeps_redirection : keeps parse_redirection.
Proof. unfold parse_redirection; keeps. Qed.
#[local] Hint Resolve keeps_redirection : keeps.
Lemma keeps_operators n : keeps (parse_operators n).
Proof. induction n; cbn [parse_operators]; keeps. Qed.
Lemma keeps_redirection_next : keeps is_redirection_next.
Proof. unfold is_redirection_next; keeps. Qed.
#[local] Hint Resolve keeps_operators keeps_redirection_next : keeps.
Lemma keeps_arguments n : keeps (parse_arguments n).
Proof. induction n; cbn [parse_arguments]; keeps. Qed.
#[local] Hint Resolve keeps_arguments : keeps.
Lemma keeps_basic n : keeps (parse_basic_command n).
Proof. unfold parse_basic_command; keeps. Qed.
#[local] Hint Resolve keeps_basic : keeps.
Lemma keeps_pipe n b : keeps b -> keeps (parse_pipe n b).
Proof. intros H; induction n; cbn [parse_pipe]; keeps. Qed.
#[local] Hint Resolve keeps_pipe : keeps.
Lemma keeps_command n : keeps (parse_command n).
Proof. unfold parse_command; keeps. Qed.
#[local] Hint Resolve keeps_command : keeps.
Lemma keeps_command_block n : keeps (parse_command_block n).
Proof.
  unfold parse_command_block. apply keeps_bind; [|intros; keeps].
  apply keeps_with_sync, keeps_eat. intros t e. destruct (block_kind_of _); intros Q; try discriminate; injection Q as <-; reflexivity.
Qed.
#[local] Hint Resolve keeps_command_block : keeps.
Lemma keeps_expect_sync k y : keeps (expect_sync k y).
Proof. unfold expect_sync; keeps. Qed.
Lemma keeps_expect_keep k y : keeps (expect_keep k y).
Proof. unfold expect_keep; keeps. Qed.
#[local] Hint Resolve keeps_expect_sync keeps_expect_keep : keeps.

Section MonoBodies.
  Variables (n : nat) (pe : P expr) (pb : P block).
  Hypotheses (Hpe : keeps pe) (Hpb : keeps pb).
  Lemma keeps_function : keeps (parse_function n pb).
  Proof.
    unfold parse_function. apply keeps_bind; [|intros; keeps].
    intros s K. pose proof (keeps_expect TOpenParens s K) as H. destruct (expect TOpenParens s) as [? ?|? ? ?|]; auto. destruct H as (H1 & H2 & H3). now apply fine_sync.
  Qed.
  Hint Resolve keeps_function : keeps.
  Lemma keeps_condblock m : keeps (parse_condblock pe pb m).
  Proof. induction m; cbn [parse_condblock]; keeps. Qed.
  Lemma keeps_dict_item : keeps (parse_dict_item pe).
  Proof. unfold parse_dict_item; keeps. Qed.
  Hint Resolve keeps_condblock keeps_dict_item : keeps.
  Lemma keeps_primary : keeps (parse_primary n pe pb).
  Proof. unfold parse_primary; keeps. Qed.
  Lemma keeps_postfix_loop m e : keeps (postfix_loop n pe m e).
  Proof. revert e; induction m; intros; cbn [postfix_loop]; keeps. Qed.
  Hint Resolve keeps_primary keeps_postfix_loop : keeps.
  Lemma keeps_postfix : keeps (parse_postfix n pe pb).
  Proof. unfold parse_postfix; keeps. Qed.
  Hint Resolve keeps_postfix : keeps.
  Lemma keeps_prefix m : keeps (parse_prefix n pe pb m).
  Proof. induction m; cbn [parse_prefix]; keeps. Qed.
  Lemma keeps_binop_loop m higher check e : keeps higher -> keeps (binop_loop m higher check e).
  Proof. intros H. revert e; induction m; intros; cbn [binop_loop]; keeps. Qed.
  Hint Resolve keeps_prefix keeps_binop_loop : keeps.
  Lemma keeps_binop higher check : keeps higher -> keeps (parse_binop n higher check).
  Proof. unfold parse_binop; intros; keeps. Qed.
  Hint Resolve keeps_binop : keeps.
  Lemma keeps_expression_body : keeps (expression_body n pe pb).
  Proof. unfold expression_body. repeat apply keeps_binop. keeps. Qed.
  Lemma keeps_statement : keeps (parse_statement n pe pb).
  Proof. unfold parse_statement; keeps. Qed.
  Hint Resolve keeps_statement : keeps.
  Lemma keeps_block_loop m : keeps (block_loop n pe pb m).
  Proof. induction m; cbn [block_loop]; keeps. Qed.
End MonoBodies.
#[local] Hint Resolve keeps_function keeps_condblock keeps_dict_item keeps_primary keeps_postfix_loop keeps_postfix
  keeps_prefix keeps_binop_loop keeps_binop keeps_expression_body keeps_statement keeps_block_loop : keeps.

Lemma keeps_both n : keeps (parse_expression n) /\ keeps (parse_block n).
Proof.
  induction n as [|n [IHe IHb]]; [split; intros s _; exact I|]. split.
  - cbn [parse_expression]. apply keeps_expression_body; [intros s; apply IHe|intros s; apply IHb].
  - cbn [parse_block]. apply keeps_bind; [|intros; apply keeps_ret].
    apply keeps_block_loop; [intros s; apply IHe|intros s; apply IHb].
Qed.

Lemma keeps_expression n : keeps (parse_expression n).
Proof. apply keeps_both. Qed.
Lemma keeps_block n : keeps (parse_block n).
Proof. apply keeps_both. Qed.


Lemma keeps_program n m : keeps (parse_program n (parse_block m)).
Proof.
  induction n as [|n IH]; cbn [parse_program]; [intros s _; exact I|].
  apply keeps_bind; [apply keeps_block|]. intros b. apply keeps_with_token. intros [t|]; [|apply keeps_weaken, keeps_ret].
  destruct (is_block_terminator (tk_kind t)); [|apply keeps_weaken; exact IH].
  intros [t' r k es] (H & ([pre Q] & L & F) & _) T. cbn in *. subst t'. unfold bind, take_token, synchronize, fail. apply IH. apply (fine_sync (unexpected_msg t "statement") YSkipOne (mkps None r k es)); [exact H| |].
  - split; [exists (pre ++ [t]); cbn; rewrite <- app_assoc; exact Q|]. split; [exact L|exact F].
  - exists pre, r. split; [exact Q|exact L].
Qed.
End Keeps.
Lemma fine_new ts : fine ts (pnew ts).
Proof.
  split; [split; constructor|]. split.
  - apply within_rest; [exists []; reflexivity|destruct ts; cbn; lia|constructor].
  - unfold reading, pnew. cbn. intros _. destruct ts; [reflexivity|discriminate].
Qed.
Lemma program_reads_all n m s b s' : parse_program n (parse_block m) s = Ok b s' -> ps_token s' = None.
Proof.
  revert s; induction n as [|n IH]; intros s; cbn [parse_program]; [discriminate|]. unfold bind at 1.
  destruct (parse_block m s) as [b1 s1|e y s1|]; try discriminate. unfold with_token.
  destruct (ps_token s1) as [t|] eqn:E; [|intros Q; injection Q as <- <-; exact E].
  destruct (is_block_terminator (tk_kind t)); [|apply IH]. unfold bind, take_token, synchronize, fail. apply IH.
Qed.

(** ** The errors in turn *)
Lemma reported_by_split m pes es r : reported_by m pes = (es, r) ->
  parser_errors es ++ map snd r = map snd pes /\ lexer_errors es = [] /\
  forall last, Forall (fun e => last <= fst e) pes -> Forall (fun e => last <= fst e) r /\ (m <= last -> r = []).
Proof.
  revert es r; induction pes as [|[k e] pes IH]; cbn [reported_by]; intros es r.
  - intros Q; injection Q as <- <-. repeat split; auto.
  - destruct (m <=? k) eqn:L.
    + destruct (reported_by m pes) as [es1 r1]. intros Q; injection Q as <- <-. destruct (IH _ _ eq_refl) as (I1 & I2 & I3).
      split; [cbn; f_equal; exact I1|]. split; [exact I2|]. intros last F. inversion F; subst. now apply I3.
    + intros Q; injection Q as <- <-. cbn. split; [reflexivity|]. split; [reflexivity|]. intros last F. split; [exact F|].
      intros H. inversion F; subst. cbn in *. apply Nat.leb_gt in L. lia.
Qed.

Lemma in_turn_errors last os : forall pes, Forall (fun e => last <= fst e) pes ->
  parser_errors (in_turn last os pes) = map snd pes /\
  (exists more, lex_errors_of os = lexer_errors (in_turn last os pes) ++ more) /\
  (last = 0 -> lexer_errors (in_turn last os pes) = lex_errors_of os).
Proof.
  induction os as [|o os IH]; intros pes F.
  - cbn [in_turn lex_errors_of flat_map]. split; [|split].
    + induction pes; [reflexivity|]. cbn. f_equal. apply IHpes. now inversion F.
    + exists []. rewrite app_nil_r. clear F. induction pes; [reflexivity|exact IHpes].
    + intros _. clear F. induction pes; [reflexivity|exact IHpes].
  - cbn [in_turn]. set (m := S (length (tokens_of (o :: os)))). destruct (reported_by m pes) as [es r] eqn:E.
    destruct (reported_by_split _ _ _ _ E) as (S1 & S2 & S3). destruct (S3 _ F) as [Fr Nr].
    unfold parser_errors, lexer_errors in *. destruct (m <=? last) eqn:L.
    + apply Nat.leb_le in L. rewrite app_nil_r. rewrite (Nr L) in S1. cbn [map] in S1. rewrite app_nil_r in S1.
      split; [exact S1|]. split; [exists (lex_errors_of (o :: os)); now rewrite S2|]. subst m. lia.
    + destruct (IH r Fr) as (I1 & [more I2] & I3). rewrite !flat_map_app, S2. cbn [app].
      destruct o as [t|e]; cbn [flat_map app lex_errors_of].
      * rewrite I1. split; [exact S1|]. split; [exists more; exact I2|]. intros L0. exact (I3 L0).
      * rewrite I1. split; [exact S1|]. split; [exists more; unfold lex_errors_of in I2; cbn; now rewrite I2|]. intros L0. cbn. now rewrite (I3 L0).
Qed.

Lemma reported_by_sorted m pes es r : reported_by m pes = (es, r) -> StronglySorted (fun a b => fst b <= fst a) pes ->
  exists shown, pes = shown ++ r /\ es = map (fun e => SynParser (snd e)) shown /\ Forall (fun e => m <= fst e) shown /\
    StronglySorted (fun a b => fst b <= fst a) r /\ Forall (fun e => fst e < m) r.
Proof.
  revert es r; induction pes as [|[k e] pes IH]; cbn [reported_by]; intros es r.
  - intros Q _; injection Q as <- <-. exists []. repeat split; constructor.
  - destruct (m <=? k) eqn:L.
    + destruct (reported_by m pes) as [es1 r1]. intros Q S; injection Q as <- <-. inversion S; subst. destruct (IH _ _ eq_refl H1) as (sh & -> & -> & F & S' & F').
      apply Nat.leb_le in L. exists ((k, e) :: sh). repeat split; auto.
    + intros Q S; injection Q as <- <-. apply Nat.leb_gt in L. exists []. repeat split; auto.
      inversion S; subst. constructor; [exact L|]. eapply Forall_impl; [|exact H2]. cbn. intros a. lia.
Qed.
Lemma only_parser (l : list (nat * perror)) es1 e es2 : map (fun e => SynParser (snd e)) l = es1 ++ SynParser e :: es2 ->
  lexer_errors es1 = [] /\ exists m, In (m, e) l.
Proof.
  revert es1; induction l as [|[m e0] l IH]; intros [|x es1] Q; try discriminate; cbn in Q; injection Q as E Q.
  - subst. split; [reflexivity|]. exists m. now left.
  - subst. destruct (IH _ Q) as [I1 [m' I2]]. split; [exact I1|]. exists m'. now right.
Qed.
Lemma app_split {A} (a b c d : list A) x : a ++ b = c ++ x :: d ->
  (exists d', a = c ++ x :: d' /\ d = d' ++ b) \/ (exists c', c = a ++ c' /\ b = c' ++ x :: d).
Proof.
  revert c; induction a as [|y a IH]; intros c Q; [right; exists c; auto|]. destruct c as [|z c]; cbn in Q; injection Q as E Q; subst.
  - left. exists a. auto.
  - destruct (IH _ Q) as [(d' & -> & ->)|(c' & -> & ->)]; [left; exists d'; auto|right; exists c'; auto].
Qed.
Lemma lexer_errors_shown (l : list (nat * perror)) : lexer_errors (map (fun e => SynParser (snd e)) l) = [].
Proof. induction l; [reflexivity|exact IHl]. Qed.
Lemma lexer_errors_app a b : lexer_errors (a ++ b) = lexer_errors a ++ lexer_errors b.
Proof. apply flat_map_app. Qed.

Lemma in_turn_split last os : forall pes es1 e es2, StronglySorted (fun a b => fst b <= fst a) pes ->
  in_turn last os pes = es1 ++ SynParser e :: es2 ->
  exists m os1 os2, In (m, e) pes /\ os = os1 ++ os2 /\ lexer_errors es1 = failures os1 /\
    (S (length (tokens_of os2)) <= m \/ os2 = []) /\
    (forall before o, os1 = before ++ [o] -> m < S (length (tokens_of (o :: os2)))).
Proof.
  induction os as [|o os IH]; intros pes es1 e es2 S Q.
  - cbn [in_turn] in Q. destruct (only_parser _ _ _ _ Q) as [L [m I]]. exists m, [], []. split; [exact I|]. split; [reflexivity|]. split; [exact L|].
    split; [now right|]. intros before o E. destruct before; discriminate.
  - cbn [in_turn] in Q. set (m0 := Datatypes.S (length (tokens_of (o :: os)))) in Q. destruct (reported_by m0 pes) as [es r] eqn:E.
    destruct (reported_by_sorted _ _ _ _ E S) as (sh & -> & -> & Fs & Sr & Fr).
    apply app_split in Q as [(d' & Q & _)|(c' & -> & Q)].
    + destruct (only_parser _ _ _ _ Q) as [L [m I]]. exists m, [], (o :: os). split; [apply in_or_app; now left|]. split; [reflexivity|]. split; [exact L|].
      split; [left; rewrite Forall_forall in Fs; exact (Fs _ I)|]. intros before o' E'. destruct before; discriminate.
    + destruct (m0 <=? last); [destruct c'; discriminate|].
      assert (G : exists es1', lexer_errors c' = failures [o] ++ lexer_errors es1' /\ in_turn last os r = es1' ++ SynParser e :: es2).
      { destruct o as [t|le]; [exists c'; auto|]. destruct c' as [|x c']; cbn in Q; injection Q as Q0 Q; [discriminate|]. subst x. exists c'. auto. }
      destruct G as (es1' & L & Q'). destruct (IH _ _ _ _ Sr Q') as (m & os1 & os2 & I & -> & L1 & L2 & L3).
      exists m, (o :: os1), os2. split; [apply in_or_app; now right|]. split; [reflexivity|]. split.
      { rewrite lexer_errors_app, lexer_errors_shown, L, L1. symmetry. exact (flat_map_app _ [o] os1). }
      split; [exact L2|]. intros before o' E'. destruct os1 as [|x os1].
      * destruct before as [|y before]; [injection E' as ->|destruct before; discriminate]. rewrite Forall_forall in Fr. exact (Fr _ I).
      * destruct before as [|y before]; [discriminate|]. injection E' as -> E'. exact (L3 _ _ E').
Qed.

Lemma tokens_of_app a b : tokens_of (a ++ b) = tokens_of a ++ tokens_of b.
Proof. apply flat_map_app. Qed.
Lemma tokens_split os pre t rest : tokens_of os = pre ++ t :: rest ->
  exists a b, os = a ++ OkTok t :: b /\ tokens_of b = rest.
Proof.
  revert pre; induction os as [|[t0|e] os IH]; intros pre Q; [destruct pre; discriminate| |].
  - change (t0 :: tokens_of os = pre ++ t :: rest) in Q. destruct pre as [|p pre]; cbn in Q; injection Q as E Q; subst.
    + exists [], os. auto.
    + destruct (IH _ Q) as (a & b & -> & H). exists (OkTok p :: a), b. auto.
  - destruct (IH _ Q) as (a & b & -> & H). exists (ErrTok e :: a), b. auto.
Qed.
Lemma in_turn_order last os pes : StronglySorted (fun a b => fst b <= fst a) pes ->
  Forall (fun e => at_mark (tokens_of os) (fst e) (snd e)) pes -> in_source_order os (in_turn last os pes).
Proof.
  intros S F es1 e es2 t Q T. destruct (in_turn_split _ _ _ _ _ _ S Q) as (m & os1 & os2 & I & -> & L & L2 & L3).
  rewrite Forall_forall in F. specialize (F _ I). unfold at_mark in F. cbn [fst snd] in F. rewrite T in F. destruct F as (pre & rest & E & B).
  assert (N : exists mid, tokens_of os1 = pre ++ t :: mid /\ rest = mid ++ tokens_of os2).
  { rewrite tokens_of_app in E. destruct (app_split _ _ _ _ _ E) as [(d' & E1 & E2)|(c' & E1 & E2)]; [eauto|].
    exfalso. destruct L2 as [L2| ->]; [|destruct c'; discriminate]. apply (f_equal (@length token)) in E2. rewrite app_length in E2. cbn in E2. lia. }
  destruct N as (mid & N1 & N2). destruct (tokens_split _ _ _ _ N1) as (a & gap & -> & G). exists a, gap, os2.
  split; [rewrite <- app_assoc; reflexivity|]. split; [rewrite L; unfold failures; now rewrite !flat_map_app|].
  destruct gap as [|g gap] using rev_ind; [cbn; lia|]. clear IHgap.
  specialize (L3 (a ++ OkTok t :: gap) g). rewrite <- app_assoc in L3. specialize (L3 eq_refl).
  change (g :: os2) with ([g] ++ os2) in L3. rewrite tokens_of_app, app_length in *. subst rest. rewrite app_length in B. rewrite <- G in B. rewrite app_length in B.
  assert (length (tokens_of [g]) <= 1) by (destruct g; cbn; lia). lia.
Qed.

(** The list of errors holds all errors of the parser and the first of the lexer, all if the parser
    has none. *)
Lemma analysis_errors src b les pes : analyze src = Analysis b les pes ->
  parser_errors (syntax_errors src) = pes /\
  (exists more, les = lexer_errors (syntax_errors src) ++ more) /\
  (pes = [] -> lexer_errors (syntax_errors src) = les) /\
  Forall (about (tokens_of (outputs (Lexer.lex src)))) pes /\
  in_source_order (outputs (Lexer.lex src)) (syntax_errors src).
Proof.
  unfold analyze, syntax_errors, parse_tokens, parse_tokens_with.
  assert (K : forall os b0 es r, 
    (let n := parser_fuel (tokens_of os) in
     match parse_program n (parse_block n) (pnew (tokens_of os)) with Ok b s => Parsed b (map snd (ps_errors s)) (Nat.eqb (ps_left s) 0) | _ => ParseFuel end)
      = Parsed b0 es r ->
    let l := (let ts := tokens_of os in let n := parser_fuel ts in
      match parse_program n (parse_block n) (pnew ts) with Ok _ s => in_turn (ps_left s) os (ps_errors s) | _ => [] end) in
    parser_errors l = es /\ (exists more, lex_errors_of os = lexer_errors l ++ more) /\ (es = [] -> lexer_errors l = lex_errors_of os) /\ Forall (about (tokens_of os)) es /\
    in_source_order os l).
  { intros os b0 es r. cbv zeta. set (ts := tokens_of os). set (n := parser_fuel ts).
    pose proof (keeps_program ts n n (pnew ts) (fine_new ts)) as K. pose proof (program_reads_all n n (pnew ts)) as N.
    destruct (parse_program n (parse_block n) (pnew ts)) as [b1 s|e y s|]; try discriminate.
    intros Q. injection Q as _ <- _. specialize (N _ _ eq_refl).
    destruct K as ([S T] & (_ & _ & B) & R).
    destruct (in_turn_errors (ps_left s) os (ps_errors s) T) as (I1 & I2 & I3). split; [exact I1|]. split; [exact I2|].
    split; [intros Q; apply I3; apply R; [|exact N]; now apply map_eq_nil in Q|].
    split; [apply Forall_map; eapply Forall_impl; [|exact B]; cbn; intros; eapply at_mark_about; eassumption|].
    now apply in_turn_order. }
  destruct (Lexer.lex src) as [os|os|]; [| |discriminate].
  - specialize (K os). cbv zeta in K. destruct (match parse_program _ _ (pnew (tokens_of os)) with Ok _ _ => _ | _ => _ end) as [b1 es r|]; [|discriminate].
    intros Q. injection Q as <- <- <-. exact (K _ _ _ eq_refl).
  - specialize (K os). cbv zeta in K. destruct (match parse_program _ _ (pnew (tokens_of os)) with Ok _ s => Parsed _ _ _ | _ => _ end) as [b1 es r|]; [|discriminate].
    destruct r; [discriminate|]. intros Q. injection Q as <- <- <-. exact (K _ _ _ eq_refl).
Qed.
Lemma no_errors_iff src b les pes : analyze src = Analysis b les pes ->
  (syntax_errors src = [] <-> les = [] /\ pes = []).
Proof.
  intros A. destruct (analysis_errors _ _ _ _ A) as (P & [more L] & N & _ & _). split.
  - intros E. rewrite E in *. cbn in *. subst pes. split; [symmetry; now apply N|reflexivity].
  - intros [-> ->]. symmetry in L. apply app_eq_nil in L as [L _].
    destruct (syntax_errors src) as [|[e|e] es]; [reflexivity|discriminate|discriminate].
Qed.

(** Without an error of the parser the lexer has been asked for everything. *)
Lemma analysis_done src b les : analyze src = Analysis b les [] -> exists os, Lexer.lex src = LexDone os.
Proof.
  unfold analyze, parse_tokens, parse_tokens_with. destruct (Lexer.lex src) as [os|os|]; [eauto| |discriminate].
  set (ts := tokens_of os). set (n := parser_fuel ts).
  pose proof (keeps_program ts n n (pnew ts) (fine_new ts)) as K. pose proof (program_reads_all n n (pnew ts)) as N.
  destruct (parse_program n (parse_block n) (pnew ts)) as [b1 s|e y s|]; try discriminate. specialize (N _ _ eq_refl).
  destruct K as (_ & _ & R).
  destruct (Nat.eqb (ps_left s) 0) eqn:E; [discriminate|]. intros Q. injection Q as _ _ Q. apply map_eq_nil in Q. rewrite (R Q N) in E. discriminate.
Qed.
