(** The parser never runs out of the fuel [parser_fuel]. *)
From Coq Require Import Strings.String.
From Verif Require Import Base Lexer Ast Parser.
From Coq Require Import Lia.

Definition size (s : pstate) : nat :=
  match ps_token s with None => 0 | Some _ => S (length (ps_rest s)) end.

(** [f] finishes from [s]; at most [N] tokens are left on success, at most [M] on error. *)
Definition tot {A} (f : P A) (s : pstate) (N M : nat) : Prop :=
  match f s with Ok _ s' => size s' <= N | Er _ _ s' => size s' <= M | PFuel => False end.

(** The same, and a non-[YKeep] synchronization also leaves at most [N]. *)
Lemma tot_weaken {A} (f : P A) s N M N' M' :
  tot f s N M -> N <= N' -> M <= M' -> tot f s N' M'.
Proof. unfold tot; destruct (f s); lia || auto. Qed.

Lemma tot_ret {A} (a : A) s N M : size s <= N -> tot (ret a) s N M.
Proof. intros; exact H. Qed.

Lemma tot_fail {A} e y s N M : size s <= M -> tot (@fail A e y) s N M.
Proof. intros; exact H. Qed.

Lemma tot_bind {A B} (m : P A) (k : A -> P B) s N1 N M :
  tot m s N1 M -> (forall a s', size s' <= N1 -> tot (k a) s' N M) -> tot (bind m k) s N M.
Proof.
  unfold tot, bind; intros H1 H2. destruct (m s) as [a s'|e y s'|]; auto.
  apply H2; exact H1.
Qed.

Lemma tot_with_sync {A} y (m : P A) s N M : tot m s N M -> tot (with_sync y m) s N M.
Proof. unfold tot, with_sync; destruct (m s); auto. Qed.

Lemma skip_until_len f ts : length (skip_until f ts) <= length ts - 1.
Proof. induction ts as [|t ts IH]; cbn; [lia|]. destruct (f (tk_kind t)); cbn; lia. Qed.

Lemma skip_tokens_len y ts : length (skip_tokens y ts) <= length ts.
Proof.
  destruct y; cbn [skip_tokens]; try (pose proof (skip_until_len (fun t => kind_eqb t k) ts)); try lia;
  try (etransitivity; [apply skip_until_len|lia]).
  destruct ts; cbn; lia.
Qed.

Lemma skip_tokens_len1 y ts : y <> YKeep -> length (skip_tokens y ts) <= length ts - 1.
Proof.
  destruct y; cbn [skip_tokens]; try congruence; intros _; try apply skip_until_len.
  destruct ts; cbn; lia.
Qed.

Lemma size_list ts b es : size (mkps (hd_error ts) (tl ts) b es) = length ts.
Proof. destruct ts; reflexivity. Qed.

Lemma sync_size e y s : size (sync e y s) <= size s.
Proof.
  unfold sync. destruct (ps_token s) as [t|] eqn:E; [|cbn; lia].
  rewrite size_list. etransitivity; [apply skip_tokens_len|]. unfold size; rewrite E; cbn; lia.
Qed.

Lemma sync_size1 e y s : y <> YKeep -> size (sync e y s) <= size s - 1.
Proof.
  intros H. unfold sync. destruct (ps_token s) as [t|] eqn:E; [|cbn; lia].
  rewrite size_list. etransitivity; [apply skip_tokens_len1; auto|]. unfold size; rewrite E; cbn; lia.
Qed.

Lemma tot_synchronize {A} (ill : A) m s N M M' : M <= N -> tot m s N M -> tot (synchronize ill m) s N M'.
Proof.
  unfold tot, synchronize; destruct (m s); intros; auto.
  pose proof (sync_size e y s0); lia.
Qed.

(** After a forced synchronization one token is gone. *)
Lemma tot_synchronize_skip {A} (ill : A) m s N M M' :
  M - 1 <= N -> tot m s N M -> tot (synchronize ill (force_sync_skip m)) s N M'.
Proof.
  unfold tot, synchronize, force_sync_skip; destruct (m s); intros; auto.
  destruct y; lazymatch goal with |- size (sync ?e ?y ?s) <= _ =>
    pose proof (sync_size1 e y s ltac:(discriminate)); lia end.
Qed.

Lemma tot_with_token {A} (k : option token -> P A) s N M :
  tot (k (ps_token s)) s N M -> tot (with_token k) s N M.
Proof. intros H; exact H. Qed.

Lemma size_some s t : ps_token s = Some t -> size s = S (length (ps_rest s)).
Proof. unfold size; intros ->; reflexivity. Qed.

Lemma tot_step s N M : size s - 1 <= N -> size s >= 1 -> tot step s N M.
Proof.
  unfold tot, step, size; cbn. destruct (ps_token s); cbn; [|lia].
  destruct (ps_rest s); cbn; lia.
Qed.

Lemma tot_peek s N M : size s <= N -> tot ppeek s N M.
Proof. intros H; exact H. Qed.

Lemma tot_take s N M : tot take_token s N M.
Proof. unfold tot; cbn; lia. Qed.

Lemma tot_eat {A} (f : token -> A + perror) s N M : size s - 1 <= N -> size s <= M -> tot (eat f) s N M.
Proof.
  intros. unfold eat. apply tot_with_token. destruct (ps_token s) as [t|] eqn:E; [|apply tot_fail; lia].
  pose proof (size_some _ _ E).
  destruct (f t); [|apply tot_fail; lia].
  eapply tot_bind; [apply tot_step with (N := N); lia|]. intros; apply tot_ret; lia.
Qed.

(** A function that never leaves more tokens than it found, and consumes [d] on success. *)
Definition takes {A} (d : nat) (f : P A) (k : nat) : Prop :=
  forall s, size s <= k -> tot f s (size s - d) (size s).

Lemma takes_tot {A} d (f : P A) k s N M :
  takes d f k -> size s <= k -> size s - d <= N -> size s <= M -> tot f s N M.
Proof. intros H ? ? ?. eapply tot_weaken; [apply H|..]; auto. Qed.

Lemma sync_takes {A} d (ill : A) (f : P A) k s N M :
  takes d f k -> size s <= k -> size s <= N -> tot (synchronize ill f) s N M.
Proof. intros H ? ?. eapply tot_synchronize; [|eapply takes_tot; [exact H|..]]; eauto; lia. Qed.

(** [tok E] reads the current token in the goal. *)
Ltac tok E :=
  apply tot_with_token;
  lazymatch goal with |- context [ps_token ?s] =>
    let t := fresh "t" in destruct (ps_token s) as [t|] eqn:E; [pose proof (size_some _ _ E)|] end.

Ltac tstep := eapply tot_bind; [apply tot_step; [apply Nat.le_refl|lia]|intros ? ? ?].

Lemma takes_expect d k n : d <= 1 -> takes d (expect k) n.
Proof. intros ? s ?. apply tot_eat; lia. Qed.

Lemma takes_identifier n : takes 1 parse_identifier n.
Proof. intros s ?. apply tot_with_sync, tot_eat; lia. Qed.

Lemma takes_argument n : takes 1 parse_argument n.
Proof. intros s ?. apply tot_eat; lia. Qed.

Lemma expect_sync_tot k y s N M : size s - 1 <= N -> size s <= M -> tot (expect_sync k y) s N M.
Proof. intros. apply tot_with_sync, tot_eat; lia. Qed.

Lemma expect_keep_tot k y s N M : size s <= N -> tot (expect_keep k y) s N M.
Proof. intros. eapply tot_synchronize; [|apply tot_with_sync, tot_eat]; eauto; lia. Qed.

Lemma sep_by_tot {A} n (ill : A) parse sep stop s N M :
  takes 0 parse (size s) -> size s < n -> size s <= N -> tot (sep_by n ill parse sep stop) s N M.
Proof.
  revert s N M; induction n as [|n IH]; intros s N M Hp Hn HN; [lia|].
  cbn [sep_by]. apply tot_with_token.
  destruct (match ps_token s with Some t => _ | None => _ end); [apply tot_ret; lia|].
  eapply tot_bind; [eapply tot_synchronize; [|apply (Hp s)]; lia|].
  intros a s1 H1. tok E1; [|apply tot_ret; lia].
  destruct (sep (tk_kind t)); [|apply tot_ret; lia].
  tstep. eapply tot_bind; [apply IH with (N := N); [|lia|lia]|].
  - intros s2 ?. apply Hp; lia.
  - intros; apply tot_ret; lia.
Qed.

(** ** Commands *)

Lemma env_assign_tot s N M :
  size s <= N ->
  match parse_env_assign s with
  | Ok (Some _) s' => size s' <= N - 1
  | Ok None s' => size s' <= N
  | Er _ _ s' => size s' <= M
  | PFuel => False
  end.
Proof.
  intros H. unfold parse_env_assign, with_token.
  destruct (ps_token s) as [[k p]|] eqn:E; [|exact H]. pose proof (size_some _ _ E).
  assert (Hs : forall kv : arg_unit * ast_argument, match (_ <- step ;; ret (Some kv)) s with
               | Ok (Some _) s' => size s' <= N - 1 | Ok None s' => size s' <= N
               | Er _ _ s' => size s' <= M | PFuel => False end).
  { intros kv. unfold bind, step, ret. rewrite size_list. lia. }
  cbn [tk_kind]. destruct k; try exact H. destruct parts as [|[] [|[] ?]]; try exact H. apply Hs.
Qed.

Lemma parse_env_tot n s N M : size s < n -> size s <= N -> tot (parse_env n) s N M.
Proof.
  revert s N M; induction n as [|n IH]; intros s N M Hn HN; [lia|].
  cbn [parse_env]. unfold tot, bind.
  pose proof (env_assign_tot s (size s) M (le_n _)) as H.
  destruct (parse_env_assign s) as [[kv|] s1|e y s1|] eqn:E; auto; [|cbn; lia].
  assert (0 < size s).
  { revert E. unfold parse_env_assign, with_token, size. destruct (ps_token s); cbn; [lia|discriminate]. }
  pose proof (IH s1 N M ltac:(lia) ltac:(lia)) as H1. unfold tot in H1.
  destruct (parse_env n s1); auto.
Qed.

Lemma takes_fd n : takes 0 parse_file_descriptor n.
Proof.
  intros s H. unfold parse_file_descriptor. tok E; [|apply tot_ret; lia].
  destruct (tk_kind t); try (apply tot_ret; lia).
  destruct parts as [|[[]| | | |] [|]]; try (apply tot_ret; lia).
  destruct (parse_u8 s0); [|apply tot_ret; lia]. tstep. apply tot_ret; lia.
Qed.

Ltac targ := eapply tot_bind; [apply tot_with_sync; eapply takes_tot; [apply takes_argument with (n := 0)|..]|].

Lemma takes_argument' : forall n s N M, size s - 1 <= N -> size s <= M -> tot (with_sync n parse_argument) s N M.
Proof. intros. apply tot_with_sync, tot_eat; lia. Qed.

Lemma takes_output_redirection fd n : takes 1 (parse_output_redirection fd) n.
Proof.
  intros s H. unfold parse_output_redirection. tok E; [|apply tot_fail; lia].
  destruct (tk_kind t); try (apply tot_fail; lia).
  destruct o; try (apply tot_fail; lia). tstep.
  destruct append.
  - eapply tot_bind; [apply takes_argument' with (N := size s - 1); lia|]. intros; apply tot_ret; lia.
  - eapply tot_bind; [eapply takes_tot; [apply takes_fd with (n := size s)|..]; try apply Nat.le_refl; lia|].
    intros [fd'|] s2 H2; [apply tot_ret; lia|].
    eapply tot_bind; [apply takes_argument' with (N := size s - 1); lia|]. intros; apply tot_ret; lia.
Qed.

Lemma takes_redirection n : takes 1 parse_redirection n.
Proof.
  intros s H. unfold parse_redirection. tok E; [|apply tot_fail; lia].
  assert (Hd : tot (fd <- parse_file_descriptor ;;
                    parse_output_redirection (match fd with Some fd => fd | None => 1%Z end)) s (size s - 1) (size s)).
  { eapply tot_bind; [eapply takes_tot; [apply takes_fd with (n := size s)|..]; try apply Nat.le_refl; lia|].
    intros fd s1 H1. eapply takes_tot; [apply takes_output_redirection with (n := size s)|..]; lia. }
  destruct (tk_kind t); try exact Hd. destruct o; try exact Hd.
  tstep. eapply tot_bind; [apply takes_argument' with (N := size s - 1); lia|]. intros; apply tot_ret; lia.
Qed.

(** A redirection that fails may leave the token that failed in place, but only after having
    consumed another one, except for the error with [YSkipOne]. *)
Lemma redirection_progress (s : pstate) M :
  1 <= size s -> tot (synchronize RIllFormed parse_redirection) s (size s - 1) M.
Proof.
  intros Hs. unfold tot, synchronize.
  assert (Ho : forall fd s', 1 <= size s' -> match parse_output_redirection fd s' with
             | Er e y s2 => size (sync e y s2) <= size s' - 1 | _ => True end).
  { intros fd s' H'. unfold parse_output_redirection, with_token.
    destruct (ps_token s') as [[k p]|] eqn:E; [|unfold size in H'; rewrite E in H'; lia].
    pose proof (size_some _ _ E).
    assert (Hf : forall t, size (sync (unexpected_msg t "output redirection") YSkipOne s') <= size s' - 1).
    { intros; apply sync_size1; discriminate. }
    cbn [tk_kind]. destruct k; try (apply Hf). destruct o; try (apply Hf).
    unfold bind at 1.
    destruct (step s') as [u s2|e y s2|] eqn:E2; [|discriminate|exact I].
    pose proof (tot_step s' (size s' - 1) 0 (le_n _) ltac:(lia)) as Ht. unfold tot in Ht; rewrite E2 in Ht.
    destruct append.
    - pose proof (takes_argument' YKeep s2 (size s2) (size s2) ltac:(lia) (le_n _)) as H3.
      unfold tot, bind in *. destruct (with_sync YKeep parse_argument s2); cbn; auto.
      pose proof (sync_size e y s0); lia.
    - pose proof (takes_fd (size s2) s2 (le_n _)) as H3. unfold tot in H3. unfold bind at 1.
      destruct (parse_file_descriptor s2) as [[fd'|] s3|e y s3|]; cbn; auto.
      2: { pose proof (sync_size e y s3); lia. }
      pose proof (takes_argument' YKeep s3 (size s3) (size s3) ltac:(lia) (le_n _)) as H4.
      unfold tot, bind in *. destruct (with_sync YKeep parse_argument s3); cbn; auto.
      pose proof (sync_size e y s0); lia. }
  pose proof (takes_redirection (size s) s (le_n _)) as Ht. unfold tot in Ht.
  destruct (parse_redirection s) as [r s1|e y s1|] eqn:E; auto.
  revert E. unfold parse_redirection, with_token.
  destruct (ps_token s) as [[k p]|] eqn:E0; [|unfold size in Hs; rewrite E0 in Hs; lia].
  assert (Hd : (fd <- parse_file_descriptor ;;
                    parse_output_redirection (match fd with Some fd => fd | None => 1%Z end)) s = Er e y s1 ->
               size (sync e y s1) <= size s - 1).
  { unfold bind. pose proof (takes_fd (size s) s (le_n _)) as H3. unfold tot in H3.
    unfold parse_file_descriptor, with_token in *. rewrite E0 in *. cbn [tk_kind] in *.
    pose proof (size_some _ _ E0).
    assert (Hstay : forall fd, parse_output_redirection fd s = Er e y s1 -> size (sync e y s1) <= size s - 1).
    { intros fd Hx. pose proof (Ho fd s ltac:(lia)) as H4. rewrite Hx in H4. exact H4. }
    destruct k; try (apply Hstay). destruct parts as [|[[]| | | |] [|]]; try (apply Hstay).
    destruct (parse_u8 s0) as [fd'|]; [|apply Hstay]. unfold bind, step, ret. intros Hx.
    pose proof (takes_output_redirection fd' (size s) (mkps (hd_error (ps_rest s)) (tl (ps_rest s)) (Nat.min (ps_left s) (length (ps_rest s))) (ps_errors s))) as H4.
    rewrite size_list in H4. specialize (H4 ltac:(lia)). unfold tot in H4. rewrite Hx in H4.
    pose proof (sync_size e y s1); lia. }
  cbn [tk_kind]. destruct k; try (exact Hd). destruct o; try (exact Hd).
  pose proof (size_some _ _ E0).
  unfold bind, step at 1. intros Hx.
  pose proof (takes_argument' YKeep (mkps (hd_error (ps_rest s)) (tl (ps_rest s)) (Nat.min (ps_left s) (length (ps_rest s))) (ps_errors s)) _ _ (Nat.le_sub_l _ _) (le_n _)) as H4.
  rewrite size_list in H4. unfold tot in H4.
  destruct (with_sync YKeep parse_argument _) as [a s2|e2 y2 s2|]; try discriminate; [].
  injection Hx as <- <- <-. pose proof (sync_size e2 y2 s2); lia.
Qed.

Lemma parse_operators_tot n s N M : size s < n -> size s <= N -> size s <= M -> tot (parse_operators n) s N M.
Proof.
  revert s N M; induction n as [|n IH]; intros s N M Hn HN HM; [lia|].
  cbn [parse_operators]. tok E; [|apply tot_fail; lia].
  destruct (is_basic_command_terminator _); [apply tot_ret; lia|].
  assert (Hd : tot (r <- synchronize RIllFormed parse_redirection ;;
                    '(rs, abort) <- parse_operators n ;; ret (r :: rs, abort)) s N M).
  { eapply tot_bind; [apply redirection_progress; lia|]. intros r s1 H1.
    eapply tot_bind; [apply IH with (N := N); lia|]. intros [rs ab] s2 H2. apply tot_ret; lia. }
  destruct (tk_kind t); try exact Hd. destruct o; try exact Hd.
  tstep. apply tot_ret; lia.
Qed.

Lemma redirection_next_tot s N M : size s <= N -> tot is_redirection_next s N M.
Proof.
  intros. unfold is_redirection_next. tok E; [|apply tot_ret; lia].
  destruct (tk_kind t); try (apply tot_ret; lia). destruct parts as [|? [|]]; try (apply tot_ret; lia).
  destruct (is_unquoted_number a); [|apply tot_ret; lia].
  eapply tot_bind; [apply tot_peek; apply Nat.le_refl|]. intros. apply tot_ret; lia.
Qed.

Lemma parse_arguments_tot n s N M : size s < n -> size s <= N -> size s <= M -> tot (parse_arguments n) s N M.
Proof.
  revert s N M; induction n as [|n IH]; intros s N M Hn HN HM; [lia|].
  cbn [parse_arguments].
  eapply tot_bind; [apply redirection_next_tot; apply Nat.le_refl|].
  intros [] s1 H1; [apply tot_ret; lia|].
  tok E; [|apply tot_ret; lia]. destruct (tk_kind t); try (apply tot_ret; lia).
  eapply tot_bind; [apply tot_eat with (N := size s - 1); lia|]. intros a s2 H2.
  eapply tot_bind; [apply IH with (N := N); lia|]. intros; apply tot_ret; lia.
Qed.

Lemma takes_basic_command n k : k < n -> takes 1 (parse_basic_command n) k.
Proof.
  intros Hk s Hs. unfold parse_basic_command.
  eapply tot_bind; [apply parse_env_tot with (N := size s); lia|]. intros env s1 H1.
  eapply tot_bind; [apply takes_argument' with (N := size s - 1); lia|]. intros pr s2 H2.
  eapply tot_bind; [apply parse_arguments_tot with (N := size s - 1); lia|]. intros ar s3 H3.
  eapply tot_bind; [apply tot_with_sync, parse_operators_tot with (N := size s - 1); lia|]. intros [rs ab] s4 H4.
  apply tot_ret; lia.
Qed.

Lemma parse_pipe_tot n basic s N M :
  takes 0 basic (size s) -> size s < n -> size s <= N -> tot (parse_pipe n basic) s N M.
Proof.
  revert s N M; induction n as [|n IH]; intros s N M Hb Hn HN; [lia|].
  cbn [parse_pipe]. tok E; [|apply tot_ret; lia].
  destruct t as [[] p]; try (apply tot_ret; lia).
  tstep.
  eapply tot_bind; [eapply sync_takes; [apply Hb|lia|apply Nat.le_refl]|].
  intros b s2 H2. eapply tot_bind; [apply IH with (N := N); [intros s3 ?; apply Hb; lia|lia|lia]|].
  intros; apply tot_ret; lia.
Qed.

Lemma takes_weaken {A} d d' (f : P A) k : d' <= d -> takes d f k -> takes d' f k.
Proof. intros Hd H s Hs. eapply tot_weaken; [apply H; auto|lia..]. Qed.

Lemma takes_command n k : k < n -> takes 0 (parse_command n) k.
Proof.
  intros Hk s Hs. unfold parse_command.
  eapply tot_bind; [eapply sync_takes with (N := size s); [apply takes_basic_command with (k := k)|..]; lia|].
  intros h s1 H1.
  eapply tot_bind; [apply parse_pipe_tot with (N := size s)|].
  - eapply (takes_weaken 1); [|apply takes_basic_command]; lia.
  - lia.
  - lia.
  - intros; apply tot_ret; lia.
Qed.

Lemma takes_command_block n k : k < n -> takes 1 (parse_command_block n) k.
Proof.
  intros Hk s Hs. unfold parse_command_block.
  eapply tot_bind; [apply tot_with_sync, tot_eat with (N := size s - 1); lia|]. intros kind s1 H1.
  assert (Hd : tot (head <- parse_command n ;;
      tail <- with_token (fun t =>
                match t with
                | Some (mktoken TSemicolon _) =>
                  _ <- step ;; semicolon_sep n ill_command (parse_command n) TCloseCommand
                | _ => ret []
                end) ;;
      _ <- with_sync (YToken TCloseCommand) (expect TCloseCommand) ;;
      ret (mkblock kind head tail)) s1 (size s - 1) (size s)).
  { eapply tot_bind; [eapply takes_tot; [apply takes_command with (k := k)|..]; try apply Nat.le_refl; lia|].
    intros h s2 H2.
    eapply tot_bind with (N1 := size s - 1).
    - tok E2; [|apply tot_ret; lia]. destruct t as [[] p]; try (apply tot_ret; lia).
      tstep. apply sep_by_tot; [|lia|lia]. apply takes_command; lia.
    - intros tl s3 H3. eapply tot_bind; [apply tot_with_sync, tot_eat with (N := size s - 1); lia|].
      intros; apply tot_ret; lia. }
  tok E; [|exact Hd]. destruct t as [[] p]; try exact Hd. apply tot_fail; lia.
Qed.

(** ** Expressions and statements *)
Section Bodies.
  Variable n : nat.
  Variable pe : P expr.
  Variable pb : P block.
  Variable k : nat.
  Hypothesis Hn : S k < n.
  Hypothesis Hpe : takes 1 pe k.
  Hypothesis Hpb : takes 0 pb k.

  Lemma pe_tot s N M : size s <= k -> size s - 1 <= N -> size s <= M -> tot pe s N M.
  Proof. intros. eapply takes_tot; eauto. Qed.

  Lemma pb_tot s N M : size s <= k -> size s <= N -> size s <= M -> tot pb s N M.
  Proof. intros. eapply takes_tot; eauto; lia. Qed.

  Lemma pe_sync_tot s N M : size s <= k -> size s <= N -> tot (synchronize EIllFormed pe) s N M.
  Proof. intros. eapply tot_synchronize; [|apply pe_tot with (M := size s)]; lia. Qed.

  Lemma comma_tot {A} (ill : A) parse stop s N M :
    takes 0 parse k -> size s <= k -> size s <= N -> tot (comma_sep n ill parse stop) s N M.
  Proof. intros Hp ? ?. apply sep_by_tot; try lia. intros s' ?. apply Hp; lia. Qed.

  Lemma parse_function_tot s N M : size s <= k -> size s <= N -> size s <= M -> tot (parse_function n pb) s N M.
  Proof.
    intros. unfold parse_function.
    eapply tot_bind with (N1 := size s).
    { pose proof (takes_expect 0 TOpenParens (size s) ltac:(lia) s (le_n _)) as Ht. unfold tot in *.
      destruct (expect TOpenParens s); auto; try lia. pose proof (sync_size e YKeep s0). lia. }
    intros op s1 H2.
    eapply tot_bind; [apply comma_tot with (N := size s); [|lia|lia]|].
    { eapply (takes_weaken 1); [|apply takes_identifier]; lia. }
    intros ps s2 H3. eapply tot_bind; [apply expect_keep_tot with (N := size s); lia|]. intros _ s3 H4.
    eapply tot_bind; [apply pb_tot with (N := size s); lia|]. intros b s4 H5.
    eapply tot_bind; [apply expect_sync_tot with (N := size s); lia|]. intros _ s5 H6.
    apply tot_ret; lia.
  Qed.

  Lemma parse_condblock_tot m s N M :
    size s <= k -> size s < m -> size s <= N -> size s <= M -> tot (parse_condblock pe pb m) s N M.
  Proof.
    revert s N M; induction m as [|m IH]; intros s N M Hk Hm HN HM; [lia|].
    cbn [parse_condblock].
    eapply tot_bind; [apply pe_sync_tot with (N := size s); lia|]. intros c s1 H1.
    eapply tot_bind; [apply expect_keep_tot with (N := size s); lia|]. intros _ s2 H2.
    eapply tot_bind; [apply pb_tot with (N := size s); lia|]. intros th s3 H3.
    eapply tot_bind with (N1 := size s).
    - tok E; [|apply tot_fail; lia].
      destruct t as [kd p]; destruct kd; try (eapply tot_bind; [apply tot_take with (N := 0)|]; intros; apply tot_fail; lia).
      destruct k0; try (eapply tot_bind; [apply tot_take with (N := 0)|]; intros; apply tot_fail; lia).
      + tstep. apply pb_tot; lia.
      + tstep. eapply tot_bind; [apply IH with (N := size s); lia|]. intros [[c' t'] e'] s5 H5. apply tot_ret; lia.
      + apply tot_ret; lia.
    - intros; apply tot_ret; lia.
  Qed.

  Lemma takes_dict_item : takes 0 (parse_dict_item pe) k.
  Proof.
    intros s Hs. unfold parse_dict_item.
    eapply tot_bind; [eapply tot_synchronize with (N := size s) (M := size s); [|apply tot_with_sync, tot_with_sync, tot_eat]; lia|].
    intros key s1 H1.
    eapply tot_bind; [apply expect_keep_tot with (N := size s); lia|]. intros _ s2 H2.
    eapply tot_bind; [apply pe_tot with (N := size s); lia|]. intros v s3 H3. apply tot_ret; lia.
  Qed.

  Lemma parse_primary_tot s N M :
    size s <= S k -> size s - 1 <= N -> size s <= M -> tot (parse_primary n pe pb) s N M.
  Proof.
    intros. unfold parse_primary. tok E; [|apply tot_fail; lia].
    assert (Hc : tot (b <- synchronize ill_command_block (parse_command_block n) ;;
          ret (ECommand b (tk_pos t))) s N M \/ block_kind_of (tk_kind t) = None).
    { destruct (block_kind_of (tk_kind t)) eqn:Ek; [left|right; auto].
      eapply tot_bind with (N1 := N); [|intros; apply tot_ret; lia].
      (* the opening brace is consumed before anything can fail *)
      unfold tot, synchronize. pose proof (takes_command_block n (S k) Hn s ltac:(lia)) as Ht.
      unfold tot in Ht. destruct (parse_command_block n s) as [b' s1|e y s1|] eqn:Ec; auto; try lia.
      revert Ec. unfold parse_command_block, bind at 1.
      assert (He : with_sync YSkipOne (eat (fun t : token =>
         match block_kind_of (tk_kind t) with
         | Some k0 => inl k0 | None => inr (unexpected_msg t "command block") end)) s
         = Ok b (mkps (hd_error (ps_rest s)) (tl (ps_rest s)) (Nat.min (ps_left s) (length (ps_rest s))) (ps_errors s))).
      { unfold with_sync, eat, with_token. rewrite E, Ek. reflexivity. }
      rewrite He. set (s0 := mkps _ _ _ _).
      assert (Hs0 : size s0 = length (ps_rest s)) by apply size_list.
      intros Ec.
      assert (size s1 <= size s0); [|pose proof (sync_size e y s1); lia].
      assert (Hd : tot (head <- parse_command n ;;
        tail <- with_token (fun t =>
                match t with
                | Some (mktoken TSemicolon _) =>
                  _ <- step ;; semicolon_sep n ill_command (parse_command n) TCloseCommand
                | _ => ret []
                end) ;;
        _ <- with_sync (YToken TCloseCommand) (expect TCloseCommand) ;;
        ret (mkblock b head tail)) s0 (size s0) (size s0)).
      { eapply tot_bind; [eapply takes_tot; [apply takes_command with (k := k)|..]; try apply Nat.le_refl; lia|].
        intros h s2 H3.
        eapply tot_bind with (N1 := size s0).
        - tok E2; [|apply tot_ret; lia]. destruct t0 as [[] p]; try (apply tot_ret; lia).
          tstep. apply sep_by_tot; [|lia|lia]. apply takes_command; lia.
        - intros tl s3 H4. eapply tot_bind; [apply tot_with_sync, tot_eat with (N := size s0); lia|].
          intros; apply tot_ret; lia. }
      assert (Hd' : tot (with_token (fun t =>
            match t with
            | Some (mktoken TCloseCommand p) => fail (PEmptyCommandBlock p) YSkipOne
            | _ => head <- parse_command n ;;
                tail <- with_token (fun t =>
                          match t with
                          | Some (mktoken TSemicolon _) =>
                            _ <- step ;; semicolon_sep n ill_command (parse_command n) TCloseCommand
                          | _ => ret []
                          end) ;;
                _ <- with_sync (YToken TCloseCommand) (expect TCloseCommand) ;;
                ret (mkblock b head tail)
            end)) s0 (size s0) (size s0)).
      { apply tot_with_token. destruct (ps_token s0) as [[[] ?]|]; try exact Hd. apply tot_fail; lia. }
      unfold tot in Hd'. rewrite Ec in Hd'. exact Hd'. }
    destruct t as [kd p]. cbn [tk_kind tk_pos] in *.
    destruct kd; try (apply tot_fail; lia);
      try (destruct Hc as [Hc|Hc]; [exact Hc|discriminate Hc]);
      try (tstep; apply tot_ret; lia).
    - destruct k0; try (apply tot_fail; lia).
      + tstep. eapply tot_bind; [apply parse_condblock_tot with (N := size s - 1); lia|].
        intros [[c t] e] s2 Hq.
        eapply tot_bind; [apply expect_sync_tot with (N := size s - 1); lia|]. intros; apply tot_ret; lia.
      + tstep. eapply tot_bind; [apply parse_function_tot with (N := size s - 1); lia|].
        intros [ps b] s2 Hq. apply tot_ret; lia.
      + tstep; apply tot_ret; lia.
    - tstep. eapply tot_bind; [apply pe_sync_tot with (N := size s - 1); lia|]. intros e s2 Hq.
      eapply tot_bind; [apply expect_sync_tot with (N := size s - 1); lia|]. intros; apply tot_ret; lia.
    - tstep. eapply tot_bind; [apply comma_tot with (N := size s - 1); [|lia|lia]|].
      { eapply (takes_weaken 1); [|apply Hpe]; lia. }
      intros items s2 Hq.
      eapply tot_bind; [apply expect_sync_tot with (N := size s - 1); lia|]. intros; apply tot_ret; lia.
    - tstep. eapply tot_bind; [apply comma_tot with (N := size s - 1); [apply takes_dict_item|lia|lia]|].
      intros items s2 Hq.
      eapply tot_bind; [apply expect_sync_tot with (N := size s - 1); lia|]. intros; apply tot_ret; lia.
  Qed.

  Lemma postfix_loop_tot m e s N M :
    size s <= k -> size s < m -> size s <= N -> size s <= M -> tot (postfix_loop n pe m e) s N M.
  Proof.
    revert e s N M; induction m as [|m IH]; intros e s N M Hk Hm HN HM; [lia|].
    cbn [postfix_loop]. tok E; [|apply tot_ret; lia].
    destruct t as [[] p]; try (apply tot_ret; lia).
    - destruct o; try (apply tot_ret; lia).
      + tstep. eapply tot_bind; [eapply takes_tot; [apply takes_identifier with (n := k)|..]; try apply Nat.le_refl; lia|].
        intros [id ip] s2 H2. apply IH; lia.
      + tstep. apply IH; lia.
    - tstep. eapply tot_bind; [apply comma_tot with (N := size s - 1); [|lia|lia]|].
      { eapply (takes_weaken 1); [|apply Hpe]; lia. }
      intros args s2 H2. eapply tot_bind; [apply expect_sync_tot with (N := size s - 1); lia|].
      intros _ s3 H3. apply IH; lia.
    - tstep. eapply tot_bind; [apply pe_sync_tot with (N := size s - 1); lia|]. intros f s2 H2.
      eapply tot_bind; [apply expect_sync_tot with (N := size s - 1); lia|].
      intros _ s3 H3. apply IH; lia.
  Qed.

  Lemma parse_postfix_tot s N M :
    size s <= S k -> size s - 1 <= N -> size s <= M -> tot (parse_postfix n pe pb) s N M.
  Proof.
    intros. unfold parse_postfix.
    eapply tot_bind; [apply parse_primary_tot with (N := size s - 1); lia|]. intros e s1 H2.
    apply postfix_loop_tot; lia.
  Qed.

  Lemma parse_prefix_tot m s N M :
    size s <= S k -> size s < m -> size s - 1 <= N -> size s <= M -> tot (parse_prefix n pe pb m) s N M.
  Proof.
    revert s N M; induction m as [|m IH]; intros s N M Hk Hm HN HM; [lia|].
    cbn [parse_prefix]. tok E; [|apply parse_postfix_tot; lia].
    destruct t as [[] p]; try (apply parse_postfix_tot; lia).
    destruct (is_prefix o); [|apply parse_postfix_tot; lia].
    tstep. eapply tot_bind; [apply IH with (N := N); lia|]. intros; apply tot_ret; lia.
  Qed.

  Lemma binop_loop_tot m higher check e s N M :
    takes 1 higher (S k) -> size s <= S k -> size s < m -> size s <= N -> size s <= M ->
    tot (binop_loop m higher check e) s N M.
  Proof.
    intros Hh; revert e s N M; induction m as [|m IH]; intros e s N M Hk Hm HN HM; [lia|].
    cbn [binop_loop]. tok E; [|apply tot_ret; lia].
    destruct t as [[] p]; try (apply tot_ret; lia).
    destruct (check o); [|apply tot_ret; lia].
    tstep. eapply tot_bind; [eapply takes_tot; [apply Hh|..]; try apply Nat.le_refl; lia|].
    intros r s2 H2. apply IH; lia.
  Qed.

  Lemma takes_binop higher check : takes 1 higher (S k) -> takes 1 (parse_binop n higher check) (S k).
  Proof.
    intros Hh s Hs. unfold parse_binop.
    eapply tot_bind; [eapply takes_tot; [apply Hh|..]; try apply Nat.le_refl; lia|].
    intros e s1 H1. apply binop_loop_tot; auto; lia.
  Qed.

  Lemma takes_expression_body : takes 1 (expression_body n pe pb) (S k).
  Proof.
    unfold expression_body. repeat apply takes_binop. intros s Hs. apply parse_prefix_tot; lia.
  Qed.

  End Bodies.

Section Statements.
  Variable n : nat.
  Variable pe : P expr.
  Variable pb : P block.
  Variable k : nat.
  Hypothesis Hn : S k < n.
  Hypothesis Hpe : takes 1 pe (S k).
  Hypothesis Hpb : takes 0 pb k.

  Let pe_tot' s N M : size s <= S k -> size s - 1 <= N -> size s <= M -> tot pe s N M.
  Proof. intros. eapply takes_tot; eauto. Qed.

  Let pe_sync_tot' s N M : size s <= S k -> size s <= N -> tot (synchronize EIllFormed pe) s N M.
  Proof. intros. eapply tot_synchronize; [|apply pe_tot' with (M := size s)]; lia. Qed.

  Lemma takes_statement : takes 1 (parse_statement n pe pb) (S k).
  Proof.
    intros s Hs. unfold parse_statement. tok E; [|apply tot_fail; lia].
    assert (Hd : tot (e <- pe ;;
          with_token (fun t =>
            match t with
            | Some (mktoken (TOperator OAssign) p) =>
              _ <- step ;; r <- pe ;; ret (SAssign e r p)
            | _ => ret (SExpr e)
            end)) s (size s - 1) (size s)).
    { eapply tot_bind; [apply pe_tot' with (N := size s - 1); lia|]. intros e s1 H1.
      tok E1; [|apply tot_ret; lia]. destruct t0 as [[] p]; try (apply tot_ret; lia).
      destruct o; try (apply tot_ret; lia).
      tstep. eapply tot_bind; [apply pe_tot' with (N := size s - 1); lia|]. intros; apply tot_ret; lia. }
    assert (Hfun : forall s1, size s1 <= size s - 1 -> tot (parse_function n pb) s1 (size s - 1) (size s)).
    { intros s1 H1. apply parse_function_tot with (k := k); auto; lia. }
    destruct t as [kd p]. destruct kd; try exact Hd. destruct k0; try exact Hd.
    - tstep.
      eapply tot_bind; [eapply sync_takes; [apply takes_identifier with (n := k)|lia|apply Nat.le_refl]|].
      intros [id ip] s2 H2. eapply tot_bind with (N1 := size s - 1); [|intros; apply tot_ret; lia].
      tok E2; [|apply tot_ret; lia]. destruct t as [[] p']; try (apply tot_ret; lia).
      destruct o; try (apply tot_ret; lia). tstep. apply pe_tot'; lia.
    - tstep. eapply tot_bind; [eapply sync_takes; [apply takes_identifier with (n := k)|lia|apply Nat.le_refl]|].
      intros [id ip] s2 H2. eapply tot_bind; [apply expect_keep_tot with (N := size s - 1); lia|]. intros _ s3 H3.
      eapply tot_bind; [apply pe_sync_tot' with (N := size s - 1); lia|]. intros e s4 H4.
      eapply tot_bind; [apply expect_keep_tot with (N := size s - 1); lia|]. intros _ s5 H5.
      eapply tot_bind; [eapply takes_tot; [apply Hpb|..]; try apply Nat.le_refl; lia|]. intros b s6 H6.
      eapply tot_bind; [apply expect_sync_tot with (N := size s - 1); lia|]. intros; apply tot_ret; lia.
    - tstep. eapply tot_bind; [apply pe_sync_tot' with (N := size s - 1); lia|]. intros e s4 H4.
      eapply tot_bind; [apply expect_keep_tot with (N := size s - 1); lia|]. intros _ s5 H5.
      eapply tot_bind; [eapply takes_tot; [apply Hpb|..]; try apply Nat.le_refl; lia|]. intros b s6 H6.
      eapply tot_bind; [apply expect_sync_tot with (N := size s - 1); lia|]. intros; apply tot_ret; lia.
    - unfold tot, bind at 1, ppeek.
      set (s0 := mkps (ps_token s) (ps_rest s) _ _).
      assert (Hs0 : size s0 = size s) by reflexivity.
      assert (Hd0 : tot (e <- pe ;;
          with_token (fun t =>
            match t with
            | Some (mktoken (TOperator OAssign) p) =>
              _ <- step ;; r <- pe ;; ret (SAssign e r p)
            | _ => ret (SExpr e)
            end)) s0 (size s - 1) (size s)).
      { eapply tot_bind; [apply pe_tot' with (N := size s - 1); lia|]. intros e s1 H1.
        tok E1; [|apply tot_ret; lia]. destruct t as [[] p']; try (apply tot_ret; lia).
        destruct o; try (apply tot_ret; lia).
        tstep. eapply tot_bind; [apply pe_tot' with (N := size s - 1); lia|]. intros; apply tot_ret; lia. }
      fold (tot (A := statement)).
      destruct (hd_error (ps_rest s)) as [[[] ?]|]; try exact Hd0.
      match goal with |- match ?f s0 with _ => _ end => change (tot f s0 (size s - 1) (size s)) end.
      tstep.
      eapply tot_bind; [eapply takes_tot; [apply takes_identifier with (n := k)|..]; try apply Nat.le_refl; lia|].
      intros [id ip] s2 H2.
      eapply tot_bind; [apply Hfun; lia|]. intros [ps b] s3 H3. apply tot_ret; lia.
    - tstep. eapply tot_bind with (N1 := size s - 1); [|intros; apply tot_ret; lia].
      apply tot_with_token. destruct (match ps_token s' with Some t => _ | None => _ end); [apply tot_ret; lia|].
      apply pe_tot'; lia.
    - tstep. apply tot_ret; lia.
  Qed.

  Lemma block_loop_tot m s N M :
    size s <= S k -> size s < m -> size s <= N -> tot (block_loop n pe pb m) s N M.
  Proof.
    revert s N M; induction m as [|m IH]; intros s N M Hk Hm HN; [lia|].
    cbn [block_loop]. tok E; [|apply tot_ret; lia].
    destruct (is_block_terminator _); [apply tot_ret; lia|].
    eapply tot_bind; [eapply tot_synchronize_skip; [|apply takes_statement]; lia|].
    intros st s1 H1.
    assert (Hd : tot (rest <- block_loop n pe pb m ;; ret (st :: rest)) s1 N M).
    { eapply tot_bind; [apply IH with (N := N); lia|]. intros; apply tot_ret; lia. }
    destruct st; try exact Hd. apply tot_ret; lia.
  Qed.
End Statements.

(** Without a token, an expression is an error. *)
Lemma binop_none n higher check s e y :
  higher s = Er e y s -> parse_binop n higher check s = Er e y s.
Proof. unfold parse_binop, bind. intros ->. reflexivity. Qed.

Lemma expression_body_none n pe pb s :
  ps_token s = None -> expression_body (S n) pe pb s = Er PUnexpectedEof YKeep s.
Proof.
  intros H. unfold expression_body. repeat apply binop_none.
  cbn [parse_prefix]. unfold with_token. rewrite H. unfold parse_postfix, bind.
  assert (parse_primary (S n) pe pb s = Er PUnexpectedEof YKeep s) as ->; [|reflexivity].
  unfold parse_primary, with_token. rewrite H. reflexivity.
Qed.

Lemma parse_takes n :
  (forall k, 2 * k + 2 <= n -> takes 1 (parse_expression n) k) /\
  (forall k, 2 * k + 3 <= n -> takes 0 (parse_block n) k).
Proof.
  induction n as [|n [IHe IHb]]; [split; intros; lia|]. split; intros k Hk.
  - cbn [parse_expression]. destruct k as [|k].
    + (* no token at all *)
      intros s Hs. destruct n as [|n]; [lia|].
      assert (ps_token s = None) by (unfold size in Hs; destruct (ps_token s); [lia|auto]).
      unfold tot. rewrite expression_body_none by assumption. lia.
    + apply takes_expression_body; [lia| |].
      * apply IHe; lia.
      * apply IHb; lia.
  - cbn [parse_block]. intros s Hs.
    eapply tot_bind with (N1 := size s - 0); [|intros; apply tot_ret; lia].
    destruct k as [|k].
    + destruct n as [|n]; [lia|].
      assert (ps_token s = None) by (unfold size in Hs; destruct (ps_token s); [lia|auto]).
      cbn [block_loop]. apply tot_with_token. rewrite H. apply tot_ret; lia.
    + apply block_loop_tot with (k := k); try lia.
      * apply IHe; lia.
      * apply IHb; lia.
Qed.

(** A block that stops before the end and not at a terminator has consumed something. *)
Lemma parse_block_stop m k s b s' :
  2 * k + 3 <= m -> size s <= k -> parse_block m s = Ok b s' ->
  size s' <= size s /\
  (size s' < size s \/ ps_token s' = None \/
   exists t, ps_token s' = Some t /\ is_block_terminator (tk_kind t) = true).
Proof.
  intros Hm Hs H. split.
  { pose proof (proj2 (parse_takes m) k Hm s Hs) as Ht. unfold tot in Ht. rewrite H in Ht. lia. }
  destruct m as [|m]; [lia|]. cbn [parse_block] in H. unfold bind in H.
  destruct (block_loop m _ _ m s) as [ss s1|e y s1|] eqn:E; try discriminate. injection H as _ ->.
  destruct m as [|m]; [lia|]. revert E.
  set (pe := fun s => parse_expression (S m) s). set (pb := fun s => parse_block (S m) s).
  cbn [block_loop]. unfold with_token at 1.
  destruct (ps_token s) as [t|] eqn:Et; [|intros [= _ <-]; auto].
  destruct (is_block_terminator (tk_kind t)) eqn:Eb; [intros [= _ <-]; right; right; eauto|].
  pose proof (size_some _ _ Et). destruct k as [|k]; [lia|].
  pose proof (proj1 (parse_takes (S m)) (S k) ltac:(lia)) as Hpe.
  pose proof (proj2 (parse_takes (S m)) k ltac:(lia)) as Hpb.
  assert (Ht : tot (st <- synchronize SIllFormed (force_sync_skip (parse_statement (S m) pe pb)) ;;
     match st with
     | SReturn _ _ => ret [st]
     | _ => rest <- block_loop (S m) pe pb m ;; ret (st :: rest)
     end) s (size s - 1) (size s)).
  { eapply tot_bind; [eapply tot_synchronize_skip; [|apply takes_statement with (k := k)]; auto; lia|].
    intros st s2 H2.
    assert (Hd : tot (rest <- block_loop (S m) pe pb m ;; ret (st :: rest)) s2 (size s - 1) (size s)).
    { eapply tot_bind; [apply block_loop_tot with (k := k) (N := size s - 1); auto; lia|].
      intros; apply tot_ret; lia. }
    destruct st; try exact Hd. apply tot_ret; lia. }
  intros E. unfold tot in Ht. rewrite E in Ht. left; lia.
Qed.

Lemma parse_program_none n m s :
  ps_token s = None -> 3 <= m -> parse_program (S n) (parse_block m) s = Ok (BBlock []) s.
Proof.
  intros H Hm. destruct m as [|[|m]]; try lia.
  cbn [parse_program parse_block]. unfold bind. cbn [block_loop]. unfold with_token. rewrite H. cbn.
  rewrite H. reflexivity.
Qed.

Lemma parse_program_tot n m k s :
  2 * k + 3 <= m -> size s <= k -> size s + 1 < n ->
  exists b s', parse_program n (parse_block m) s = Ok b s'.
Proof.
  revert s; induction n as [|n IH]; intros s Hm Hs Hn; [lia|].
  cbn [parse_program]. unfold bind at 1.
  pose proof (proj2 (parse_takes m) k Hm s Hs) as Ht. unfold tot in Ht.
  destruct (parse_block m s) as [b s1|e y s1|] eqn:E; [|exfalso|easy].
  2: { destruct m; [discriminate|]. cbn [parse_block] in E. unfold bind in E.
       revert E. clear. intros E.
       assert (Hno : forall j s, match block_loop m (fun s => parse_expression m s) (fun s => parse_block m s) j s with
                               | Er _ _ _ => False | _ => True end).
       { clear. induction j as [|j IH]; intros s; [exact I|]. cbn [block_loop]. unfold with_token.
         destruct (ps_token s); [|exact I]. destruct (is_block_terminator _); [exact I|].
         unfold bind at 1. unfold synchronize at 1.
         assert (Hd : forall st s', match (rest <- block_loop m (fun s => parse_expression m s) (fun s => parse_block m s) j ;; ret (st :: rest)) s' with
                               | Er _ _ _ => False | _ => True end).
         { intros st s'. unfold bind. specialize (IH s'). destruct (block_loop _ _ _ j s'); auto. }
         destruct (force_sync_skip _ s) as [st s'|e y s'|]; [| |exact I].
         - destruct st; try apply Hd; exact I.
         - apply Hd. }
       specialize (Hno m s). destruct (block_loop m _ _ m s); try discriminate. exact Hno. }
  destruct (parse_block_stop m k s b s1 Hm Hs E) as [H1 [H2|[H2|[t [H2 H3]]]]].
  - unfold with_token at 1. destruct (ps_token s1) as [t|] eqn:E1.
    + destruct (is_block_terminator _); [|apply IH; lia].
      unfold take_token, bind, synchronize, fail. cbn.
      destruct n; [lia|]. eexists _, _. apply parse_program_none; [reflexivity|lia].
    + eexists _, _; reflexivity.
  - unfold with_token. rewrite H2. eexists _, _; reflexivity.
  - unfold with_token. rewrite H2, H3. unfold take_token, bind, synchronize, fail. cbn.
    destruct n; [lia|]. eexists _, _. apply parse_program_none; [reflexivity|lia].
Qed.

(** The parser finishes on every list of tokens. *)
Lemma parse_tokens_total ts : exists b es r, parse_tokens ts = Parsed b es r.
Proof.
  unfold parse_tokens, parse_tokens_with, parser_fuel.
  destruct (parse_program_tot (2 * length ts + 3) (2 * length ts + 3) (length ts) (pnew ts)) as (b & s & E).
  - lia.
  - unfold pnew; rewrite size_list; lia.
  - unfold pnew; rewrite size_list; lia.
  - rewrite E. eauto.
Qed.
