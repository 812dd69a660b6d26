(** The tokens before the one the first error is about begin some program of the grammar. *)
From Coq Require Import Strings.String.
From Verif Require Import Base Lexer Ast Parser SpecLexer SpecParser SpecReport SpecFirst LexerProofs ParserSoundProofs FirstErrorProofs.
From Coq Require Import Lia.

(** The error is about what comes after some of the tokens, which satisfy [V]. *)
Definition stuck (V : list token -> Prop) (l : list token) (e : perror) : Prop :=
  exists c rest, l = c ++ rest /\ match subject e with Some t => hd_error rest = Some t | None => rest = [] end /\ V c.
(** So it is with the first error of [f], if there has been none yet. *)
Definition fw {A} (f : P A) (s : pstate) (V : list token -> Prop) : Prop :=
  ps_errors s = [] ->
  match f s with
  | PFuel => True
  | Ok _ s' => match ps_errors s' with [] => True | (_, e) :: _ => stuck V (toks s) e end
  | Er e _ s' => match ps_errors s' with [] => stuck V (toks s) e | (_, e') :: _ => stuck V (toks s) e' end
  end.

Lemma stuck_weaken (V V' : list token -> Prop) l e : (forall c r, l = c ++ r -> V c -> V' c) -> stuck V l e -> stuck V' l e.
Proof. intros H (c & r & E & T & Q). exists c, r. split; [exact E|]. split; [exact T|eauto]. Qed.
Lemma fw_weaken {A} (f : P A) s (V V' : list token -> Prop) : fw f s V -> (forall c r, toks s = c ++ r -> V c -> V' c) -> fw f s V'.
Proof.
  intros F H E. specialize (F E). destruct (f s) as [a s1|e y s1|]; auto; destruct (ps_errors s1) as [|[k e'] l]; auto; eapply stuck_weaken; eauto.
Qed.
Lemma fw_ret {A} (a : A) s V : fw (ret a) s V.
Proof. intros E. cbn. rewrite E. exact I. Qed.
Lemma fw_fuel {A} s V : fw (@out_of_fuel A) s V.
Proof. intros E. exact I. Qed.
Lemma fw_fail {A} e y s t r (V : list token -> Prop) : toks s = t :: r -> subject e = Some t -> V [] -> fw (@fail A e y) s V.
Proof. intros T S H E. cbn. rewrite E. exists [], (t :: r). rewrite S. auto. Qed.
Lemma fw_fail_eof {A} y s (V : list token -> Prop) : toks s = [] -> V [] -> fw (@fail A PUnexpectedEof y) s V.
Proof. intros T H E. cbn. rewrite E. exists [], []. cbn. auto. Qed.
Lemma fw_take_fail {A} e y s t r (V : list token -> Prop) : toks s = t :: r -> subject e = Some t -> V [] ->
  fw (bind take_token (fun _ => @fail A e y)) s V.
Proof. intros T S H E. cbn. rewrite E. exists [], (t :: r). rewrite S. auto. Qed.
Lemma fw_token {A} (k : option token -> P A) s V :
  (toks s = [] -> fw (k None) s V) -> (forall t r, toks s = t :: r -> fw (k (Some t)) s V) -> fw (with_token k) s V.
Proof.
  intros H1 H2. unfold fw, with_token in *. unfold toks at 1 in H1. unfold toks at 1 in H2.
  destruct (ps_token s); [apply (H2 _ _ eq_refl)|apply (H1 eq_refl)].
Qed.
Lemma fw_synchronize {A} (ill : A) m s V : fw m s V -> fw (synchronize ill m) s V.
Proof.
  intros F E. specialize (F E). unfold synchronize. destruct (m s) as [a s1|e y s1|]; auto.
  replace (ps_errors (sync e y s1)) with (ps_errors s1 ++ [(ps_left s1, e)]) by (unfold sync; now destruct (ps_token s1)).
  destruct (ps_errors s1) as [|[k e'] l]; exact F.
Qed.
Lemma fw_with_sync {A} y (m : P A) s V : fw m s V -> fw (with_sync y m) s V.
Proof. intros F E. specialize (F E). unfold with_sync. destruct (m s); auto. Qed.
Lemma fw_force {A} (m : P A) s V : fw m s V -> fw (force_sync_skip m) s V.
Proof. intros F E. specialize (F E). unfold force_sync_skip. destruct (m s) as [|? [] ?|]; auto. Qed.
Lemma errors_first s s' x l : ps_errors s = x :: l -> onward s s' -> exists l', ps_errors s' = x :: l'.
Proof. intros E [_ (m & M & _)]. rewrite M, E. cbn. eauto. Qed.
Lemma fw_bind {A B} (m : P A) (k : A -> P B) s Q V :
  (forall a, goes (k a)) -> wp m s Q -> fw m s V ->
  (forall a s1, Q a (toks s1) -> exists ts, toks s = ts ++ toks s1 /\ fw (k a) s1 (fun c => V (ts ++ c))) -> fw (bind m k) s V.
Proof.
  intros G W F H E. specialize (F E). unfold wp in W. unfold bind. destruct (m s) as [a s1|e y s1|]; auto.
  destruct (ps_errors s1) as [|[n e'] l] eqn:E1.
  - destruct (H a s1) as (ts & T & K); [apply W; unfold nerr; now rewrite E, E1|]. specialize (K E1).
    assert (L : forall e, stuck (fun c => V (ts ++ c)) (toks s1) e -> stuck V (toks s) e).
    { intros e0 (c & r & C & S & X). exists (ts ++ c), r. rewrite T, C, app_assoc. auto. }
    destruct (k a s1) as [b s2|e y s2|]; auto; destruct (ps_errors s2) as [|[n e'] l]; auto.
  - specialize (G a s1). destruct (k a s1) as [b s2|e y s2|]; auto; destruct (errors_first _ _ _ _ E1 G) as [l' ->]; exact F.
Qed.
Lemma fw_seq {A B} (m : P A) (k : A -> P B) s G V :
  (forall a, goes (k a)) -> reads m G -> fw m s V ->
  (forall a s1 ts, toks s = ts ++ toks s1 -> G ts a (toks s1) -> fw (k a) s1 (fun c => V (ts ++ c))) -> fw (bind m k) s V.
Proof. intros Gk R F H. eapply fw_bind; [exact Gk|apply R|exact F|]. intros a s1 (ts & T & X). exists ts. auto. Qed.
Lemma fw_step {A} (k : unit -> P A) s t r V : toks s = t :: r -> (forall s1, toks s1 = r -> fw (k tt) s1 (fun c => V (t :: c))) ->
  fw (bind step k) s V.
Proof.
  intros T H E. unfold bind, step. set (s1 := mkps _ _ _ _).
  assert (T1 : toks s1 = r) by (unfold s1; rewrite toks_list; unfold toks in T; destruct (ps_token s); [now injection T|discriminate]).
  specialize (H s1 T1 E). assert (L : forall e, stuck (fun c => V (t :: c)) (toks s1) e -> stuck V (toks s) e).
  { intros e0 (c & q & C & S & X). exists (t :: c), q. rewrite T, <- T1, C. auto. }
  destruct (k tt s1) as [b s2|e y s2|]; auto; destruct (ps_errors s2) as [|[n e'] l]; auto.
Qed.
Lemma fw_peek {A} (k : option token -> P A) s t r V : toks s = t :: r -> (forall s1, toks s1 = t :: r -> fw (k (hd_error r)) s1 V) ->
  fw (bind ppeek k) s V.
Proof.
  intros T H E. unfold bind, ppeek. set (s1 := mkps _ _ _ _).
  assert (T1 : toks s1 = t :: r) by exact T. assert (R : ps_rest s = r) by (unfold toks in T; destruct (ps_token s); [now injection T|discriminate]).
  rewrite R. specialize (H s1 T1 E). rewrite T. rewrite T1 in H. exact H.
Qed.
Lemma fw_eat {A} (f : token -> A + perror) s (V : list token -> Prop) : (forall t e, f t = inr e -> subject e = Some t) -> V [] -> fw (eat f) s V.
Proof.
  intros H N. unfold eat. apply fw_token; [intros T; apply fw_fail_eof; auto|]. intros t r T. destruct (f t) eqn:F.
  - eapply fw_step; [exact T|]. intros. apply fw_ret.
  - eapply fw_fail; eauto.
Qed.
Lemma fw_expect k s (V : list token -> Prop) : V [] -> fw (expect k) s V.
Proof. apply fw_eat. intros t e. destruct (kind_eqb _ _); intros Q; [discriminate|now injection Q as <-]. Qed.
Lemma fw_identifier s (V : list token -> Prop) : V [] -> fw parse_identifier s V.
Proof. intros N. apply fw_with_sync, fw_eat; [|exact N]. intros t e. destruct (tk_kind t); intros Q; try discriminate; now injection Q as <-. Qed.
Lemma fw_argument s (V : list token -> Prop) : V [] -> fw parse_argument s V.
Proof. apply fw_eat. intros t e. destruct (tk_kind t); intros Q; try discriminate; now injection Q as <-. Qed.
Lemma fw_argument_at s ps p r V : toks s = tok (TArgument ps) p :: r -> fw parse_argument s V.
Proof. intros T. unfold parse_argument, eat. apply fw_token; [congruence|]. intros t r' E. rewrite T in E. injection E as <- <-. cbn. eapply fw_step; [exact T|]. intros. apply fw_ret. Qed.

(** A required token, then the rest *)
Lemma fw_expect_sync {A} (f : pos -> P A) k y s (V : list token -> Prop) : (forall p, goes (f p)) -> V [] ->
  (forall p s1, toks s = tok k p :: toks s1 -> fw (f p) s1 (fun c => V (tok k p :: c))) -> fw (bind (expect_sync k y) f) s V.
Proof.
  intros G N H. eapply fw_bind; [exact G|apply wp_expect_sync with (Q := fun p r => toks s = tok k p :: r); auto|apply fw_with_sync, fw_expect, N|].
  intros p s1 T. exists [tok k p]. split; [exact T|]. now apply H.
Qed.
Lemma fw_expect_keep {A} (f : pos -> P A) k y s (V : list token -> Prop) : (forall p, goes (f p)) -> V [] ->
  (forall p s1, toks s = tok k p :: toks s1 -> fw (f p) s1 (fun c => V (tok k p :: c))) -> fw (bind (expect_keep k y) f) s V.
Proof.
  intros G N H. eapply fw_bind; [exact G|apply wp_expect_keep with (Q := fun p r => toks s = tok k p :: r); auto|apply fw_synchronize, fw_with_sync, fw_expect, N|].
  intros p s1 T. exists [tok k p]. split; [exact T|]. now apply H.
Qed.
Lemma fw_ident {A} (f : symbol * pos -> P A) s (V : list token -> Prop) : (forall p, goes (f p)) -> V [] ->
  (forall x p s1, toks s = tok (TIdentifier x) p :: toks s1 -> fw (f (x, p)) s1 (fun c => V (tok (TIdentifier x) p :: c))) -> fw (bind parse_identifier f) s V.
Proof.
  intros G N H. eapply fw_bind; [exact G|apply wp_identifier with (Q := fun xp r => toks s = tok (TIdentifier (fst xp)) (snd xp) :: r); auto|apply fw_identifier, N|].
  intros [x p] s1 T. exists [tok (TIdentifier x) p]. split; [exact T|]. now apply H.
Qed.
Lemma fw_ident_sync {A} (f : symbol * pos -> P A) y s (V : list token -> Prop) : (forall p, goes (f p)) -> V [] ->
  (forall x p s1, toks s = tok (TIdentifier x) p :: toks s1 -> fw (f (x, p)) s1 (fun c => V (tok (TIdentifier x) p :: c))) ->
  fw (bind (synchronize ill_ident (with_sync y parse_identifier)) f) s V /\ fw (bind (synchronize ill_ident parse_identifier) f) s V.
Proof.
  intros G N H. split.
  - eapply fw_bind; [exact G|apply wp_synchronize; [mono|apply wp_with_sync, wp_identifier with (Q := fun xp r => toks s = tok (TIdentifier (fst xp)) (snd xp) :: r); auto]|apply fw_synchronize, fw_with_sync, fw_identifier, N|].
    intros [x p] s1 T. exists [tok (TIdentifier x) p]. split; [exact T|]. now apply H.
  - eapply fw_bind; [exact G|apply wp_synchronize; [mono|apply wp_identifier with (Q := fun xp r => toks s = tok (TIdentifier (fst xp)) (snd xp) :: r); auto]|apply fw_synchronize, fw_identifier, N|].
    intros [x p] s1 T. exists [tok (TIdentifier x) p]. split; [exact T|]. now apply H.
Qed.
Lemma fw_arg {A} (f : ast_argument -> P A) y s (V : list token -> Prop) : (forall p, goes (f p)) -> V [] ->
  (forall ps p s1, toks s = tok (TArgument ps) p :: toks s1 -> fw (f (argument_of ps p)) s1 (fun c => V (tok (TArgument ps) p :: c))) ->
  fw (bind (with_sync y parse_argument) f) s V.
Proof.
  intros G N H. eapply fw_bind; [exact G|apply wp_with_sync, wp_argument with (Q := fun a r => exists ps p, toks s = tok (TArgument ps) p :: r /\ a = argument_of ps p); eauto|apply fw_with_sync, fw_argument, N|].
  intros a s1 (ps & p & T & ->). exists [tok (TArgument ps) p]. split; [exact T|]. now apply H.
Qed.

Ltac gbind := eapply fw_seq; [intros; solve [goes]| | |].
Ltac fstep E := eapply fw_step; [exact E|intros ?s ?E; cbv beta].

Lemma fw_sep_by {A} n (ill : A) parse sep stop (G : list token -> A -> Prop)
    (GS : list token -> list A -> Prop) (F : list token -> Prop) :
  mono parse -> goes parse ->
  reads parse (fun ts a rest => G ts a /\ F rest) ->
  (forall s, fw parse s (fun c => exists d a, G (c ++ d) a)) ->
  GS [] [] ->
  (forall ts a, G ts a -> GS ts [a]) ->
  (forall t1 a t t2 l, sep (tk_kind t) = true -> G t1 a -> GS t2 l -> GS (t1 ++ t :: t2) (a :: l)) ->
  forall s, fw (sep_by n ill parse sep stop) s (fun c => exists d l, GS (c ++ d) l).
Proof.
  intros Hm Hg Hp Hv Hnil Hone Hcons. induction n as [|n IH]; intros s; [apply fw_fuel|].
  cbn [sep_by].
  assert (Hmain : fw (item <- synchronize ill parse ;;
        with_token (fun t =>
          if match t with Some t => sep (tk_kind t) | None => false end
          then _ <- step ;; items <- sep_by n ill parse sep stop ;; ret (item :: items)
          else ret [item])) s (fun c => exists d l, GS (c ++ d) l)).
  { gbind; [intros s'; apply wp_synchronize; [exact Hm|apply Hp]|apply fw_synchronize; eapply fw_weaken; [apply Hv|]|].
    - cbv beta. intros c r _ (d & a & H). exists d, [a]. auto.
    - intros a s1 ts E [H _]. cbv beta. apply fw_token; [intros; apply fw_ret|]. intros t r E1. destruct (sep (tk_kind t)) eqn:S; [|apply fw_ret].
      fstep E1. gbind; [eapply (sep_by_reads n ill parse sep stop G GS F); assumption| |intros; apply fw_ret].
      eapply fw_weaken; [apply IH|]. cbv beta. intros c r' _ (d & l & L). exists d, (a :: l). rewrite <- app_assoc. cbn. now apply Hcons. }
  apply fw_token; [intros; exact Hmain|]. intros t r E. destruct (stop (tk_kind t)); [apply fw_ret|exact Hmain].
Qed.

Ltac norm := repeat (rewrite <- app_assoc || rewrite app_nil_r || (progress cbn [app])).

Definition here : pos := mkpos 1 0.
Definition word : list arg_part := [PUnquoted (AULiteral [x78])].

Lemma fw_params n s : fw (comma_sep n ill_ident parse_identifier TCloseParens) s (fun c => exists d ps, gparams (c ++ d) ps).
Proof.
  apply fw_sep_by with (G := fun ts sp => ts = [tok (TIdentifier (fst sp)) (snd sp)]) (F := fun _ => True).
  - mono.
  - goes.
  - intros s0. apply wp_identifier. intros x p r E. exists [tok (TIdentifier x) p]. auto.
  - intros s0. apply fw_identifier. exists [tok (TIdentifier []) here], ([], here). reflexivity.
  - constructor.
  - intros ts [x p] ->. constructor.
  - intros t1 [x p] [k q] t2 l Hk -> Hl. apply kind_eqb_eq in Hk. cbn in Hk; subst. cbn. now constructor.
Qed.

(** ** Commands *)
Lemma fw_env n s V : fw (parse_env n) s V.
Proof.
  revert s V; induction n as [|n IH]; intros s V; [apply fw_fuel|]. cbn [parse_env].
  assert (N : forall V, fw parse_env_assign s V).
  { intros V0. unfold parse_env_assign. apply fw_token; [intros; apply fw_ret|]. intros [k p] r E. cbn [tk_kind].
    destruct k; try apply fw_ret. destruct parts as [|[] [|[] parts]]; try apply fw_ret. fstep E. apply fw_ret. }
  eapply fw_bind with (Q := fun e rest => exists ts, toks s = ts ++ rest).
  - intros; goes.
  - unfold parse_env_assign. apply wp_token; [intros; apply wp_ret; exists []; reflexivity|]. intros [k p] r E. cbn [tk_kind].
    assert (R : wp (ret None) s (fun (e : option (arg_unit * ast_argument)) rest => exists ts, toks s = ts ++ rest)) by (apply wp_ret; exists []; reflexivity).
    destruct k; try exact R. destruct parts as [|[] [|[] parts]]; try exact R. wstep E. apply wp_ret. eexists [_]. rewrite H. exact E.
  - apply N.
  - intros [kv|] s1 (ts & E); exists ts; (split; [exact E|]); [|apply fw_ret].
    eapply fw_bind with (Q := fun e rest => exists ts, toks s1 = ts ++ rest); [intros; goes| |apply IH|].
    + eapply wp_weaken; [apply env_reads|]. intros a r (t & T & _). eauto.
    + intros a s2 (t & T). exists t. split; [exact T|apply fw_ret].
Qed.
Lemma fw_fd s V : fw parse_file_descriptor s V.
Proof.
  unfold parse_file_descriptor. apply fw_token; [intros; apply fw_ret|]. intros [k p] r E. cbn [tk_kind].
  destruct k; try apply fw_ret. destruct parts as [|[[l|]| | | |] []]; try apply fw_ret. destruct (parse_u8 l); [|apply fw_ret]. fstep E. apply fw_ret.
Qed.

Definition vredirection (a : bool) (t1 c : list token) : Prop := exists d r, gredirection a (t1 ++ c ++ d) r.
Lemma fw_output_redirection src a t1 s : gsource a t1 src -> fw (parse_output_redirection src) s (vredirection a t1).
Proof.
  intros Hsrc. assert (V0 : vredirection a t1 []).
  { exists [tok (TCmdOperator (COutput true)) here; tok (TArgument word) here]. eexists. cbn. apply gr_append. exact Hsrc. }
  unfold parse_output_redirection. apply fw_token; [intros; now apply fw_fail_eof|].
  intros [k p] r E. cbn [tk_kind]. assert (F : fw (@fail redirection (unexpected_msg (tok k p) "output redirection") YSkipOne) s (vredirection a t1) ) by (eapply fw_fail; [exact E|reflexivity|exact V0]).
  destruct k; try exact F. destruct o; try exact F. clear F. fstep E. destruct append.
  - apply fw_arg; [intros; goes| |intros; apply fw_ret]. exists [tok (TArgument word) here]. eexists. cbn. apply gr_append. exact Hsrc.
  - eapply fw_bind; [intros; goes|apply fd_reads|apply fw_fd|]. cbv beta. intros [n|] s1 H1.
    + destruct H1 as (l & q & E1 & _). eexists [_]. split; [exact E1|]. apply fw_ret.
    + destruct H1 as [E1 H1]. exists []. split; [exact E1|]. cbn [app]. apply fw_arg; [intros; goes| |intros; apply fw_ret].
      exists [tok (TArgument word) here]. eexists. cbn. apply gr_overwrite; [exact Hsrc|]. intros x n [= <-] (ds & [<-|Q] & _ & D & _); [|discriminate].
      inversion D. discriminate.
Qed.
Lemma fw_redirection (a : bool) s :
  (a = true -> match toks s with mktoken (TArgument ps) _ :: _ => exists x, ps = [PUnquoted (AULiteral x)] /\ is_number_text x | _ => True end) ->
  fw parse_redirection s (vredirection a []).
Proof.
  intros Ha. assert (V0 : vredirection a [] []).
  { exists [tok (TCmdOperator (COutput true)) here; tok (TArgument word) here]. eexists. cbn. apply (gr_append a 1%Z []). constructor. }
  unfold parse_redirection. apply fw_token; [intros; now apply fw_fail_eof|]. intros [k p] r E. cbn [tk_kind].
  assert (Hd : fw (fd <- parse_file_descriptor ;;
     parse_output_redirection (match fd with Some fd => fd | None => 1%Z end)) s (vredirection a [])).
  { eapply fw_bind; [intros; goes|apply fd_reads|apply fw_fd|]. cbv beta. intros [n|] s1 H1.
    - destruct H1 as (l & q & E1 & H1). eexists [_]. split; [exact E1|].
      eapply fw_weaken; [apply (fw_output_redirection n a [tok (TArgument [PUnquoted (AULiteral l)]) q])|intros c x _ V; exact V]. constructor; [|exact H1].
      intros A. specialize (Ha A). rewrite E1 in Ha. destruct Ha as (x & [= ->] & X). exact X.
    - destruct H1 as [E1 _]. exists []. split; [exact E1|]. eapply fw_weaken; [apply (fw_output_redirection 1%Z a []); constructor|intros c x _ V; exact V]. }
  destruct k; try exact Hd. destruct o; try exact Hd. fstep E. apply fw_arg; [intros; goes| |intros; apply fw_ret].
  exists [tok (TArgument word) here]. eexists. constructor.
Qed.

Definition voperators (a : bool) (c : list token) : Prop := exists d rs abort, goperators a (c ++ d) rs abort /\ (c = [] -> d = []).
Lemma voperators_some a c d rs abort : goperators a (c ++ d) rs abort -> voperators a c.
Proof. intros G. destruct c; [exists [], [], true; split; [constructor|reflexivity]|]. exists d, rs, abort. split; [exact G|discriminate]. Qed.
Lemma fw_operators n (a : bool) s :
  (a = true -> match toks s with mktoken (TArgument ps) _ :: _ => exists x, ps = [PUnquoted (AULiteral x)] /\ is_number_text x | _ => True end) ->
  fw (parse_operators n) s (voperators a).
Proof.
  revert a s; induction n as [|n IH]; intros a s Ha; [apply fw_fuel|]. cbn [parse_operators].
  assert (V0 : voperators a []) by (eapply (voperators_some a [] []); constructor).
  apply fw_token; [intros; now apply fw_fail_eof|]. intros [k p] r E. cbn [tk_kind].
  destruct (is_basic_command_terminator k); [apply fw_ret|].
  assert (Hd : fw (r <- synchronize RIllFormed parse_redirection ;;
               '(rs, abort) <- parse_operators n ;; ret (r :: rs, abort)) s (voperators a)).
  { eapply fw_bind; [intros; goes|apply wp_synchronize; [mono|apply (redirection_reads a), Ha]|apply fw_synchronize; eapply fw_weaken; [apply (fw_redirection a), Ha|]|].
    - intros c x _ (d & rd & G). cbn [app] in G. eapply (voperators_some a c d). rewrite <- (app_nil_r (c ++ d)). econstructor; [exact G|constructor].
    - intros rd s1 (ts & E1 & G). exists ts. split; [exact E1|]. eapply fw_bind; [intros; goes|apply (operators_reads n false); discriminate|eapply fw_weaken; [apply (IH false); discriminate|]|].
      + cbv beta. intros c x _ (d & rs & ab & G2 & _). eapply (voperators_some a (ts ++ c) d). rewrite <- app_assoc. econstructor; eassumption.
      + intros [rs ab] s2 (t2 & E2 & _). exists t2. split; [exact E2|apply fw_ret]. }
  destruct k; try exact Hd. destruct o; try exact Hd. fstep E. apply fw_ret.
Qed.
Lemma fw_redirection_next s V : fw is_redirection_next s V.
Proof.
  unfold is_redirection_next. apply fw_token; [intros; apply fw_ret|]. intros [k p] r E. cbn [tk_kind].
  destruct k; try apply fw_ret. destruct parts as [|x []]; try apply fw_ret. destruct (is_unquoted_number x); [|apply fw_ret].
  eapply fw_peek; [exact E|]. intros. apply fw_ret.
Qed.
Lemma fw_arguments n s V : fw (parse_arguments n) s V.
Proof.
  revert s V; induction n as [|n IH]; intros s V; [apply fw_fuel|]. cbn [parse_arguments].
  eapply fw_bind; [intros; goes|apply redirection_next_reads|apply fw_redirection_next|]. cbv beta. intros [] s1 [E1 _]; exists []; (split; [exact E1|]); [apply fw_ret|].
  apply fw_token; [intros; apply fw_ret|]. intros [k p] r E. cbn [tk_kind]. destruct k; try apply fw_ret.
  eapply fw_bind; [intros; goes|apply wp_argument with (Q := fun a r => exists ps p, toks s1 = tok (TArgument ps) p :: r /\ a = argument_of ps p); eauto|eapply fw_argument_at; exact E|].
  intros a s2 (ps & q & E2 & _). exists [tok (TArgument ps) q]. split; [exact E2|].
  eapply fw_bind; [intros; goes|apply arguments_reads|apply IH|]. cbv beta. intros l s3 (t3 & E3 & _). exists t3. split; [exact E3|]. apply fw_ret.
Qed.

Lemma fw_basic n s : fw (parse_basic_command n) s (fun c => exists d b, gbasic (c ++ d) b).
Proof.
  unfold parse_basic_command. gbind; [apply env_reads|apply fw_env|]. intros env s1 t1 E1 [G1 F1]. cbv beta.
  apply fw_arg; [intros; goes| |].
  { exists [tok (TArgument word) here]. eexists. rewrite app_nil_r. change (t1 ++ [tok (TArgument word) here]) with (t1 ++ tok (TArgument word) here :: [] ++ []).
    apply gb with (rs := []) (abort := true) (args := []) (1 := G1); [reflexivity|constructor|constructor]. }
  intros ps p s2 E2. cbv beta. eapply fw_bind; [intros; goes|apply arguments_reads|apply fw_arguments|].
  cbv beta. intros args s3 (t3 & E3 & G3 & F3). exists t3. split; [exact E3|].
  rewrite E2 in F1. eapply fw_bind; [intros; goes|apply wp_with_sync, (operators_reads n true); intros _; exact F3|apply fw_with_sync; eapply fw_weaken; [apply (fw_operators n true); intros _; exact F3|]|].
  - intros c r E (d & rs & ab & G & N). exists d. eexists.
    replace ((t1 ++ tok (TArgument ps) p :: t3 ++ c) ++ d) with (t1 ++ tok (TArgument ps) p :: t3 ++ (c ++ d)) by (norm; reflexivity).
    apply gb with (1 := G1) (4 := G); [exact F1|]. eapply garguments_follow; [|exact G3]. rewrite E. destruct c as [|t c]; [rewrite (N eq_refl); cbn; tauto|]. cbn. auto.
  - intros [rs ab] s4 (t4 & E4 & _). exists t4. split; [exact E4|apply fw_ret].
Qed.
Lemma fw_pipe n m s : fw (parse_pipe m (parse_basic_command n)) s (fun c => exists d bs, gpipe (c ++ d) bs).
Proof.
  revert s; induction m as [|m IH]; intros s; [apply fw_fuel|]. cbn [parse_pipe].
  apply fw_token; [intros; apply fw_ret|]. intros [k p] r E. destruct k; try apply fw_ret. fstep E.
  gbind; [intros s'; apply wp_synchronize; [mono|apply basic_reads]|apply fw_synchronize; eapply fw_weaken; [apply fw_basic|]|].
  - cbv beta. intros c x _ (d & b & G). exists d. eexists. rewrite <- (app_nil_r d), app_assoc. cbn [app]. rewrite <- app_assoc. cbn. rewrite app_assoc. constructor; [exact G|constructor].
  - intros b s2 t2 E2 [G _]. gbind; [apply pipe_reads| |intros; apply fw_ret]. eapply fw_weaken; [apply IH|]. cbv beta.
    intros c x _ (d & l & G2). exists d. eexists. cbn [app]. rewrite <- app_assoc. constructor; eassumption.
Qed.
Lemma fw_command n s : fw (parse_command n) s (fun c => exists d x, gcommand (c ++ d) x).
Proof.
  unfold parse_command. gbind; [intros s'; apply wp_synchronize; [mono|apply basic_reads]|apply fw_synchronize; eapply fw_weaken; [apply fw_basic|]|].
  - cbv beta. intros c x _ (d & b & G). exists d. eexists. rewrite <- (app_nil_r (c ++ d)). constructor; [exact G|constructor].
  - intros b s2 t2 E2 [G _]. gbind; [apply pipe_reads| |intros; apply fw_ret]. eapply fw_weaken; [apply fw_pipe|]. cbv beta.
    intros c x _ (d & l & G2). exists d. eexists. rewrite <- app_assoc. constructor; eassumption.
Qed.
Lemma word_command : exists x, gcommand [tok (TArgument word) here] x.
Proof.
  eexists. change [tok (TArgument word) here] with (([] ++ tok (TArgument word) here :: [] ++ []) ++ []). constructor; [|constructor].
  apply gb with (rs := []) (abort := true) (args := []) (env := []); [constructor|reflexivity|constructor|constructor].
Qed.
Lemma commands_reads n : reads (semicolon_sep n ill_command (parse_command n) TCloseCommand) (fun ts cs _ => gcommands ts cs).
Proof.
  apply sep_by_reads with (G := gcommand) (F := fun _ => True).
  - mono.
  - intros s. eapply wp_weaken; [apply command_reads|]. cbv beta. intros a r (ts & E & G). eauto.
  - constructor.
  - intros. now constructor.
  - intros t1 a [k p] t2 l Hk Ha Hl. apply kind_eqb_eq in Hk. cbn in Hk; subst. now constructor.
Qed.
Lemma fw_commands n s : fw (semicolon_sep n ill_command (parse_command n) TCloseCommand) s (fun c => exists d cs, gcommands (c ++ d) cs).
Proof.
  apply fw_sep_by with (G := gcommand) (F := fun _ => True).
  - mono.
  - goes.
  - intros s0. eapply wp_weaken; [apply command_reads|]. cbv beta. intros a r (ts & E & G). eauto.
  - apply fw_command.
  - constructor.
  - intros. now constructor.
  - intros t1 a [k p] t2 l Hk Ha Hl. apply kind_eqb_eq in Hk. cbn in Hk; subst. now constructor.
Qed.
Definition vblock (c : list token) : Prop := exists d b p, gcommand_block (c ++ d) b p.
Lemma fw_command_block n s : fw (parse_command_block n) s vblock.
Proof.
  destruct word_command as [w W].
  assert (V1 : forall k p kind, opens k = Some kind -> vblock [tok k p]).
  { intros k p kind K. exists ([tok (TArgument word) here] ++ [tok TCloseCommand here]). eexists _, _. cbn [app]. apply (gcb_one k kind p [tok (TArgument word) here] w); assumption. }
  unfold parse_command_block. eapply fw_bind with (Q := fun kind rest => exists k p, toks s = tok k p :: rest /\ opens k = Some kind); [intros; goes| | |].
  - apply wp_with_sync, wp_eat. intros [k p] r a E. cbn [tk_kind]. destruct (block_kind_of k) eqn:Ek; [|discriminate].
    intros [= <-]. exists k, p. split; auto.
  - apply fw_with_sync, fw_eat.
    + intros t e. destruct (block_kind_of _); intros Q; [discriminate|now injection Q as <-].
    + destruct (V1 TCommand here Synchronous eq_refl) as (d & x). exists (tok TCommand here :: d). exact x.
  - intros kind s1 (k & p & E1 & K). exists [tok k p]. split; [exact E1|].
    assert (Hd : fw (head <- parse_command n ;;
      tail <- with_token (fun t =>
                match t with
                | Some (mktoken TSemicolon _) =>
                  _ <- step ;; semicolon_sep n ill_command (parse_command n) TCloseCommand
                | _ => ret []
                end) ;;
      _ <- with_sync (YToken TCloseCommand) (expect TCloseCommand) ;;
      ret (mkblock kind head tail)) s1 (fun c => vblock ([tok k p] ++ c))).
    { gbind; [apply command_reads|eapply fw_weaken; [apply fw_command|]|].
      - cbv beta. intros c r _ (d & x & G). exists (d ++ [tok TCloseCommand here]). eexists _, _. cbn [app]. rewrite app_assoc. eapply gcb_one; eassumption.
      - intros head s2 t2 E2 G2. cbv beta in G2.
        eapply fw_bind with (Q := fun tail rest => exists ts, toks s2 = ts ++ rest /\ ((ts = [] /\ tail = []) \/ exists q t, ts = tok TSemicolon q :: t /\ gcommands t tail)); [intros; goes| | |].
        + assert (R : wp (ret []) s2 (fun (tail : list command) rest => exists ts, toks s2 = ts ++ rest /\ ((ts = [] /\ tail = []) \/ exists q t, ts = tok TSemicolon q :: t /\ gcommands t tail))) by (apply wp_ret; exists []; auto).
          apply wp_token; [intros; exact R|]. intros [k0 q] r E3. destruct k0; try exact R. wstep E3. eapply wp_weaken; [apply commands_reads|].
          cbv beta. intros cs x (t & E4 & G4). exists (tok TSemicolon q :: t). rewrite E3, <- H, E4. split; [reflexivity|]. right. eauto.
        + apply fw_token; [intros; apply fw_ret|]. intros [k0 q] r E3. destruct k0; try apply fw_ret. fstep E3. eapply fw_weaken; [apply fw_commands|].
          cbv beta. intros c x _ (d & cs & G). exists (d ++ [tok TCloseCommand here]). eexists _, _.
          replace (([tok k p] ++ t2 ++ tok TSemicolon q :: c) ++ d ++ [tok TCloseCommand here]) with (tok k p :: t2 ++ tok TSemicolon q :: (c ++ d) ++ [tok TCloseCommand here]) by (norm; reflexivity).
          eapply gcb_more; eassumption.
        + intros tail s3 (ts & E3 & D). exists ts. split; [exact E3|].
          apply (fw_expect_sync (fun _ => ret (mkblock kind head tail)) TCloseCommand (YToken TCloseCommand)); [intros; cbv beta; goes| |intros; apply fw_ret].
          exists [tok TCloseCommand here]. destruct D as [[-> ->]|(q & t & -> & G)].
          * eexists _, _. cbn [app]. rewrite !app_nil_r. eapply gcb_one; eassumption.
          * eexists _, _. norm. eapply gcb_more; eassumption. }
    apply fw_token; [intros; exact Hd|]. intros [k0 q] r E2. destruct k0; try exact Hd.
    eapply fw_fail; [exact E2|reflexivity|]. cbn. eapply V1; exact K.
Qed.

(** ** Expressions and statements *)
Lemma statements_nested b ts ss : gstatements b ts ss -> gstatements true ts ss.
Proof. induction 1; [apply gss_nil|now apply gss_return|apply gss_return_nil|eapply gss_cons; eassumption]. Qed.
Lemma block_nested ts b rest : gblock ts b rest -> exists ss, gstatements true ts ss.
Proof. intros (ss & _ & G & _). exists ss. eapply statements_nested; exact G. Qed.
Lemma self_expr : gexpr 9 [kw KSelf here] (ESelf here).
Proof. do 9 (apply g_up; [lia|]). constructor. Qed.
Lemma expr_up l l' ts e : l <= l' -> l' <= 9 -> gexpr l ts e -> gexpr l' ts e.
Proof. intros H. induction H; intros L G; [exact G|]. apply g_up; [lia|]. apply IHle; [lia|exact G]. Qed.

Definition vexpr (l : nat) (c : list token) : Prop := exists d e, gexpr l (c ++ d) e.
Definition vfunction (c : list token) : Prop := exists d ps b, gfunction (c ++ d) ps b.
Definition vcond (c : list token) : Prop := exists d x t e, gcond (c ++ d) x t e.
Definition vstatements (c : list token) : Prop := exists d ss, gstatements false (c ++ d) ss.
Lemma vexpr_nil : vexpr 9 [].
Proof. eexists _, _. apply self_expr. Qed.
Lemma vstatements_nested c : vstatements c -> exists d ss, gstatements true (c ++ d) ss.
Proof. intros (d & ss & G). exists d, ss. eapply statements_nested; exact G. Qed.

Section Viable.
  Variables (n : nat) (pe : P expr) (pb : P block).
  Hypotheses (Mpe : mono pe) (Mpb : mono pb) (Gpe : goes pe) (Gpb : goes pb).
  Hypothesis Hpe : reads pe (fun ts e rest => gexpr 9 ts e /\ stops 9 rest).
  Hypothesis Hpb : reads pb gblock.
  Hypothesis Fpe : forall s, fw pe s (vexpr 9).
  Hypothesis Fpb : forall s, fw pb s vstatements.
  Hint Resolve Mpe Mpb : mono.
  Hint Resolve Gpe Gpb : goes.

  Lemma fw_exprs stop s : fw (comma_sep n EIllFormed pe stop) s (fun c => exists d es, gexprs (c ++ d) es).
  Proof.
    apply fw_sep_by with (G := gexpr 9) (F := stops 9); auto; try constructor; auto.
    intros t1 a [k p] t2 l Hk Ha Hl. apply kind_eqb_eq in Hk. cbn in Hk; subst. now constructor.
  Qed.
  Lemma fw_items stop s : fw (comma_sep n (ill_ident, EIllFormed) (parse_dict_item pe) stop) s (fun c => exists d es, gitems (c ++ d) es).
  Proof.
    apply fw_sep_by with (F := stops 9) (G := fun ts kv =>
      exists q t1, ts = tok (TIdentifier (fst (fst kv))) (snd (fst kv)) :: tok TColon q :: t1 /\ gexpr 9 t1 (snd kv)).
    - mono.
    - goes.
    - intros s0. unfold parse_dict_item.
      wbind; [apply wp_synchronize; [mono|]; apply wp_with_sync, wp_identifier with
        (Q := fun id rest => toks s0 = tok (TIdentifier (fst id)) (snd id) :: rest); auto|].
      intros id s1 E1.
      wbind; [apply wp_expect_keep with (Q := fun q rest => toks s1 = tok TColon q :: rest); auto|].
      intros q s2 E2. wbind; [apply Hpe|]. intros e s3 (ts & E3 & G3 & F3). apply wp_ret.
      eexists (_ :: _ :: ts). rewrite E1, E2, E3. split; [reflexivity|]. split; [|exact F3]. cbn. eauto.
    - intros s0. unfold parse_dict_item. apply fw_ident_sync; [intros; goes| |].
      { exists [tok (TIdentifier []) here; tok TColon here; kw KSelf here], (([], here), ESelf here). cbn. eexists _, _. split; [reflexivity|apply self_expr]. }
      intros x p s1 E1. apply fw_expect_keep; [intros; goes| |].
      { exists [tok TColon here; kw KSelf here], ((x, p), ESelf here). cbn. eexists _, _. split; [reflexivity|apply self_expr]. }
      intros q s2 E2. gbind; [apply Hpe| |intros; apply fw_ret]. eapply fw_weaken; [apply Fpe|]. cbv beta. intros c r _ (d & e & G).
      exists d, ((x, p), e). cbn. eauto.
    - constructor.
    - intros ts [[x p] e] (q & t1 & -> & H). cbn. now constructor.
    - intros ts [[x p] e] [k r] t2 l Hk (q & t1 & -> & H) Hl. apply kind_eqb_eq in Hk. cbn in Hk; subst. cbn.
      now constructor.
  Qed.

  Lemma fw_function s : fw (parse_function n pb) s vfunction.
  Proof.
    assert (W : forall c ps, gparams c ps -> forall p d, gfunction (tok TOpenParens p :: c ++ tok TCloseParens here :: d ++ [kw KEnd here]) ps (BBlock []) \/ d <> []).
    { intros c ps G p [|]; [left; now constructor; [|constructor]|right; discriminate]. }
    unfold parse_function. eapply fw_bind with (Q := fun b rest => exists p, toks s = tok TOpenParens p :: rest).
    - intros; goes.
    - pose proof (wp_expect TOpenParens s (fun p rest => toks s = tok TOpenParens p :: rest) ltac:(auto)) as H.
      unfold wp in *. pose proof (mono_expect TOpenParens s).
      destruct (expect TOpenParens s); auto.
      + intros E. eauto.
      + intros E. rewrite nerr_sync in E. lia.
    - assert (V0 : vfunction []).
      { exists [tok TOpenParens here; tok TCloseParens here; kw KEnd here]. eexists _, _. cbn. apply (gf here [] [] here [] [] here); constructor. }
      intros E. pose proof (fw_synchronize ill_pos _ _ _ (fw_with_sync YKeep _ _ _ (fw_expect TOpenParens s vfunction V0)) E) as F.
      unfold synchronize, with_sync in F. destruct (expect TOpenParens s) as [a s1|e y s1|]; exact F.
    - intros op s1 (p & E1). exists [tok TOpenParens p]. split; [exact E1|].
      gbind; [apply params_reads|eapply fw_weaken; [apply fw_params|]|].
      { cbv beta. intros c r _ (d & ps & G). exists (d ++ [tok TCloseParens here; kw KEnd here]). eexists _, _. cbn [app]. rewrite app_assoc.
        apply (gf p (c ++ d) ps here [] [] here); [exact G|constructor]. }
      intros ps s2 t2 E2 G2. cbv beta in G2. apply fw_expect_keep; [intros; goes| |].
      { exists [tok TCloseParens here; kw KEnd here]. eexists _, _. norm. apply (gf p t2 ps here [] [] here); [exact G2|constructor]. }
      intros q s3 E3. gbind; [apply Hpb|eapply fw_weaken; [apply Fpb|]|].
      { intros c r _ V. apply vstatements_nested in V as (d & ss & G). exists (d ++ [kw KEnd here]). eexists _, _.
        replace (([tok TOpenParens p] ++ t2 ++ tok TCloseParens q :: c) ++ d ++ [kw KEnd here]) with (tok TOpenParens p :: t2 ++ tok TCloseParens q :: (c ++ d) ++ [kw KEnd here]) by (norm; reflexivity).
        constructor; eassumption. }
      intros b s4 t4 E4 G4. apply block_nested in G4 as [ss G4]. apply fw_expect_sync; [intros; goes| |intros; apply fw_ret].
      exists [kw KEnd here]. eexists _, _. norm. constructor; eassumption.
  Qed.

  Lemma condblock_reads_any m : reads (parse_condblock pe pb m) (fun ts _ _ => exists c t e, gcond ts c t e).
  Proof.
    induction m as [|m IH]; intros s; [apply wp_fuel|]. cbn [parse_condblock].
    wbind; [apply (pe_sync_reads pe Mpe Hpe)|]. intros c s1 (t1 & E1 & G1 & _).
    wbind; [apply wp_expect_keep with (Q := fun q rest => toks s1 = kw KThen q :: rest); auto|].
    intros p s2 E2. wbind; [apply Hpb|]. intros b s3 (t3 & E3 & G3). apply block_nested in G3 as [ss G3].
    eapply wp_bind with (Q1 := fun _ rest => exists ts e, toks s3 = ts ++ rest /\ gelse ts e); [mono|intros; mono| |].
    - apply wp_token; [intros; apply wp_fail|]. intros [k q] r E.
      assert (Hf : forall t, wp (A := block) (_ <- take_token ;; fail (unexpected_msg t "end, else or elseif") YBlockTerminator) s3
         (fun _ rest => exists ts e, toks s3 = ts ++ rest /\ gelse ts e)).
      { intros; exact I. }
      destruct k; try apply Hf. destruct k; try apply Hf.
      + wstep E. eapply wp_weaken; [apply Hpb|]. intros b' rest (ts & E4 & G4). apply block_nested in G4 as [ss' G4].
        eexists (_ :: ts), _. rewrite E, <- H, E4. split; [reflexivity|]. apply gel_else; eassumption.
      + wstep E. wbind; [apply IH|]. intros [[c' t'] e'] s4 (ts & E4 & c1 & u1 & e1 & G4). apply wp_ret.
        eexists (_ :: ts), _. rewrite E, <- H, E4. split; [reflexivity|]. eapply gel_elseif; eassumption.
      + apply wp_ret. exists [], (BBlock []). split; [reflexivity|constructor].
    - intros e s4 (t4 & e4 & E4 & G4). apply wp_ret.
      eexists (t1 ++ _ :: t3 ++ t4). rewrite E1, E2, E3, E4. split; [now apps|]. eexists _, _, _. constructor; eassumption.
  Qed.
  Lemma fw_condblock m s : fw (parse_condblock pe pb m) s vcond.
  Proof.
    revert s; induction m as [|m IH]; intros s; [apply fw_fuel|]. cbn [parse_condblock].
    gbind; [apply (pe_sync_reads pe Mpe Hpe)|apply fw_synchronize; eapply fw_weaken; [apply Fpe|]|].
    { intros c r _ (d & e & G). exists (d ++ [kw KThen here]). eexists _, _, _. rewrite app_assoc. apply (gcn (c ++ d) e here [] [] [] (BBlock [])); [exact G|constructor|constructor]. }
    intros c s1 t1 E1 [G1 _]. apply fw_expect_keep; [intros; goes| |].
    { exists [kw KThen here]. eexists _, _, _. norm. apply (gcn t1 c here [] [] [] (BBlock [])); [exact G1|constructor|constructor]. }
    intros p s2 E2. gbind; [apply Hpb|eapply fw_weaken; [apply Fpb|]|].
    { intros x r _ V. apply vstatements_nested in V as (d & ss & G). exists d. eexists _, _, _.
      replace ((t1 ++ kw KThen p :: x) ++ d) with (t1 ++ kw KThen p :: (x ++ d) ++ []) by (norm; reflexivity). apply gcn; [exact G1|exact G|constructor]. }
    intros b s3 t3 E3 G3. apply block_nested in G3 as [ss G3].
    eapply fw_bind with (Q := fun _ rest => exists ts, toks s3 = ts ++ rest); [intros; goes| | |].
    - assert (R : forall (x : block) s, wp (ret x) s (fun _ rest => exists ts, toks s = ts ++ rest)) by (intros; apply wp_ret; exists []; reflexivity).
      apply wp_token; [intros; apply wp_fail|]. intros [k q] r E.
      assert (Hf : forall t, wp (A := block) (_ <- take_token ;; fail (unexpected_msg t "end, else or elseif") YBlockTerminator) s3
         (fun _ rest => exists ts, toks s3 = ts ++ rest)) by (intros; exact I).
      destruct k; try apply Hf. destruct k; try apply Hf.
      + wstep E. eapply wp_weaken; [apply Hpb|]. intros b' rest (ts & E4 & _). eexists (_ :: ts). rewrite E, <- H, E4. reflexivity.
      + wstep E. wbind; [apply condblock_reads_any|]. intros [[c' t'] e'] s4 (ts & E4 & _). apply wp_ret. eexists (_ :: ts). rewrite E, <- H, E4. reflexivity.
      + apply R.
    - assert (V0 : vcond (t1 ++ kw KThen p :: t3 ++ [])).
      { exists []. eexists _, _, _. rewrite app_nil_r. apply gcn; [exact G1|exact G3|constructor]. }
      apply fw_token; [intros; now apply fw_fail_eof|]. intros [k q] r E.
      assert (Hf : fw (A := block) (_ <- take_token ;; fail (unexpected_msg (tok k q) "end, else or elseif") YBlockTerminator) s3
         (fun c0 => vcond (t1 ++ kw KThen p :: t3 ++ c0))) by (eapply fw_take_fail; [exact E|reflexivity|exact V0]).
      destruct k; try exact Hf. destruct k; try exact Hf.
      + fstep E. eapply fw_weaken; [apply Fpb|]. intros x r' _ V. apply vstatements_nested in V as (d & ss' & G). exists d. eexists _, _, _.
        replace ((t1 ++ kw KThen p :: t3 ++ kw KElse q :: x) ++ d) with (t1 ++ kw KThen p :: t3 ++ (kw KElse q :: x ++ d)) by (norm; reflexivity).
        apply gcn; [exact G1|exact G3|]. apply gel_else; eassumption.
      + fstep E. gbind; [apply condblock_reads_any| |intros [[? ?] ?] ? ? _ _; apply fw_ret]. eapply fw_weaken; [apply IH|].
        intros x r' _ (d & c1 & u1 & e1 & G). exists d. eexists _, _, _.
        replace ((t1 ++ kw KThen p :: t3 ++ kw KElseIf q :: x) ++ d) with (t1 ++ kw KThen p :: t3 ++ (kw KElseIf q :: x ++ d)) by (norm; reflexivity).
        apply gcn; [exact G1|exact G3|]. apply gel_elseif; eassumption.
      + apply fw_ret.
    - intros e s4 (ts & E4). exists ts. split; [exact E4|apply fw_ret].
  Qed.

  Lemma fw_primary s : fw (parse_primary n pe pb) s (vexpr 0).
  Proof.
    assert (V0 : vexpr 0 []) by (exists [kw KSelf here], (ESelf here); apply g_self).
    unfold parse_primary. apply fw_token; [intros; now apply fw_fail_eof|]. intros [k p] r E.
    assert (Hf : fw (A := expr) (fail (unexpected_msg (tok k p) "expression") YKeep) s (vexpr 0)) by (eapply fw_fail; [exact E|reflexivity|exact V0]).
    assert (Hc : fw (b <- synchronize ill_command_block (parse_command_block n) ;; ret (ECommand b p)) s (vexpr 0)).
    { eapply fw_bind with (Q := fun _ rest => exists ts, toks s = ts ++ rest); [intros; goes|apply wp_synchronize; [mono|]; eapply wp_weaken; [apply command_block_reads|]|apply fw_synchronize; eapply fw_weaken; [apply fw_command_block|]|].
      - intros a rest (k' & p' & ts & E1 & _). eauto.
      - intros c r' _ (d & b & q & G). exists d. eexists. apply g_command. exact G.
      - intros b s1 (ts & E1). exists ts. split; [exact E1|apply fw_ret]. }
    destruct k; try exact Hf; try exact Hc.
    - fstep E. apply fw_ret.
    - destruct k; try exact Hf.
      + fstep E. gbind; [apply condblock_reads_any|eapply fw_weaken; [apply fw_condblock|]|].
        { intros c r' _ (d & x & t & e & G). exists (d ++ [kw KEnd here]). eexists. cbn [app]. rewrite app_assoc. apply g_if. exact G. }
        intros [[x t] e] s1 ts E1 (x' & t' & e' & G). apply fw_expect_sync; [intros; goes| |intros; apply fw_ret].
        exists [kw KEnd here]. eexists. norm. apply g_if. exact G.
      + fstep E. gbind; [apply (function_reads n pb Mpb Hpb)| |intros [? ?] ? ? _ _; apply fw_ret]. eapply fw_weaken; [apply fw_function|].
        intros c r' _ (d & ps & b & G). exists d. eexists. cbn [app]. apply g_function. exact G.
      + fstep E. apply fw_ret.
    - fstep E. apply fw_ret.
    - fstep E. gbind; [apply (pe_sync_reads pe Mpe Hpe)|apply fw_synchronize; eapply fw_weaken; [apply Fpe|]|].
      { intros c r' _ (d & e & G). exists (d ++ [tok TCloseParens here]). eexists. cbn [app]. rewrite app_assoc. apply g_parens. exact G. }
      intros e s1 ts E1 [G _]. apply fw_expect_sync; [intros; goes| |intros; apply fw_ret].
      exists [tok TCloseParens here]. eexists. norm. apply g_parens. exact G.
    - fstep E. gbind; [apply (exprs_reads n pe Mpe Hpe)|eapply fw_weaken; [apply fw_exprs|]|].
      { cbv beta. intros c r' _ (d & e & G). exists (d ++ [tok TCloseBracket here]). eexists. cbn [app]. rewrite app_assoc. apply g_array. exact G. }
      intros e s1 ts E1 G. cbv beta in G. apply fw_expect_sync; [intros; goes| |intros; apply fw_ret].
      exists [tok TCloseBracket here]. eexists. norm. apply g_array. exact G.
    - fstep E. gbind; [apply (items_reads n pe Mpe Hpe)|eapply fw_weaken; [apply fw_items|]|].
      { cbv beta. intros c r' _ (d & e & G). exists (d ++ [tok TCloseBracket here]). eexists. cbn [app]. rewrite app_assoc. apply g_dict. exact G. }
      intros e s1 ts E1 G. cbv beta in G. apply fw_expect_sync; [intros; goes| |intros; apply fw_ret].
      exists [tok TCloseBracket here]. eexists. norm. apply g_dict. exact G.
  Qed.
  Lemma fw_postfix_loop m e t0 s : gexpr 1 t0 e -> fw (postfix_loop n pe m e) s (fun c => vexpr 1 (t0 ++ c)).
  Proof.
    revert e t0 s; induction m as [|m IH]; intros e t0 s He; [apply fw_fuel|]. cbn [postfix_loop].
    assert (Hgo : forall s1 e1 t1, gexpr 1 (t0 ++ t1) e1 -> fw (postfix_loop n pe m e1) s1 (fun c => vexpr 1 (t0 ++ t1 ++ c))).
    { intros s1 e1 t1 G1. eapply fw_weaken; [apply (IH _ _ _ G1)|]. cbv beta. intros c r _ V. rewrite app_assoc. exact V. }
    apply fw_token; [intros; apply fw_ret|]. intros [k p] r E. destruct k; try apply fw_ret.
    - destruct o; try apply fw_ret.
      + fstep E. apply fw_ident; [intros [? ?]; goes| |].
        { exists [tok (TIdentifier []) here]. eexists. norm. apply g_dot. exact He. }
        intros x q s1 E1. cbv beta. apply (Hgo s1 _ [tok (TOperator ODot) p; tok (TIdentifier x) q]). apply g_dot. exact He.
      + fstep E. apply (Hgo s0 _ [tok (TOperator OTry) p]). apply g_try. exact He.
    - fstep E. gbind; [apply (exprs_reads n pe Mpe Hpe)|eapply fw_weaken; [apply fw_exprs|]|].
      { cbv beta. intros c r' _ (d & a & G). exists (d ++ [tok TCloseParens here]). eexists.
        replace ((t0 ++ tok TOpenParens p :: c) ++ d ++ [tok TCloseParens here]) with (t0 ++ tok TOpenParens p :: (c ++ d) ++ [tok TCloseParens here]) by (norm; reflexivity). apply g_call; eassumption. }
      intros a s1 ts E1 G. cbv beta in G. apply fw_expect_sync; [intros; goes| |].
      { exists [tok TCloseParens here]. eexists. norm. apply g_call; eassumption. }
      intros q s2 E2. cbv beta. eapply fw_weaken; [apply (Hgo s2 _ (tok TOpenParens p :: ts ++ [tok TCloseParens q])); apply g_call; eassumption|].
      cbv beta. intros c r' _ V. revert V. norm. auto.
    - fstep E. gbind; [apply (pe_sync_reads pe Mpe Hpe)|apply fw_synchronize; eapply fw_weaken; [apply Fpe|]|].
      { cbv beta. intros c r' _ (d & a & G). exists (d ++ [tok TCloseBracket here]). eexists.
        replace ((t0 ++ tok TOpenBracket p :: c) ++ d ++ [tok TCloseBracket here]) with (t0 ++ tok TOpenBracket p :: (c ++ d) ++ [tok TCloseBracket here]) by (norm; reflexivity). apply g_index; eassumption. }
      intros a s1 ts E1 [G _]. apply fw_expect_sync; [intros; goes| |].
      { exists [tok TCloseBracket here]. eexists. norm. apply g_index; eassumption. }
      intros q s2 E2. cbv beta. eapply fw_weaken; [apply (Hgo s2 _ (tok TOpenBracket p :: ts ++ [tok TCloseBracket q])); apply g_index; eassumption|].
      cbv beta. intros c r' _ V. revert V. norm. auto.
  Qed.
  Lemma fw_postfix s : fw (parse_postfix n pe pb) s (vexpr 1).
  Proof.
    unfold parse_postfix. gbind; [apply (primary_reads n pe pb Mpe Mpb Hpe Hpb)|eapply fw_weaken; [apply fw_primary|]|].
    - intros c r _ (d & e & G). exists d, e. apply g_up; [lia|exact G].
    - intros e s1 t1 E1 G1. apply fw_postfix_loop. apply g_up; [lia|exact G1].
  Qed.
  Lemma fw_prefix m s : fw (parse_prefix n pe pb m) s (vexpr 2).
  Proof.
    revert s; induction m as [|m IH]; intros s; [apply fw_fuel|]. cbn [parse_prefix].
    assert (Hp : fw (parse_postfix n pe pb) s (vexpr 2)).
    { eapply fw_weaken; [apply fw_postfix|]. intros c r _ (d & e & G). exists d, e. apply g_up; [lia|exact G]. }
    apply fw_token; [intros; exact Hp|]. intros [k p] r E. destruct k; try exact Hp. destruct (is_prefix o) eqn:O; [|exact Hp].
    fstep E. gbind; [apply (prefix_reads n pe pb Mpe Mpb Hpe Hpb)| |intros; apply fw_ret]. eapply fw_weaken; [apply IH|].
    intros c r' _ (d & e & G). exists d. eexists. cbn [app]. apply (g_prefix o (unary_of o)); [|exact G]. destruct o; try discriminate; reflexivity.
  Qed.
  Lemma fw_binop l check higher :
    (forall o, check o = true <-> exists b, binop o = Some (S l, b)) -> l < 9 -> 2 <= l ->
    mono higher -> goes higher ->
    reads higher (fun ts e rest => gexpr l ts e /\ stops l rest) -> (forall s, fw higher s (vexpr l)) ->
    forall s, fw (parse_binop n higher check) s (vexpr (S l)).
  Proof.
    intros Hcheck Hl Hl2 Mh Gh Hh Fh.
    assert (Hloop : forall m e t0 s, gexpr (S l) t0 e -> fw (binop_loop m higher check e) s (fun c => vexpr (S l) (t0 ++ c))).
    { induction m as [|m IH]; intros e t0 s He; [apply fw_fuel|]. cbn [binop_loop].
      apply fw_token; [intros; apply fw_ret|]. intros [k p] r E. destruct k; try apply fw_ret. destruct (check o) eqn:O; [|apply fw_ret].
      apply Hcheck in O as (b & O). fstep E. gbind; [apply Hh|eapply fw_weaken; [apply Fh|]|].
      - intros c r' _ (d & e2 & G). exists d. eexists. rewrite <- app_assoc. cbn [app]. eapply g_binary; eassumption.
      - intros e2 s1 t2 E2 [G2 _]. cbv beta. assert (binary_of o = b) as -> by (destruct o; try discriminate; injection O; auto).
        eapply fw_weaken; [apply (IH _ (t0 ++ tok (TOperator o) p :: t2)); eapply g_binary; eassumption|]. cbv beta. intros c r' _ V. revert V. norm. auto. }
    intros s. unfold parse_binop. gbind; [apply Hh|eapply fw_weaken; [apply Fh|]|].
    - intros c r _ (d & e & G). exists d, e. now apply g_up.
    - intros e s1 t1 E1 [G1 _]. apply Hloop. now apply g_up.
  Qed.
  Lemma fw_expression s : fw (expression_body n pe pb) s (vexpr 9).
  Proof.
    unfold expression_body.
    Ltac chk := let o := fresh "o" in intros o; split;
      [destruct o; intros E0; try discriminate E0; cbn; eauto|intros (b & E0); destruct o; try discriminate E0; reflexivity].
    revert s.
    do 7 (apply fw_binop; [chk|lia|lia|repeat apply mono_binop; mono|repeat apply goes_binop; goes|
      repeat (apply binop_reads; [chk|lia|lia|repeat apply mono_binop; mono|]); apply (prefix_reads n pe pb Mpe Mpb Hpe Hpb)|]).
    apply fw_prefix.
  Qed.

  Lemma statement_viable c d st b : gstatement (c ++ d) st b -> vstatements c.
  Proof. intros G. exists d, [st]. rewrite <- (app_nil_r (c ++ d)). eapply gss_cons; [exact G|apply gss_nil|reflexivity]. Qed.
  Lemma statements_viable b c ss : gstatements b c ss -> exists d ss', gstatements false (c ++ d) ss' /\ (c = [] -> d = []).
  Proof.
    induction 1.
    - exists [], []. split; [apply gss_nil|reflexivity].
    - exists []. eexists. rewrite app_nil_r. split; [apply gss_return; eassumption|reflexivity].
    - exists [kw KSelf here]. eexists. split; [apply gss_return, self_expr|discriminate].
    - destruct IHgstatements as (d & ss' & G & N). exists d, (s :: ss'). rewrite <- app_assoc. split.
      + eapply gss_cons; [exact H|exact G|]. intros E. specialize (H1 E). destruct t2; [rewrite N by reflexivity; exact H1|exact H1].
      + intros E. apply app_eq_nil in E as [E1 E2]. exact (N E2).
  Qed.
  Lemma fw_expression_statement s0 : fw (e <- pe ;;
          with_token (fun t =>
            match t with
            | Some (mktoken (TOperator OAssign) p) =>
              _ <- step ;; r <- pe ;; ret (SAssign e r p)
            | _ => ret (SExpr e)
            end)) s0 vstatements.
  Proof.
    gbind; [apply Hpe|eapply fw_weaken; [apply Fpe|]|].
    - intros c r _ (d & e & G). eapply statement_viable. apply gs_expr. exact G.
    - intros e s1 t1 E1 [G1 _]. apply fw_token; [intros; apply fw_ret|]. intros [k p] r E. destruct k; try apply fw_ret. destruct o; try apply fw_ret.
      fstep E. gbind; [apply Hpe|eapply fw_weaken; [apply Fpe|]|intros; apply fw_ret].
      intros c r' _ (d & e2 & G). eapply (statement_viable _ d). rewrite <- app_assoc. cbn [app]. apply gs_assign; eassumption.
  Qed.
  Lemma fw_statement s : toks s <> [] -> fw (parse_statement n pe pb) s vstatements.
  Proof.
    intros NE. unfold parse_statement. apply fw_token; [congruence|]. intros [k p] r E. cbv zeta.
    destruct k; try apply fw_expression_statement. destruct k; try apply fw_expression_statement; cbn [tk_kind tk_pos].
    - fstep E. refine (proj2 (fw_ident_sync _ YKeep _ _ _ _ _)); [intros [? ?]; goes| |].
      { apply (statement_viable _ [tok (TIdentifier []) here] (SLet [] (ELit LNil here) here) false). apply gs_let_nil. }
      intros x q s1 E1. cbv beta iota.
      eapply fw_bind with (Q := fun _ rest => exists ts, toks s1 = ts ++ rest); [intros; goes| | |intros e s2 (ts & E2); exists ts; split; [exact E2|apply fw_ret]].
      + assert (Hr : wp (ret (ELit LNil q)) s1 (fun _ rest => exists ts, toks s1 = ts ++ rest)) by (apply wp_ret; exists []; reflexivity).
        apply wp_token; [intros; exact Hr|]. intros [k' p'] r' E'. destruct k'; try exact Hr. destruct o; try exact Hr.
        wstep E'. eapply wp_weaken; [apply Hpe|]. intros e rest (ts & E2 & _). exists (tok (TOperator OAssign) p' :: ts). rewrite E', <- H, E2. reflexivity.
      + apply fw_token; [intros; apply fw_ret|]. intros [k' p'] r' E'. destruct k'; try apply fw_ret. destruct o; try apply fw_ret.
        fstep E'. eapply fw_weaken; [apply Fpe|]. intros c r'' _ (d & e & G). eapply (statement_viable _ d). cbn [app]. apply gs_let. exact G.
    - fstep E. refine (proj2 (fw_ident_sync _ YKeep _ _ _ _ _)); [intros [? ?]; goes| |].
      { apply (statement_viable _ ([tok (TIdentifier []) here; kw KIn here] ++ [kw KSelf here] ++ kw KDo here :: [] ++ [kw KEnd here]) (SFor [] (ESelf here) (BBlock []) here) false).
        apply (gs_for p [] here here [kw KSelf here] (ESelf here) here [] [] here); [apply self_expr|apply gss_nil]. }
      intros x q s1 E1. cbv beta iota. apply fw_expect_keep; [intros; goes| |].
      { apply (statement_viable _ (kw KIn here :: [kw KSelf here] ++ kw KDo here :: [] ++ [kw KEnd here]) (SFor x (ESelf here) (BBlock []) q) false).
        apply (gs_for p x q here [kw KSelf here] (ESelf here) here [] [] here); [apply self_expr|apply gss_nil]. }
      intros q1 s2 E2. gbind; [apply (pe_sync_reads pe Mpe Hpe)|apply fw_synchronize; eapply fw_weaken; [apply Fpe|]|].
      { intros c r' _ (d & e & G). apply (statement_viable _ (d ++ kw KDo here :: [] ++ [kw KEnd here]) (SFor x e (BBlock []) q) false). cbn [app]. rewrite app_assoc.
        apply (gs_for p x q q1 (c ++ d) e here [] [] here); [exact G|apply gss_nil]. }
      intros e s3 t3 E3 [G3 _]. apply fw_expect_keep; [intros; goes| |].
      { apply (statement_viable _ (kw KDo here :: [] ++ [kw KEnd here]) (SFor x e (BBlock []) q) false). norm.
        apply (gs_for p x q q1 t3 e here [] [] here); [exact G3|apply gss_nil]. }
      intros q2 s4 E4. gbind; [apply Hpb|eapply fw_weaken; [apply Fpb|]|].
      { intros c r' _ V. apply vstatements_nested in V as (d & ss & G). apply (statement_viable _ (d ++ [kw KEnd here]) (SFor x e (BBlock ss) q) false).
        replace ((kw KFor p :: tok (TIdentifier x) q :: kw KIn q1 :: t3 ++ kw KDo q2 :: c) ++ d ++ [kw KEnd here])
          with (kw KFor p :: tok (TIdentifier x) q :: kw KIn q1 :: t3 ++ kw KDo q2 :: (c ++ d) ++ [kw KEnd here]) by (norm; reflexivity).
        apply gs_for; eassumption. }
      intros b s5 t5 E5 G5. apply block_nested in G5 as [ss G5]. apply fw_expect_sync; [intros; goes| |intros; apply fw_ret].
      apply (statement_viable _ [kw KEnd here] (SFor x e (BBlock ss) q) false). norm. apply gs_for; eassumption.
    - fstep E. gbind; [apply (pe_sync_reads pe Mpe Hpe)|apply fw_synchronize; eapply fw_weaken; [apply Fpe|]|].
      { intros c r' _ (d & e & G). apply (statement_viable _ (d ++ kw KDo here :: [] ++ [kw KEnd here]) (SWhile e (BBlock []) p) false). cbn [app]. rewrite app_assoc.
        apply (gs_while p (c ++ d) e here [] [] here); [exact G|apply gss_nil]. }
      intros e s3 t3 E3 [G3 _]. apply fw_expect_keep; [intros; goes| |].
      { apply (statement_viable _ (kw KDo here :: [] ++ [kw KEnd here]) (SWhile e (BBlock []) p) false). norm.
        apply (gs_while p t3 e here [] [] here); [exact G3|apply gss_nil]. }
      intros q2 s4 E4. gbind; [apply Hpb|eapply fw_weaken; [apply Fpb|]|].
      { intros c r' _ V. apply vstatements_nested in V as (d & ss & G). apply (statement_viable _ (d ++ [kw KEnd here]) (SWhile e (BBlock ss) p) false).
        replace ((kw KWhile p :: t3 ++ kw KDo q2 :: c) ++ d ++ [kw KEnd here])
          with (kw KWhile p :: t3 ++ kw KDo q2 :: (c ++ d) ++ [kw KEnd here]) by (norm; reflexivity).
        apply gs_while; eassumption. }
      intros b s5 t5 E5 G5. apply block_nested in G5 as [ss G5]. apply fw_expect_sync; [intros; goes| |intros; apply fw_ret].
      apply (statement_viable _ [kw KEnd here] (SWhile e (BBlock ss) p) false). norm. apply gs_while; eassumption.
    - eapply fw_peek; [exact E|]. intros s1 E1. destruct r as [|[k' p'] r]; cbn [hd_error]; [apply fw_expression_statement|].
      destruct k'; try apply fw_expression_statement.
      fstep E1. apply fw_ident; [intros [? ?]; goes| |].
      { apply (statement_viable _ [tok (TIdentifier []) here; tok TOpenParens here; tok TCloseParens here; kw KEnd here] (SLet [] (EFunction [] (BBlock []) p) here) false).
        apply (gs_function p [] here). apply (gf here [] [] here [] [] here); [apply gpa_nil|apply gss_nil]. }
      intros x q s3 E3. cbv beta iota. gbind; [apply (function_reads n pb Mpb Hpb)| |intros [? ?] ? ? _ _; apply fw_ret]. eapply fw_weaken; [apply fw_function|].
      intros c r' _ (d & ps & b & G). eapply (statement_viable _ d). cbn [app]. apply gs_function. exact G.
    - fstep E. eapply fw_bind with (Q := fun _ rest => exists ts, toks s0 = ts ++ rest); [intros; goes| | |intros e s2 (ts & E2); exists ts; split; [exact E2|apply fw_ret]].
      + assert (Hr : wp pe s0 (fun _ rest => exists ts, toks s0 = ts ++ rest)) by (eapply wp_weaken; [apply Hpe|]; intros e rest (ts & E2 & _); eauto).
        apply wp_token; [intros; exact Hr|]. intros t' r' E'. destruct (is_block_terminator _); [|exact Hr]. apply wp_ret. exists []; reflexivity.
      + assert (Hr : fw pe s0 (fun c => vstatements (kw KReturn p :: c))).
        { eapply fw_weaken; [apply Fpe|]. intros c r' _ (d & e & G). exists d. eexists. cbn [app]. apply gss_return. exact G. }
        apply fw_token; [intros; exact Hr|]. intros t' r' E'. destruct (is_block_terminator _); [apply fw_ret|exact Hr].
    - fstep E. apply fw_ret.
  Qed.
  Lemma head_continues c r d ss : stops 9 (c ++ r) -> gstatements false (c ++ d) ss -> (c = [] -> d = []) -> continues (c ++ d) = false.
  Proof.
    intros S G N. destruct c as [|t c]; [rewrite N by reflexivity; reflexivity|].
    apply (stops_continues _ r); [exact S|]. intros p r'. eapply gstatements_not_assign; exact G.
  Qed.
  Lemma fw_block_loop m s : fw (block_loop n pe pb m) s vstatements.
  Proof.
    revert s; induction m as [|m IH]; intros s; [apply fw_fuel|]. cbn [block_loop].
    apply fw_token; [intros; apply fw_ret|]. intros t r E. destruct (is_block_terminator (tk_kind t)); [apply fw_ret|].
    eapply fw_bind; [intros []; goes|apply wp_synchronize; [mono|apply wp_force; apply (statement_reads n pe pb Mpe Mpb Hpe Hpb)]| |].
    { apply fw_synchronize, fw_force, fw_statement. congruence. }
    intros st s1 (t1 & E1 & G1). exists t1. split; [exact E1|].
    assert (Hgo : match st with SReturn _ _ => False | _ => True end -> one_statement t1 st (toks s1) ->
       fw (rest <- block_loop n pe pb m ;; ret (st :: rest)) s1 (fun c => vstatements (t1 ++ c))).
    { intros Hn G. assert (G' : exists b, gstatement t1 st b /\ (b = true -> stops 9 (toks s1))).
      { destruct st; auto. destruct Hn. }
      destruct G' as (b & Gs & Fs). gbind; [apply (block_loop_reads n pe pb Mpe Mpb Hpe Hpb)|eapply fw_weaken; [apply IH|]|intros; apply fw_ret].
      intros c r' Ec (d & ss & G2).
      assert (exists d ss, gstatements false (c ++ d) ss /\ (c = [] -> d = [])) as (d' & ss' & G2' & N).
      { destruct c; [exists [], []; split; [apply gss_nil|reflexivity]|exists d, ss; split; [exact G2|discriminate]]. }
      exists d', (st :: ss'). rewrite <- app_assoc. eapply gss_cons; [exact Gs|exact G2'|]. intros Eb.
      eapply head_continues; [rewrite <- Ec; apply Fs; exact Eb|exact G2'|exact N]. }
    destruct st; try (apply Hgo; [exact I|exact G1]). apply fw_ret.
  Qed.
End Viable.

Lemma fw_both n : (forall s, fw (parse_expression n) s (vexpr 9)) /\ (forall s, fw (parse_block n) s vstatements).
Proof.
  induction n as [|n [IHe IHb]]; [split; intros s; apply fw_fuel|].
  pose proof (parse_reads n) as [Re Rb]. pose proof (goes_both n) as [Ge Gb]. split; intros s.
  - cbn [parse_expression]. apply fw_expression; auto; intros s'; [apply mono_expression|apply mono_block].
  - cbn [parse_block]. eapply fw_bind with (Q := fun _ rest => exists ts, toks s = ts ++ rest); [intros; goes| | |].
    + eapply wp_weaken; [apply block_loop_reads; auto; intros s'; [apply mono_expression|apply mono_block]|]. intros a rest (ts & T & _). eauto.
    + apply fw_block_loop; auto; intros s'; [apply mono_expression|apply mono_block].
    + intros ss s1 (ts & E). exists ts. split; [exact E|apply fw_ret].
Qed.

Lemma fw_program n m s : fw (parse_program n (parse_block m)) s hopeful.
Proof.
  revert s; induction n as [|n IH]; intros s; [apply fw_fuel|]. cbn [parse_program].
  pose proof (goes_both m) as [Ge Gb]. pose proof (goes_program n _ Gb) as Gp. 
  gbind; [apply (parse_reads m)|eapply fw_weaken; [apply fw_both|]|].
  { intros c r _ (d & ss & G). exists d. eexists. apply gp_last. exact G. }
  intros b s1 t1 E1 (ss & -> & G1 & F1).
  assert (H1 : hopeful (t1 ++ [])).
  { destruct (statements_viable _ _ _ G1) as (d & ss' & G & _). exists d. eexists. rewrite app_nil_r. apply gp_last. exact G. }
  apply fw_token; [intros; apply fw_ret|]. intros t r E. destruct (is_block_terminator (tk_kind t)) eqn:T.
  - (* the error is the one about this token *)
    intros N. unfold bind at 1, take_token. unfold bind, synchronize, fail. set (s2 := sync _ _ _).
    assert (Es : ps_errors s2 = [(ps_left (mkps None (ps_rest s1) (ps_left s1) (ps_errors s1)), unexpected_msg t "statement")]).
    { unfold s2, sync. cbn. rewrite N. reflexivity. }
    pose proof (Gp s2) as X.
    assert (K : stuck (fun c => hopeful (t1 ++ c)) (toks s1) (unexpected_msg t "statement")).
    { exists [], (t :: r). split; [exact E|]. split; [reflexivity|exact H1]. }
    destruct (parse_program n (parse_block m) s2) as [a s3|e y s3|]; auto; destruct (errors_first _ _ _ _ Es X) as [l' ->]; exact K.
  - assert (F2 : ends_in_return ss /\ stops 9 (toks s1)).
    { rewrite E in F1. unfold block_rest in F1. destruct t as [k p]. cbn in T. destruct F1 as [F1|[F1|F1]]; [discriminate|cbn in F1; congruence|rewrite E; exact F1]. }
    destruct F2 as [F2 F3]. eapply fw_weaken; [apply IH|]. intros c r' Ec (d & b & G). destruct c as [|x c]; [exact H1|].
    exists d, b. rewrite <- app_assoc. apply gp_more with (ss := ss); auto.
    + rewrite E in G1. destruct t as [k p]. cbn in T, G1. rewrite T in G1. exact G1.
    + discriminate.
    + apply (stops_continues _ r'); [rewrite Ec in F3; exact F3|]. intros p0 r0. eapply gprogram_not_assign; exact G.
Qed.

Lemma nodup_split {A} (t : A) l1 l2 r1 r2 : NoDup (l1 ++ t :: r1) -> l1 ++ t :: r1 = l2 ++ t :: r2 -> l1 = l2.
Proof.
  revert l2. induction l1 as [|a l1 IH]; intros [|b l2] N E; cbn in *; auto.
  - injection E as <- ->. apply NoDup_cons_iff in N as [N _]. destruct N. apply in_or_app. right. left. reflexivity.
  - injection E as -> E. apply NoDup_cons_iff in N as [N _]. destruct N. apply in_or_app. right. left. reflexivity.
  - injection E as -> E. apply NoDup_cons_iff in N as [_ N]. f_equal. eapply IH; eauto.
Qed.
Lemma first_stuck ts b e es r : parse_tokens ts = Parsed b (e :: es) r -> stuck hopeful ts e.
Proof.
  unfold parse_tokens, parse_tokens_with. intros H. pose proof (fw_program (parser_fuel ts) (parser_fuel ts) (pnew ts)) as F. unfold fw in F.
  destruct (parse_program _ _ _) as [b' s|e' y s|]; try discriminate. injection H as -> E _.
  specialize (F ltac:(unfold pnew; reflexivity)). unfold pnew in F. rewrite toks_list in F. destruct (ps_errors s) as [|[k e'] l]; [discriminate|].
  cbn in E. injection E as -> _. exact F.
Qed.
Lemma hope_until src pre t after b les e es :
  analyze src = Analysis b les (e :: es) -> subject e = Some t -> source_tokens src = pre ++ t :: after -> hopeful pre.
Proof.
  intros A T E. apply analysis_parsed in A as [r A]. apply first_stuck in A as (c & rest & C & S & H). rewrite T in S.
  destruct rest as [|x rest]; [discriminate|]. injection S as ->. pose proof (source_nodup src) as N.
  change (tokens_of (outputs (Lexer.lex src))) with (source_tokens src) in *. rewrite E in *. rewrite (nodup_split _ _ _ _ _ N C). exact H.
Qed.
Lemma hope_at_end src b les e es :
  analyze src = Analysis b les (e :: es) -> subject e = None -> hopeful (source_tokens src).
Proof.
  intros A T. apply analysis_parsed in A as [r A]. apply first_stuck in A as (c & rest & C & S & H). rewrite T in S. subst rest.
  rewrite app_nil_r in C. change (tokens_of (outputs (Lexer.lex src))) with (source_tokens src) in C. rewrite C. exact H.
Qed.
