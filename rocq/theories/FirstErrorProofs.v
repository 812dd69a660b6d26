(** The first error of the parser does not depend on tokens it has not asked for. *)
From Coq Require Import Strings.String.
From Verif Require Import Base Lexer Ast Program Sema Value Text StdLib SpecReport Parser SpecLexer SpecParser SpecPlace SpecFirst LexerProofs LexerFactsProofs ParserTermProofs ParserMarkProofs ParserFactsProofs PlaceProofs.
From Coq Require Import Lia Sorting.Sorted.

(** ** Reading on takes nothing back *)
Definition onward (s s1 : pstate) : Prop :=
  ps_left s1 <= ps_left s /\ exists more, ps_errors s1 = ps_errors s ++ more /\ Forall (fun e => fst e <= ps_left s) more.
Definition goes {A} (m : P A) : Prop :=
  forall s, match m s with Ok _ s1 | Er _ _ s1 => onward s s1 | PFuel => True end.
Lemma onward_refl s : onward s s.
Proof. split; [lia|]. exists []. rewrite app_nil_r. split; [reflexivity|constructor]. Qed.
Lemma onward_trans a b c : onward a b -> onward b c -> onward a c.
Proof.
  intros [L1 (m1 & E1 & F1)] [L2 (m2 & E2 & F2)]. split; [lia|]. exists (m1 ++ m2). rewrite E2, E1, app_assoc. split; [reflexivity|].
  apply Forall_app. split; [exact F1|]. eapply Forall_impl; [|exact F2]. cbn. intros x H. lia.
Qed.
Lemma onward_less s t r k : k <= ps_left s -> onward s (mkps t r k (ps_errors s)).
Proof. intros H. split; [exact H|]. exists []. cbn. rewrite app_nil_r. split; [reflexivity|constructor]. Qed.
Lemma onward_sync e y s : onward s (sync e y s).
Proof.
  split; [unfold sync; destruct (ps_token s); cbn; lia|]. exists [(ps_left s, e)]. split; [unfold sync; destruct (ps_token s); reflexivity|].
  constructor; [cbn; lia|constructor].
Qed.

Lemma goes_ret {A} (a : A) : goes (ret a).
Proof. intros s. apply onward_refl. Qed.
Lemma goes_fail {A} e y : goes (@fail A e y).
Proof. intros s. apply onward_refl. Qed.
Lemma goes_fuel {A} : goes (@out_of_fuel A).
Proof. intros s. exact I. Qed.
Lemma goes_step : goes step.
Proof. intros s. apply onward_less. lia. Qed.
Lemma goes_peek : goes ppeek.
Proof. intros s. apply onward_less. lia. Qed.
Lemma goes_take : goes take_token.
Proof. intros s. apply onward_less. lia. Qed.
Lemma goes_bind {A B} (m : P A) (k : A -> P B) : goes m -> (forall a, goes (k a)) -> goes (bind m k).
Proof.
  intros G K s. unfold bind. specialize (G s). destruct (m s) as [a s1|e y s1|]; auto. specialize (K a s1).
  destruct (k a s1); auto; eapply onward_trans; eassumption.
Qed.
Lemma goes_with_token {A} (k : option token -> P A) : (forall t, goes (k t)) -> goes (with_token k).
Proof. intros H s. exact (H _ s). Qed.
Lemma goes_synchronize {A} (ill : A) m : goes m -> goes (synchronize ill m).
Proof. intros G s. unfold synchronize. specialize (G s). destruct (m s); auto. eapply onward_trans; [exact G|apply onward_sync]. Qed.
Lemma goes_with_sync {A} y (m : P A) : goes m -> goes (with_sync y m).
Proof. intros G s. unfold with_sync. specialize (G s). destruct (m s); auto. Qed.
Lemma goes_force {A} (m : P A) : goes m -> goes (force_sync_skip m).
Proof. intros G s. unfold force_sync_skip. specialize (G s). destruct (m s) as [| ? [] ?|]; auto. Qed.
Lemma goes_eat {A} (f : token -> A + perror) : goes (eat f).
Proof.
  unfold eat. apply goes_with_token. intros [t|]; [|apply goes_fail].
  destruct (f t); [apply goes_bind; [apply goes_step|intros; apply goes_ret]|apply goes_fail].
Qed.
Lemma goes_expect k : goes (expect k).
Proof. apply goes_eat. Qed.
Lemma goes_identifier : goes parse_identifier.
Proof. apply goes_with_sync, goes_eat. Qed.
Lemma goes_argument : goes parse_argument.
Proof. apply goes_eat. Qed.
#[export] Hint Resolve goes_ret goes_fail goes_fuel goes_step goes_peek goes_take goes_expect goes_identifier goes_argument : goes.
Ltac goes1 :=
  match goal with
  | |- goes (bind _ _) => apply goes_bind; [|intros]
  | |- goes (with_token _) => apply goes_with_token; intros
  | |- goes (synchronize _ _) => apply goes_synchronize
  | |- goes (with_sync _ _) => apply goes_with_sync
  | |- goes (force_sync_skip _) => apply goes_force
  | |- goes (eat _) => apply goes_eat
  | |- goes (match ?x with _ => _ end) => destruct x
  | |- _ => solve [auto with goes]
  end.
Ltac goes := repeat goes1.
Lemma goes_sep_by {A} n (ill : A) parse sep stop : goes parse -> goes (sep_by n ill parse sep stop).
Proof. intros Hparse. induction n; intros; cbn [sep_by]; goes. Qed.
#[export] Hint Resolve goes_sep_by : goes.
Lemma goes_comma_sep {A} n (ill : A) parse stop : goes parse -> goes (comma_sep n ill parse stop).
Proof. apply goes_sep_by. Qed.
#[export] Hint Resolve goes_comma_sep : goes.
Lemma goes_semicolon_sep {A} n (ill : A) parse stop : goes parse -> goes (semicolon_sep n ill parse stop).
Proof. apply goes_sep_by. Qed.
#[export] Hint Resolve goes_semicolon_sep : goes.
Lemma goes_env_assign : goes (parse_env_assign).
Proof. unfold parse_env_assign; goes. Qed.
#[export] Hint Resolve goes_env_assign : goes.
Lemma goes_env n : goes (parse_env n).
Proof. induction n; intros; cbn [parse_env]; goes. Qed.
#[export] Hint Resolve goes_env : goes.
Lemma goes_fd : goes (parse_file_descriptor).
Proof. unfold parse_file_descriptor; goes. Qed.
#[export] Hint Resolve goes_fd : goes.
Lemma goes_output_redirection z : goes (parse_output_redirection z).
Proof. unfold parse_output_redirection; goes. Qed.
#[export] Hint Resolve goes_output_redirection : goes.
Lemma goes_redirection : goes (parse_redirection).
Proof. unfold parse_redirection; goes. Qed.
#[export] Hint Resolve goes_redirection : goes.
Lemma goes_operators n : goes (parse_operators n).
Proof. induction n; intros; cbn [parse_operators]; goes. Qed.
#[export] Hint Resolve goes_operators : goes.
Lemma goes_redirection_next : goes (is_redirection_next).
Proof. unfold is_redirection_next; goes. Qed.
#[export] Hint Resolve goes_redirection_next : goes.
Lemma goes_arguments n : goes (parse_arguments n).
Proof. induction n; intros; cbn [parse_arguments]; goes. Qed.
#[export] Hint Resolve goes_arguments : goes.
Lemma goes_basic n : goes (parse_basic_command n).
Proof. unfold parse_basic_command; goes. Qed.
#[export] Hint Resolve goes_basic : goes.
Lemma goes_pipe n b : goes b -> goes (parse_pipe n b).
Proof. intros Hb. induction n; intros; cbn [parse_pipe]; goes. Qed.
#[export] Hint Resolve goes_pipe : goes.
Lemma goes_command n : goes (parse_command n).
Proof. unfold parse_command; goes. Qed.
#[export] Hint Resolve goes_command : goes.
Lemma goes_command_block n : goes (parse_command_block n).
Proof. unfold parse_command_block; goes. Qed.
#[export] Hint Resolve goes_command_block : goes.
Lemma goes_expect_sync k y : goes (expect_sync k y).
Proof. unfold expect_sync; goes. Qed.
#[export] Hint Resolve goes_expect_sync : goes.
Lemma goes_expect_keep k y : goes (expect_keep k y).
Proof. unfold expect_keep; goes. Qed.
#[export] Hint Resolve goes_expect_keep : goes.
Lemma goes_open : goes (fun s => match expect TOpenParens s with Ok _ s' => Ok true s' | Er e _ s' => Ok false (sync e YKeep s') | PFuel => PFuel end).
Proof. intros s. pose proof (goes_expect TOpenParens s) as G. destruct (expect TOpenParens s); auto. eapply onward_trans; [exact G|apply onward_sync]. Qed.
Lemma goes_function n pb : goes pb -> goes (parse_function n pb).
Proof. intros. unfold parse_function. apply goes_bind; [exact goes_open|intros; goes]. Qed.
#[export] Hint Resolve goes_function : goes.
Lemma goes_condblock pe pb m : goes pe -> goes pb -> goes (parse_condblock pe pb m).
Proof. intros Hpe Hpb. induction m; intros; cbn [parse_condblock]; goes. Qed.
#[export] Hint Resolve goes_condblock : goes.
Lemma goes_dict_item pe : goes pe -> goes (parse_dict_item pe).
Proof. intros. unfold parse_dict_item; goes. Qed.
#[export] Hint Resolve goes_dict_item : goes.
Lemma goes_primary n pe pb : goes pe -> goes pb -> goes (parse_primary n pe pb).
Proof. intros. unfold parse_primary; goes. Qed.
#[export] Hint Resolve goes_primary : goes.
Lemma goes_postfix_loop n pe m e : goes pe -> goes (postfix_loop n pe m e).
Proof. intros Hpe. revert e; induction m; intros; cbn [postfix_loop]; goes. Qed.
#[export] Hint Resolve goes_postfix_loop : goes.
Lemma goes_postfix n pe pb : goes pe -> goes pb -> goes (parse_postfix n pe pb).
Proof. intros. unfold parse_postfix; goes. Qed.
#[export] Hint Resolve goes_postfix : goes.
Lemma goes_prefix n pe pb m : goes pe -> goes pb -> goes (parse_prefix n pe pb m).
Proof. intros Hpe Hpb. induction m; intros; cbn [parse_prefix]; goes. Qed.
#[export] Hint Resolve goes_prefix : goes.
Lemma goes_binop_loop m h check e : goes h -> goes (binop_loop m h check e).
Proof. intros Hh. revert e; induction m; intros; cbn [binop_loop]; goes. Qed.
#[export] Hint Resolve goes_binop_loop : goes.
Lemma goes_binop n h check : goes h -> goes (parse_binop n h check).
Proof. intros. unfold parse_binop; goes. Qed.
#[export] Hint Resolve goes_binop : goes.
Lemma goes_expression_body n pe pb : goes pe -> goes pb -> goes (expression_body n pe pb).
Proof. intros. unfold expression_body. repeat apply goes_binop. goes. Qed.
#[export] Hint Resolve goes_expression_body : goes.
Lemma goes_statement n pe pb : goes pe -> goes pb -> goes (parse_statement n pe pb).
Proof. intros. unfold parse_statement; goes. Qed.
#[export] Hint Resolve goes_statement : goes.
Lemma goes_block_loop n pe pb m : goes pe -> goes pb -> goes (block_loop n pe pb m).
Proof. intros Hpe Hpb. induction m; intros; cbn [block_loop]; goes. Qed.
#[export] Hint Resolve goes_block_loop : goes.
Lemma goes_both n : goes (parse_expression n) /\ goes (parse_block n).
Proof.
  induction n as [|n [IHe IHb]]; [split; intros s; exact I|]. split.
  - cbn [parse_expression]. apply goes_expression_body; [exact IHe|exact IHb].
  - cbn [parse_block]. apply goes_bind; [|intros; apply goes_ret]. apply goes_block_loop; [exact IHe|exact IHb].
Qed.
Lemma goes_program n b : goes b -> goes (parse_program n b).
Proof. intros H. induction n; cbn [parse_program]; goes. Qed.

Section Agree.
(** The tokens after those the two lists share *)
Variables x1 x2 : list token.

(** No error yet, and both runs have read the same shared tokens. *)
Definition rel (s s' : pstate) : Prop :=
  ps_token s = ps_token s' /\ (exists r, ps_rest s = r ++ x1 /\ ps_rest s' = r ++ x2) /\
  ps_errors s = [] /\ ps_errors s' = [] /\ length x1 < ps_left s.
(** The first run has read on without an error. *)
Definition passed (s : pstate) : Prop :=
  match ps_errors s with [] => ps_left s <= length x1 | (k, _) :: _ => k <= length x1 end.
(** Both have reported the same first error. *)
Definition done (s s' : pstate) : Prop :=
  exists k k' e l l', ps_errors s = (k, e) :: l /\ ps_errors s' = (k', e) :: l' /\ length x1 < k.
Definition over (s s' : pstate) : Prop := passed s \/ done s s'.
Definition rpost {A} (r r' : res A) : Prop :=
  match r, r' with
  | PFuel, _ | _, PFuel => True
  | Ok a s, Ok a' s' => (a = a' /\ rel s s') \/ over s s'
  | Er e y s, Er e' y' s' => (e = e' /\ y = y' /\ rel s s') \/ over s s'
  | Ok _ s, Er _ _ s' | Er _ _ s, Ok _ s' => over s s'
  end.
Definition same {A} (m m' : P A) : Prop := goes m /\ goes m' /\ forall s s', rel s s' -> rpost (m s) (m' s').

Lemma over_on s s' s1 s1' : over s s' -> onward s s1 -> onward s' s1' -> over s1 s1'.
Proof.
  intros [B|(k & k' & e & l & l' & E & E' & L)] [L1 (m & M & F)] [_ (m' & M' & _)].
  - left. unfold passed in *. rewrite M. destruct (ps_errors s) as [|[k e] l]; cbn.
    + destruct m as [|[k e] m]; [lia|]. inversion F; subst. cbn in *. lia.
    + exact B.
  - right. exists k, k', e, (l ++ m), (l' ++ m'). rewrite M, M', E, E'. auto.
Qed.

Lemma same_ret {A} (a : A) : same (ret a) (ret a).
Proof. split; [|split]; try (intros s; apply onward_refl). intros s s' H. left. auto. Qed.
Lemma same_fail {A} e y : same (@fail A e y) (fail e y).
Proof. split; [|split]; try (intros s; apply onward_refl). intros s s' H. left. auto. Qed.
Lemma same_fuel {A} m : goes m -> same (@out_of_fuel A) m.
Proof. intros G. split; [|split]; [intros s; exact I|exact G|intros s s' _; exact I]. Qed.
Lemma same_fuel_r {A} m : goes m -> same m (@out_of_fuel A).
Proof. intros G. split; [|split]; [exact G|intros s; exact I|]. intros s s' _. unfold rpost. destruct (m s); exact I. Qed.
Lemma same_step : same step step.
Proof.
  split; [exact goes_step|]. split; [exact goes_step|]. intros s s' (T & (r & R & R') & E & E' & L). cbn.
  destruct r as [|t r].
  - right. left. unfold passed. cbn. rewrite E, R. cbn. lia.
  - left. split; [reflexivity|]. unfold rel. cbn. rewrite R, R'. cbn. split; [reflexivity|]. split; [exists r; auto|]. split; [exact E|]. split; [exact E'|]. rewrite app_length. lia.
Qed.
Lemma same_peek : same ppeek ppeek.
Proof.
  split; [exact goes_peek|]. split; [exact goes_peek|]. intros s s' (T & (r & R & R') & E & E' & L). cbn.
  destruct r as [|t r].
  - right. left. unfold passed. cbn. rewrite E, R. cbn. lia.
  - left. rewrite R, R'. cbn. split; [reflexivity|]. unfold rel. cbn. split; [exact T|]. split; [exists (t :: r); auto|]. split; [exact E|]. split; [exact E'|]. rewrite app_length. lia.
Qed.
Lemma same_take : same take_token take_token.
Proof.
  split; [intros s; apply onward_less; lia|]. split; [intros s; apply onward_less; lia|]. intros s s' (T & R & E). cbn. left. split; [reflexivity|]. split; [reflexivity|]. exact (conj R E).
Qed.
Lemma same_bind {A B} (m m' : P A) (k k' : A -> P B) : same m m' -> (forall a, same (k a) (k' a)) -> same (bind m k) (bind m' k').
Proof.
  intros (G & G' & H) K. split; [apply goes_bind; [exact G|intros a; apply (K a)]|]. split; [apply goes_bind; [exact G'|intros a; apply (K a)]|].
  intros s s' R. specialize (H s s' R). unfold bind. destruct (m s) as [a s1|e y s1|], (m' s') as [a' s1'|e' y' s1'|]; cbn in *; try exact I.
  - destruct H as [(-> & R')|O]; [now apply (K a')|].
    pose proof (proj1 (K a) s1) as K1. pose proof (proj1 (proj2 (K a')) s1') as K2.
    destruct (k a s1), (k' a' s1'); cbn; try exact I; first [eapply over_on; eassumption|right; eapply over_on; eassumption].
  - pose proof (proj1 (K a) s1) as K1. destruct (k a s1); cbn; try exact I; first [eapply over_on; try eassumption; apply onward_refl|right; eapply over_on; try eassumption; apply onward_refl].
  - destruct (k a s1); exact I.
  - pose proof (proj1 (proj2 (K a')) s1') as K2. destruct (k' a' s1'); cbn; try exact I; first [eapply over_on; try eassumption; apply onward_refl|right; eapply over_on; try eassumption; apply onward_refl].
  - exact H.
Qed.
Lemma same_with_token {A} (k k' : option token -> P A) : (forall t, same (k t) (k' t)) -> same (with_token k) (with_token k').
Proof.
  intros H. split; [intros s; exact (proj1 (H _) s)|]. split; [intros s; exact (proj1 (proj2 (H _)) s)|].
  intros s s' R. unfold with_token. rewrite <- (proj1 R). now apply (H (ps_token s)).
Qed.
Lemma done_sync e y y' s s' : rel s s' -> done (sync e y s) (sync e y' s').
Proof.
  intros (T & _ & E & E' & L). exists (ps_left s), (ps_left s'), e, [], []. unfold sync.
  split; [destruct (ps_token s); cbn; now rewrite E|]. split; [destruct (ps_token s'); cbn; now rewrite E'|]. exact L.
Qed.
Lemma same_synchronize {A} (ill : A) m m' : same m m' -> same (synchronize ill m) (synchronize ill m').
Proof.
  intros (G & G' & H). split; [now apply goes_synchronize|]. split; [now apply goes_synchronize|].
  intros s s' R. specialize (H s s' R). unfold synchronize. destruct (m s) as [a s1|e y s1|], (m' s') as [a' s1'|e' y' s1'|]; cbn in *; try exact I; try exact H.
  - right. eapply over_on; [exact H|apply onward_refl|apply onward_sync].
  - right. eapply over_on; [exact H|apply onward_sync|apply onward_refl].
  - destruct H as [(<- & <- & R')|O]; [right; right; now apply done_sync|]. right. eapply over_on; [exact O|apply onward_sync|apply onward_sync].
Qed.
Lemma same_with_sync {A} y (m m' : P A) : same m m' -> same (with_sync y m) (with_sync y m').
Proof.
  intros (G & G' & H). split; [intros s; unfold with_sync; specialize (G s); destruct (m s); auto|].
  split; [intros s; unfold with_sync; specialize (G' s); destruct (m' s); auto|].
  intros s s' R. specialize (H s s' R). unfold with_sync. destruct (m s), (m' s'); cbn in *; auto.
  destruct H as [(E & _ & R')|O]; auto.
Qed.
Lemma same_force {A} (m m' : P A) : same m m' -> same (force_sync_skip m) (force_sync_skip m').
Proof.
  intros (G & G' & H). split; [intros s; unfold force_sync_skip; specialize (G s); destruct (m s) as [| ? [] ?|]; auto|].
  split; [intros s; unfold force_sync_skip; specialize (G' s); destruct (m' s) as [| ? [] ?|]; auto|].
  intros s s' R. specialize (H s s' R). unfold force_sync_skip. destruct (m s) as [a s1|e y s1|], (m' s') as [a' s1'|e' y' s1'|]; cbn in *; auto.
  - destruct y'; auto.
  - destruct y; auto.
  - destruct H as [(<- & <- & R')|O]; [destruct y; left; auto|destruct y, y'; right; auto].
  - destruct y; exact I.
Qed.
Lemma same_eat {A} (f : token -> A + perror) : same (eat f) (eat f).
Proof.
  unfold eat. apply same_with_token. intros [t|]; [|apply same_fail].
  destruct (f t); [apply same_bind; [apply same_step|intros; apply same_ret]|apply same_fail].
Qed.
Lemma same_expect k : same (expect k) (expect k).
Proof. apply same_eat. Qed.
Lemma same_identifier : same parse_identifier parse_identifier.
Proof. apply same_with_sync, same_eat. Qed.
Lemma same_argument : same parse_argument parse_argument.
Proof. apply same_eat. Qed.

#[local] Hint Resolve same_ret same_fail same_step same_peek same_take same_expect same_identifier same_argument : same.
Ltac same1 :=
  match goal with
  | |- same (bind _ _) (bind _ _) => apply same_bind; [|intros]
  | |- same (with_token _) (with_token _) => apply same_with_token; intros
  | |- same (synchronize _ _) (synchronize _ _) => apply same_synchronize
  | |- same (with_sync _ _) (with_sync _ _) => apply same_with_sync
  | |- same (force_sync_skip _) (force_sync_skip _) => apply same_force
  | |- same (eat _) (eat _) => apply same_eat
  | |- same (match ?x with _ => _ end) _ => destruct x
  | |- _ => solve [auto with same]
  end.
Ltac same := repeat same1.
Lemma same_sep_by {A} n n' (ill : A) parse parse' sep stop : same parse parse' -> same (sep_by n ill parse sep stop) (sep_by n' ill parse' sep stop).
Proof. intros Hparse. pose proof (proj1 Hparse); pose proof (proj1 (proj2 Hparse)); revert n' ; induction n as [|n IH]; intros [|n'] ; cbn [sep_by]; [apply same_fuel|apply same_fuel|apply same_fuel_r|]; [exact goes_fuel|goes|goes|same]. Qed.
#[local] Hint Resolve same_sep_by : same.
Lemma same_comma_sep {A} n n' (ill : A) parse parse' stop : same parse parse' -> same (comma_sep n ill parse stop) (comma_sep n' ill parse' stop).
Proof. apply same_sep_by. Qed.
#[local] Hint Resolve same_comma_sep : same.
Lemma same_semicolon_sep {A} n n' (ill : A) parse parse' stop : same parse parse' -> same (semicolon_sep n ill parse stop) (semicolon_sep n' ill parse' stop).
Proof. apply same_sep_by. Qed.
#[local] Hint Resolve same_semicolon_sep : same.
Lemma same_env_assign : same (parse_env_assign) (parse_env_assign).
Proof. unfold parse_env_assign; same. Qed.
#[local] Hint Resolve same_env_assign : same.
Lemma same_env n n' : same (parse_env n) (parse_env n').
Proof. revert n' ; induction n as [|n IH]; intros [|n'] ; cbn [parse_env]; [apply same_fuel|apply same_fuel|apply same_fuel_r|]; [exact goes_fuel|goes|goes|same]. Qed.
#[local] Hint Resolve same_env : same.
Lemma same_fd : same (parse_file_descriptor) (parse_file_descriptor).
Proof. unfold parse_file_descriptor; same. Qed.
#[local] Hint Resolve same_fd : same.
Lemma same_output_redirection z : same (parse_output_redirection z) (parse_output_redirection z).
Proof. unfold parse_output_redirection; same. Qed.
#[local] Hint Resolve same_output_redirection : same.
Lemma same_redirection : same (parse_redirection) (parse_redirection).
Proof. unfold parse_redirection; same. Qed.
#[local] Hint Resolve same_redirection : same.
Lemma same_operators n n' : same (parse_operators n) (parse_operators n').
Proof. revert n' ; induction n as [|n IH]; intros [|n'] ; cbn [parse_operators]; [apply same_fuel|apply same_fuel|apply same_fuel_r|]; [exact goes_fuel|goes|goes|same]. Qed.
#[local] Hint Resolve same_operators : same.
Lemma same_redirection_next : same (is_redirection_next) (is_redirection_next).
Proof. unfold is_redirection_next; same. Qed.
#[local] Hint Resolve same_redirection_next : same.
Lemma same_arguments n n' : same (parse_arguments n) (parse_arguments n').
Proof. revert n' ; induction n as [|n IH]; intros [|n'] ; cbn [parse_arguments]; [apply same_fuel|apply same_fuel|apply same_fuel_r|]; [exact goes_fuel|goes|goes|same]. Qed.
#[local] Hint Resolve same_arguments : same.
Lemma same_basic n n' : same (parse_basic_command n) (parse_basic_command n').
Proof. unfold parse_basic_command; same. Qed.
#[local] Hint Resolve same_basic : same.
Lemma same_pipe n n' b b' : same b b' -> same (parse_pipe n b) (parse_pipe n' b').
Proof. intros Hb. pose proof (proj1 Hb); pose proof (proj1 (proj2 Hb)); revert n' ; induction n as [|n IH]; intros [|n'] ; cbn [parse_pipe]; [apply same_fuel|apply same_fuel|apply same_fuel_r|]; [exact goes_fuel|goes|goes|same]. Qed.
#[local] Hint Resolve same_pipe : same.
Lemma same_command n n' : same (parse_command n) (parse_command n').
Proof. unfold parse_command; same. Qed.
#[local] Hint Resolve same_command : same.
Lemma same_command_block n n' : same (parse_command_block n) (parse_command_block n').
Proof. unfold parse_command_block; same. Qed.
#[local] Hint Resolve same_command_block : same.
Lemma same_expect_sync k y : same (expect_sync k y) (expect_sync k y).
Proof. unfold expect_sync; same. Qed.
#[local] Hint Resolve same_expect_sync : same.
Lemma same_expect_keep k y : same (expect_keep k y) (expect_keep k y).
Proof. unfold expect_keep; same. Qed.
#[local] Hint Resolve same_expect_keep : same.
Lemma same_function n n' pb pb' : same pb pb' -> same (parse_function n pb) (parse_function n' pb').
Proof.
  intros Hpb. unfold parse_function. apply same_bind; [|intros; same].
  split; [exact goes_open|]. split; [exact goes_open|]. intros s s' R. pose proof (proj2 (proj2 (same_expect TOpenParens)) s s' R) as H.
  destruct (expect TOpenParens s) as [a s1|e y s1|], (expect TOpenParens s') as [a' s1'|e' y' s1'|]; cbn in *; try exact I.
  - destruct H as [(_ & R')|O]; [left; auto|right; exact O].
  - right. eapply over_on; [exact H|apply onward_refl|apply onward_sync].
  - right. eapply over_on; [exact H|apply onward_sync|apply onward_refl].
  - destruct H as [(<- & <- & R')|O]; [right; right; now apply done_sync|]. right. eapply over_on; [exact O|apply onward_sync|apply onward_sync].
Qed.
#[local] Hint Resolve same_function : same.
Lemma same_condblock pe pe' pb pb' m m' : same pe pe' -> same pb pb' -> same (parse_condblock pe pb m) (parse_condblock pe' pb' m').
Proof. intros Hpe Hpb. pose proof (proj1 Hpe); pose proof (proj1 (proj2 Hpe)); pose proof (proj1 Hpb); pose proof (proj1 (proj2 Hpb)); revert m' ; induction m as [|m IH]; intros [|m'] ; cbn [parse_condblock]; [apply same_fuel|apply same_fuel|apply same_fuel_r|]; [exact goes_fuel|goes|goes|same]. Qed.
#[local] Hint Resolve same_condblock : same.
Lemma same_dict_item pe pe' : same pe pe' -> same (parse_dict_item pe) (parse_dict_item pe').
Proof. intros. unfold parse_dict_item; same. Qed.
#[local] Hint Resolve same_dict_item : same.
Lemma same_primary n n' pe pe' pb pb' : same pe pe' -> same pb pb' -> same (parse_primary n pe pb) (parse_primary n' pe' pb').
Proof. intros. unfold parse_primary; same. Qed.
#[local] Hint Resolve same_primary : same.
Lemma same_postfix_loop n n' pe pe' m m' e : same pe pe' -> same (postfix_loop n pe m e) (postfix_loop n' pe' m' e).
Proof. intros Hpe. pose proof (proj1 Hpe); pose proof (proj1 (proj2 Hpe)); revert m' e; induction m as [|m IH]; intros [|m'] ? ; cbn [postfix_loop]; [apply same_fuel|apply same_fuel|apply same_fuel_r|]; [exact goes_fuel|goes|goes|same]. Qed.
#[local] Hint Resolve same_postfix_loop : same.
Lemma same_postfix n n' pe pe' pb pb' : same pe pe' -> same pb pb' -> same (parse_postfix n pe pb) (parse_postfix n' pe' pb').
Proof. intros. unfold parse_postfix; same. Qed.
#[local] Hint Resolve same_postfix : same.
Lemma same_prefix n n' pe pe' pb pb' m m' : same pe pe' -> same pb pb' -> same (parse_prefix n pe pb m) (parse_prefix n' pe' pb' m').
Proof. intros Hpe Hpb. pose proof (proj1 Hpe); pose proof (proj1 (proj2 Hpe)); pose proof (proj1 Hpb); pose proof (proj1 (proj2 Hpb)); revert m' ; induction m as [|m IH]; intros [|m'] ; cbn [parse_prefix]; [apply same_fuel|apply same_fuel|apply same_fuel_r|]; [exact goes_fuel|goes|goes|same]. Qed.
#[local] Hint Resolve same_prefix : same.
Lemma same_binop_loop m m' h h' check e : same h h' -> same (binop_loop m h check e) (binop_loop m' h' check e).
Proof. intros Hh. pose proof (proj1 Hh); pose proof (proj1 (proj2 Hh)); revert m' e; induction m as [|m IH]; intros [|m'] ? ; cbn [binop_loop]; [apply same_fuel|apply same_fuel|apply same_fuel_r|]; [exact goes_fuel|goes|goes|same]. Qed.
#[local] Hint Resolve same_binop_loop : same.
Lemma same_binop n n' h h' check : same h h' -> same (parse_binop n h check) (parse_binop n' h' check).
Proof. intros. unfold parse_binop; same. Qed.
#[local] Hint Resolve same_binop : same.
Lemma same_expression_body n n' pe pe' pb pb' : same pe pe' -> same pb pb' -> same (expression_body n pe pb) (expression_body n' pe' pb').
Proof. intros. unfold expression_body. repeat apply same_binop. same. Qed.
#[local] Hint Resolve same_expression_body : same.
Lemma same_statement n n' pe pe' pb pb' : same pe pe' -> same pb pb' -> same (parse_statement n pe pb) (parse_statement n' pe' pb').
Proof. intros. unfold parse_statement; same. Qed.
#[local] Hint Resolve same_statement : same.
Lemma same_block_loop n n' pe pe' pb pb' m m' : same pe pe' -> same pb pb' -> same (block_loop n pe pb m) (block_loop n' pe' pb' m').
Proof. intros Hpe Hpb. pose proof (proj1 Hpe); pose proof (proj1 (proj2 Hpe)); pose proof (proj1 Hpb); pose proof (proj1 (proj2 Hpb)); revert m' ; induction m as [|m IH]; intros [|m'] ; cbn [block_loop]; [apply same_fuel|apply same_fuel|apply same_fuel_r|]; [exact goes_fuel|goes|goes|same]. Qed.
#[local] Hint Resolve same_block_loop : same.
Lemma same_both n n' : same (parse_expression n) (parse_expression n') /\ same (parse_block n) (parse_block n').
Proof.
  revert n'; induction n as [|n IH]; intros [|n']; try (split; [apply same_fuel|apply same_fuel]; apply goes_both); try (split; [apply same_fuel_r|apply same_fuel_r]; apply goes_both).
  destruct (IH n') as [IHe IHb]. split.
  - cbn [parse_expression]. apply same_expression_body; [exact IHe|exact IHb].
  - cbn [parse_block]. apply same_bind; [|intros; apply same_ret]. apply same_block_loop; [exact IHe|exact IHb].
Qed.
Lemma same_program n n' b b' : same b b' -> same (parse_program n b) (parse_program n' b').
Proof.
  intros H. pose proof (proj1 H). pose proof (proj1 (proj2 H)). revert n'; induction n as [|n IH]; intros [|n']; cbn [parse_program]; [apply same_fuel|apply same_fuel|apply same_fuel_r|]; [exact goes_fuel|apply (goes_program (S n')); assumption|apply (goes_program (S n)); assumption|same].
Qed.
End Agree.

Lemma nodup_split {A} (a b c d : list A) x : NoDup (a ++ x :: b) -> a ++ x :: b = c ++ x :: d -> b = d.
Proof.
  revert c; induction a as [|y a IH]; intros c N Q; destruct c as [|z c]; cbn in *.
  - now injection Q.
  - injection Q as -> Q. inversion N; subst. exfalso. apply H1. apply in_or_app. right. now left.
  - injection Q as -> Q. inversion N; subst. exfalso. apply H1. apply in_or_app. right. now left.
  - injection Q as _ Q. inversion N; subst. eapply IH; eassumption.
Qed.
Lemma first_error_same pre t next x1 x2 b1 e es1 r1 : NoDup (pre ++ t :: next :: x1) ->
  parse_tokens (pre ++ t :: next :: x1) = Parsed b1 (e :: es1) r1 -> subject e = Some t ->
  exists b2 es2 r2, parse_tokens (pre ++ t :: next :: x2) = Parsed b2 (e :: es2) r2.
Proof.
  intros N. destruct (parse_tokens_total (pre ++ t :: next :: x2)) as (b2 & es2 & r2 & E2). rewrite E2. unfold parse_tokens, parse_tokens_with in *.
  set (ts := pre ++ t :: next :: x1) in *. set (ts2 := pre ++ t :: next :: x2) in *. set (n := parser_fuel ts). set (n2 := parser_fuel ts2) in *.
  pose proof (proj2 (proj2 (same_program x1 x2 n n2 _ _ (proj2 (same_both x1 x2 n n2)))) (pnew ts) (pnew ts2)) as S.
  pose proof (keeps_program ts n n (pnew ts) (fine_new ts)) as K.
  assert (R : rel x1 x2 (pnew ts) (pnew ts2)).
  { unfold rel, pnew, ts, ts2. cbn. split; [now destruct pre|]. split; [|split; [reflexivity|split; [reflexivity|rewrite app_length; cbn; lia]]].
    destruct pre as [|p pre]; cbn; [exists [next]; auto|exists (pre ++ [t; next]); rewrite <- !app_assoc; auto]. }
  specialize (S R). destruct (parse_program n (parse_block n) (pnew ts)) as [b s|? ? ?|]; try discriminate.
  intros Q T. injection Q as <- Q <-. destruct (ps_errors s) as [|[k e0] l] eqn:E; [discriminate|]. injection Q as -> _.
  destruct K as (_ & (_ & _ & F) & _). rewrite E in F. inversion F as [|? ? M _]; subst. unfold at_mark in M. cbn in M. rewrite T in M.
  destruct M as (a & rest & Q & L). apply nodup_split in Q; [|exact N]. subst rest. cbn in L.
  destruct (parse_program n2 (parse_block n2) (pnew ts2)) as [b' s'|? ? ?|]; try discriminate. injection E2 as <- <- <-.
  cbn in S. destruct S as [(_ & _ & _ & S & _)|[S|(k1 & k2 & e1 & l1 & l2 & S1 & S2 & _)]].
  - congruence.
  - unfold passed in S. rewrite E in S. lia.
  - rewrite E in S1. injection S1 as <- <- <-. rewrite S2. cbn. eauto.
Qed.

Lemma source_nodup src : NoDup (tokens_of (outputs (Lexer.lex src))).
Proof.
  destruct (placed_sorted _ _ _ (placed_outputs src)) as [_ S]. revert S. generalize (tokens_of (outputs (Lexer.lex src))). intros l.
  induction l as [|t l IH]; intros S; [constructor|]. cbn in S. inversion S; subst. constructor; [|now apply IH].
  intros I. rewrite Forall_forall in H2. apply (before_irrefl (tk_pos t)). apply H2. now apply in_map.
Qed.
Lemma analysis_parsed src b les pes : analyze src = Analysis b les pes ->
  exists r, parse_tokens (tokens_of (outputs (Lexer.lex src))) = Parsed b pes r.
Proof.
  unfold analyze. destruct (Lexer.lex src) as [os|os|]; [| |discriminate]; cbn [outputs]; destruct (parse_tokens (tokens_of os)) as [b' es r|]; try discriminate.
  - intros Q. injection Q as -> _ ->. eauto.
  - destruct r; [discriminate|]. intros Q. injection Q as -> _ ->. eauto.
Qed.
Lemma parsed_analysis src b es r : parse_tokens (tokens_of (outputs (Lexer.lex src))) = Parsed b es r ->
  analyze src = AnalysisCrash \/ exists les, analyze src = Analysis b les es.
Proof.
  intros E. pose proof (analyze_total src) as T. unfold analyze in *. destruct (Lexer.lex src) as [os|os|]; cbn [outputs] in E; [| |congruence]; rewrite E in *.
  - right. eauto.
  - destruct r; eauto.
Qed.
Lemma first_error_source src1 src2 pre t next after1 after2 b1 les1 e es1 :
  analyze src1 = Analysis b1 les1 (e :: es1) -> subject e = Some t ->
  tokens_of (outputs (Lexer.lex src1)) = pre ++ t :: next :: after1 ->
  tokens_of (outputs (Lexer.lex src2)) = pre ++ t :: next :: after2 ->
  analyze src2 = AnalysisCrash \/ exists b2 les2 es2, analyze src2 = Analysis b2 les2 (e :: es2).
Proof.
  intros A T E1 E2. apply analysis_parsed in A as [r A]. pose proof (source_nodup src1) as N. rewrite E1 in A, N.
  destruct (first_error_same _ _ _ _ after2 _ _ _ _ N A T) as (b2 & es2 & r2 & P). rewrite <- E2 in P.
  destruct (parsed_analysis _ _ _ _ P) as [C|[les C]]; eauto.
Qed.
Lemma hopeless src pre t next after b les e es :
  analyze src = Analysis b les (e :: es) -> subject e = Some t ->
  tokens_of (outputs (Lexer.lex src)) = pre ++ t :: next :: after ->
  forall rest b', ~ gprogram (pre ++ t :: next :: rest) b'.
Proof.
  intros A T E rest b' G. apply analysis_parsed in A as [r A]. pose proof (source_nodup src) as N. rewrite E in A, N.
  destruct (first_error_same _ _ _ _ rest _ _ _ _ N A T) as (b2 & es2 & r2 & P).
  apply parse_tokens_iff in G as [r' G]. congruence.
Qed.
Lemma hopeless_source src pre t next after b les e es :
  analyze src = Analysis b les (e :: es) -> subject e = Some t ->
  source_tokens src = pre ++ t :: next :: after -> ~ hopeful (pre ++ [t; next]).
Proof. intros A T E (rest & b' & G). rewrite <- app_assoc in G. exact (hopeless _ _ _ _ _ _ _ _ _ A T E _ _ G). Qed.
