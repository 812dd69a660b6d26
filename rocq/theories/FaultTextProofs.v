(** The faults of source texts; legal programs are the ones of which no fault is shown. *)
From Coq Require Import Strings.String.
From Verif Require Import Base Lexer Ast Parser Program Sema SpecLexer SpecParser SpecSema SpecProgram SpecKeys SpecFault LexerProofs ParserFactsProofs
  SemaProofs SemaTreeProofs SemaShapeProofs SemaMainProofs KeysProofs FaultProofs FaultTreeProofs.
From Coq Require Import Lia Permutation.

Lemma nokey_exists es : existsb is_key_error es = false <-> Forall (fun e => is_key_error e = false) es.
Proof.
  induction es as [|e es IH]; cbn; [split; auto|]. rewrite orb_false_iff, IH. split; [intros []; constructor; auto|].
  intros H; inversion H; auto.
Qed.

Lemma text_reported src b les es : analyze src = Analysis b les [] -> sema b = SemaErrors es ->
  (forall e, In e es -> is_key_error e = true \/ In e (faults b)) /\
  filter told es = filter told (shown_faults b) /\
  (existsb is_key_error es = false -> es = shown_faults b).
Proof.
  intros H E. destruct (sema_faults b (analyze_wf _ _ _ H)) as (es' & A & B & C & [[-> [p E']]|[Hn E']]); [congruence|].
  rewrite E in E'. injection E' as <-. rewrite Forall_forall in A. split; [exact A|]. split; [exact B|]. now rewrite nokey_exists.
Qed.

Lemma text_unblamed src b les p : analyze src = Analysis b les [] -> sema b = SemaOk p -> shown_faults b = [].
Proof.
  intros H E. destruct (sema_faults b (analyze_wf _ _ _ H)) as (es' & A & B & C & [[-> _]|[Hn E']]); [|congruence].
  symmetry. apply C. constructor.
Qed.

Lemma nokey_dups es : dups es = [] -> Forall (fun e => is_key_error e = false) es.
Proof.
  induction es as [|[k p] es IH]; [constructor|]. unfold dups. cbn [flat_map]. intros H. apply app_eq_nil in H as [H1 H2].
  constructor; [|auto]. destruct k; try reflexivity. discriminate H1.
Qed.

Lemma text_exact src b les : analyze src = Analysis b les [] -> flat_block b -> repeated b [] ->
  match shown_faults b with
  | [] => exists p, sema b = SemaOk p
  | es => sema b = SemaErrors es
  end.
Proof.
  intros H Hf Hr. pose proof (analyze_wf _ _ _ H) as Hw. pose proof (sema_dups b Hw Hf) as Hd. apply repeated_spec in Hr.
  destruct (sema_faults b Hw) as (es & A & B & C & [[-> [p E]]|[Hn E]]).
  - rewrite <- C by constructor. eauto.
  - rewrite E, <- Hr in Hd. rewrite <- (C (nokey_dups _ Hd)), E. destruct es; [congruence|reflexivity].
Qed.

(** ** Legality *)

Lemma unless_nil b es : es <> [] -> unless b es = [] <-> b = true.
Proof. destruct b; cbn; intuition congruence. Qed.
Lemma fault_ne k p : fault k p <> [].
Proof. intros H; discriminate H. Qed.
Lemma app_nil_iff {A} (a b : list A) : a ++ b = [] <-> a = [] /\ b = [].
Proof. destruct a; cbn; intuition congruence. Qed.
Lemma behind_nil h a b : behind h a b = [] <-> a = [] /\ b = [].
Proof. unfold behind. destruct h, a; cbn; intuition congruence. Qed.
Lemma flat_nil {A B} (f : A -> list B) l : flat_map f l = [] <-> Forall (fun x => f x = []) l.
Proof.
  induction l; cbn; [split; auto|]. rewrite app_nil_iff, IHl. split; [intros []; constructor; auto|intros H; inversion H; auto].
Qed.

Lemma unit_nil vars u : unit_faults vars u = [] <-> legal_unit vars u.
Proof. destruct u; cbn; [tauto|]. rewrite unless_nil by apply fault_ne. apply known_in. Qed.
Lemma part_nil vars p : part_faults vars p = [] <-> legal_part vars p.
Proof. destruct p; cbn; [apply unit_nil|tauto]. Qed.
Lemma Forall_iff {A} (P Q : A -> Prop) l : (forall x, P x <-> Q x) -> Forall P l <-> Forall Q l.
Proof. intros H. split; apply Forall_impl; intros; now apply H. Qed.
Lemma argument_nil vars a : argument_faults vars a = [] <-> legal_argument vars a.
Proof. unfold argument_faults, legal_argument. rewrite flat_nil. apply Forall_iff, part_nil. Qed.
Lemma redirection_nil vars r : redirection_faults vars r = [] <-> legal_redirection vars r.
Proof. destruct r as [|? [| |]|]; cbn; try tauto; apply argument_nil. Qed.
Lemma words_nil h vars c : words_faults h vars c = [] <->
  legal_argument vars (bc_program c) /\
  Forall (fun kv => legal_unit vars (fst kv) /\ legal_argument vars (snd kv)) (bc_env c) /\
  Forall (legal_argument vars) (bc_arguments c) /\ Forall (legal_redirection vars) (bc_redirections c).
Proof.
  unfold words_faults. rewrite !app_nil_iff, !flat_nil, argument_nil.
  rewrite (Forall_iff (fun x => env_faults h vars x = []) (fun kv => legal_unit vars (fst kv) /\ legal_argument vars (snd kv))).
  - rewrite (Forall_iff (fun x => argument_faults vars x = []) (legal_argument vars)) by apply argument_nil.
    rewrite (Forall_iff (fun x => redirection_faults vars x = []) (legal_redirection vars)) by apply redirection_nil. tauto.
  - intros x. unfold env_faults. now rewrite behind_nil, unit_nil, argument_nil.
Qed.

Lemma runs_true c : runs_builtin c = true <-> exists b, calls_builtin b c.
Proof.
  rewrite runs_iff. destruct (builtin_of (bc_program c)) as [b|] eqn:E.
  - split; auto. intros _. exists b. now apply builtin_of_iff.
  - split; [discriminate|]. intros [b Hb]. destruct (builtin_none c E b Hb).
Qed.
Lemma runs_false c : runs_builtin c = false <-> forall b, ~ calls_builtin b c.
Proof.
  rewrite <- not_true_iff_false, runs_true. split; [intros H b Hb; apply H; eauto|intros H [b Hb]; eapply H; eauto].
Qed.

Lemma basic_nil vars c : basic_faults true vars c = [] <-> legal_basic vars c.
Proof.
  unfold basic_faults, legal_basic. destruct (runs_builtin c) eqn:E.
  - rewrite behind_nil. split; [intros [H _]; destruct (fault_ne _ _ H)|]. intros [H _]. pose proof (proj2 (runs_false c) H). congruence.
  - rewrite words_nil. pose proof (proj1 (runs_false c) E). tauto.
Qed.

Lemma command_nil vars k c : command_faults true vars k c = [] <-> legal_command vars k c.
Proof.
  unfold command_faults, legal_command. cbv zeta. destruct (runs_builtin (cmd_head c)) eqn:E.
  - assert (Hb : exists b, calls_builtin b (cmd_head c)) by now apply runs_true.
    assert (Hno : ~ legal_basic vars (cmd_head c)) by (intros [H _]; destruct Hb as [b Hb]; apply (H b Hb)).
    destruct (synchronous k && is_nil (cmd_tail c) && is_nil (bc_redirections (cmd_head c))) eqn:Ea.
    + apply andb_true_iff in Ea as [Ea E3]. apply andb_true_iff in Ea as [E1 E2].
      destruct k; try discriminate. destruct (cmd_tail c); [|discriminate]. destruct (bc_redirections (cmd_head c)); [|discriminate].
      cbn [unseen unless app]. rewrite flat_nil, (Forall_iff _ (legal_argument vars)) by apply argument_nil.
      destruct Hb as [b Hb]. split; [intros H; left; exists b; auto|]. intros [(b' & _ & _ & _ & _ & H)|[H _]]; [exact H|contradiction].
    + rewrite behind_nil. split; [intros [H _]; destruct (fault_ne _ _ H)|].
      intros [(b & _ & -> & E2 & E3 & _)|[H _]]; [|contradiction]. rewrite E2, E3 in Ea. discriminate.
  - rewrite app_nil_iff, flat_nil, (Forall_iff _ (legal_basic vars)) by apply basic_nil.
    pose proof (basic_nil vars (cmd_head c)) as H. unfold basic_faults in H. rewrite E in H. rewrite H.
    pose proof (proj1 (runs_false _) E) as E'. clear E. rename E' into E. split; [auto|]. intros [(b & Hb & _)|P]; [destruct (E b Hb)|exact P].
Qed.

Lemma command_block_nil vars b : command_block_faults true vars b = [] <-> legal_command_block vars b.
Proof.
  unfold command_block_faults, legal_command_block.
  rewrite app_nil_iff, flat_nil, command_nil, (Forall_iff _ (legal_command vars (cb_kind b))) by (intros; apply command_nil). reflexivity.
Qed.

Lemma twice_nil ps : forall seen, declared_twice seen ps = [] <-> NoDup (map fst ps) /\ forall x, In x (map fst ps) -> ~ In x seen.
Proof.
  induction ps as [|[x p] ps IH]; intros seen; cbn [declared_twice map fst].
  - split; [intros _; split; [constructor|intros ? []]|reflexivity].
  - rewrite app_nil_iff, IH. destruct (known x seen) eqn:E.
    + apply known_in in E. split; [intros [H _]; destruct (fault_ne _ _ H)|]. intros [_ H]. exfalso. apply (H x); cbn; auto.
    + assert (N : ~ In x seen) by (rewrite <- known_in; congruence). split.
      * intros (_ & H1 & H2). split.
        -- constructor; [|exact H1]. intros Hin. apply (H2 x Hin). now left.
        -- intros y [<-|Hy]; [exact N|]. intros Hs. apply (H2 y Hy). now right.
      * intros [H1 H2]. inversion H1; subst. split; [reflexivity|]. split; [assumption|].
        intros y Hy [<-|Hs]; [contradiction|]. apply (H2 y); cbn; auto.
Qed.

Definition EN (e : expr) : Prop := forall fn lp here outer, expr_faults true fn lp here outer e = [] <-> legal_expr fn lp here outer e.
Definition SN (s : statement) : Prop := forall fn lp here outer, statement_faults true fn lp outer here s = [] <-> legal_statement fn lp outer here s.
Definition BN (b : block) : Prop := forall fn lp here outer, block_faults true fn lp here outer b = [] <-> legal_block fn lp here outer b.

Lemma flat_each {A} (f : A -> list serror) (P : A -> Prop) l : Forall (fun x => f x = [] <-> P x) l -> flat_map f l = [] <-> each P l.
Proof.
  intros H. rewrite flat_nil, each_Forall. induction H as [|x l Hx H IH]; [split; auto|].
  split; intros H'; inversion H'; subst; (constructor; [now apply Hx|now apply IH]).
Qed.

Lemma legal_trees : (forall e, EN e) /\ (forall s, SN s) /\ (forall b, BN b).
Proof.
  apply tree_ind; unfold EN, SN, BN.
  - intros fn lp here outer. cbn. tauto.
  - intros p fn lp here outer. cbn. rewrite unless_nil by apply fault_ne. tauto.
  - intros x p fn lp here outer. cbn. rewrite unless_nil by apply fault_ne. apply known_in.
  - intros l p fn lp here outer. cbn. tauto.
  - intros x p fn lp here outer. cbn. tauto.
  - intros es p HF fn lp here outer. cbn [expr_faults legal_expr]. apply flat_each. eapply Forall_impl; [|exact HF]. auto.
  - intros kvs p HF fn lp here outer. cbn [expr_faults legal_expr]. apply flat_each. eapply Forall_impl; [|exact HF]. auto.
  - intros ps b p Hb fn lp here outer. cbn [expr_faults legal_expr]. rewrite app_nil_iff, (Hb true false), twice_nil. cbn [In]. tauto.
  - intros op e p He fn lp here outer. cbn [expr_faults legal_expr]. rewrite behind_nil, He.
    destruct op; [split; [intros []; split; [discriminate|assumption]|tauto]..|].
    rewrite unless_nil by apply fault_ne. tauto.
  - intros l op r p Hl Hr fn lp here outer. cbn [expr_faults legal_expr]. now rewrite app_nil_iff, Hl, Hr.
  - intros c t e p Hc Ht He fn lp here outer. cbn [expr_faults legal_expr]. now rewrite !app_nil_iff, Hc, Ht, He.
  - intros o f p Ho Hf fn lp here outer. cbn [expr_faults legal_expr]. now rewrite app_nil_iff, Ho, Hf.
  - intros f args p Hf HF fn lp here outer. cbn [expr_faults legal_expr]. rewrite app_nil_iff, Hf.
    rewrite (flat_each _ (legal_expr fn lp here outer)); [reflexivity|]. eapply Forall_impl; [|exact HF]. auto.
  - intros b p fn lp here outer. cbn [expr_faults legal_expr]. apply command_block_nil.
  - intros fn lp here outer. cbn. tauto.
  - intros x e p He fn lp here outer. cbn [statement_faults legal_statement]. rewrite app_nil_iff, He.
    destruct (known x here) eqn:E.
    + apply known_in in E. split; [intros [H _]; destruct (fault_ne _ _ H)|]. tauto.
    + assert (N : ~ In x here) by (rewrite <- known_in; congruence). tauto.
  - intros l r p Hl Hr fn lp here outer. cbn [statement_faults legal_statement]. rewrite app_nil_iff, behind_nil, Hl, Hr.
    pose proof (fault_ne InvalidAssignment p). destruct l; tauto.
  - intros e p He fn lp here outer. cbn [statement_faults legal_statement]. rewrite app_nil_iff, unless_nil, He by apply fault_ne. reflexivity.
  - intros p fn lp here outer. cbn [statement_faults legal_statement]. rewrite unless_nil by apply fault_ne. reflexivity.
  - intros c b p Hc Hb fn lp here outer. cbn [statement_faults legal_statement]. now rewrite app_nil_iff, Hc, Hb.
  - intros x e b p He Hb fn lp here outer. cbn [statement_faults legal_statement]. now rewrite app_nil_iff, He, Hb.
  - intros e He fn lp here outer. cbn [statement_faults legal_statement]. apply He.
  - intros fn lp here outer. cbn. tauto.
  - intros ss HF fn lp here outer. cbn [block_faults legal_block]. revert here.
    induction HF as [|s ss Hs HF IH]; intros here; cbn [sequence in_order]; [tauto|]. now rewrite app_nil_iff, Hs, IH.
Qed.

Lemma shown_legal b : shown_faults b = [] <-> legal b.
Proof. apply legal_trees. Qed.

(** ** What is shown is a fault *)

Definition EI (e : expr) : Prop := forall fn lp here outer, incl (expr_faults true fn lp here outer e) (expr_faults false fn lp here outer e).
Definition SI (s : statement) : Prop := forall fn lp here outer, incl (statement_faults true fn lp outer here s) (statement_faults false fn lp outer here s).
Definition BI (b : block) : Prop := forall fn lp here outer, incl (block_faults true fn lp here outer b) (block_faults false fn lp here outer b).

Lemma incl_flat_all {X} (f g : X -> list serror) l : Forall (fun x => incl (f x) (g x)) l -> incl (flat_map f l) (flat_map g l).
Proof. induction 1; cbn; [apply incl_refl|]. now apply incl_both. Qed.

Lemma incl_trees : (forall e, EI e) /\ (forall s, SI s) /\ (forall b, BI b).
Proof.
  apply tree_ind; try (intros; intros fn lp here outer; apply incl_refl).
  - intros es p HF fn lp here outer. apply incl_flat_all. eapply Forall_impl; [|exact HF]. auto.
  - intros kvs p HF fn lp here outer. apply incl_flat_all. eapply Forall_impl; [|exact HF]. cbv beta. auto.
  - intros ps b p Hb fn lp here outer. apply incl_both; [apply incl_refl|apply Hb].
  - intros op e p He fn lp here outer. apply incl_behind; [apply He|apply incl_refl].
  - intros l op r p Hl Hr fn lp here outer. apply incl_both; auto.
  - intros c t e p Hc Ht He fn lp here outer. apply incl_both; [apply Hc|apply incl_both; [apply Ht|apply He]].
  - intros o f p Ho Hf fn lp here outer. apply incl_both; auto.
  - intros f args p Hf HF fn lp here outer. apply incl_both; [apply Hf|]. apply incl_flat_all. eapply Forall_impl; [|exact HF]. auto.
  - intros b p fn lp here outer. apply command_block_incl.
  - intros x e p He fn lp here outer. apply incl_both; [apply incl_refl|apply He].
  - intros l r p Hl Hr fn lp here outer. apply incl_both; [apply incl_behind; [apply incl_refl|apply Hl]|apply Hr].
  - intros e p He fn lp here outer. apply incl_both; [apply incl_refl|apply He].
  - intros c b p Hc Hb fn lp here outer. apply incl_both; [apply Hc|apply Hb].
  - intros x e b p He Hb fn lp here outer. apply incl_both; [apply He|apply Hb].
  - intros e He fn lp here outer. apply He.
  - intros ss HF fn lp here outer. cbn [block_faults]. revert here.
    induction HF as [|s ss Hs HF IH]; intros here; cbn [sequence]; [apply incl_refl|]. apply incl_both; [apply Hs|apply IH].
Qed.

Lemma shown_incl b : incl (shown_faults b) (faults b).
Proof. apply incl_trees. Qed.
