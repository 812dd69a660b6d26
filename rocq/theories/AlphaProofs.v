(** The semantic analyser does not care what variables are called and where things stand. *)
From Coq Require Import Strings.String.
From Verif Require Import Base Lexer Ast Parser Program Sema SpecLexer SpecParser SpecAlpha LexerProofs ParserFactsProofs SemaProofs.
Local Open Scope sema_scope.

(** ** Names with and without the mark of captured variables *)

Fixpoint mark_at (s : symbol) : symbol * symbol :=
  match s with
  | [] => ([], [])
  | c :: t => if Byte.eqb c x40 then ([], s) else let (a, b) := mark_at t in (c :: a, b)
  end.

Lemma mark_at_app s t : mark_at (s ++ x40 :: t) = (fst (mark_at s), snd (mark_at s) ++ x40 :: t).
Proof.
  induction s as [|c s IH]; [reflexivity|]. cbn [app mark_at]. destruct (Byte.eqb c x40); [reflexivity|].
  rewrite IH. now destruct (mark_at s).
Qed.
Lemma mark_at_join s : fst (mark_at s) ++ snd (mark_at s) = s.
Proof.
  induction s as [|c s IH]; [reflexivity|]. cbn [mark_at]. destruct (Byte.eqb c x40); [reflexivity|].
  destruct (mark_at s). cbn in *. now rewrite IH.
Qed.
Definition unmarked (s : symbol) : Prop := mark_at s = (s, []).
Lemma mark_at_first s : unmarked (fst (mark_at s)).
Proof.
  unfold unmarked. induction s as [|c s IH]; [reflexivity|]. cbn [mark_at]. destruct (Byte.eqb c x40) eqn:E; [reflexivity|].
  destruct (mark_at s) as [a b]. cbn [fst mark_at] in *. now rewrite E, IH.
Qed.
Lemma mark_at_rest s : snd (mark_at s) = [] \/ exists t, snd (mark_at s) = x40 :: t.
Proof.
  induction s as [|c s IH]; [now left|]. cbn [mark_at]. destruct (Byte.eqb c x40) eqn:E.
  - right. exists s. cbn. f_equal. revert E. destruct c; cbn; intros; try discriminate; reflexivity.
  - destruct (mark_at s). exact IH.
Qed.
Lemma plain_unmarked s : plain_name s -> unmarked s.
Proof.
  unfold unmarked, plain_name. induction 1 as [|c s Hc Hs IH]; [reflexivity|]. cbn [mark_at]. rewrite IH.
  destruct (Byte.eqb c x40) eqn:E; [|reflexivity]. exfalso. revert E Hc. destruct c; cbn; intros; discriminate.
Qed.
Lemma unmarked_split a b : unmarked a -> (b = [] \/ exists t, b = x40 :: t) -> mark_at (a ++ b) = (a, b).
Proof.
  intros Ha [->|[t ->]]; [now rewrite app_nil_r|]. rewrite mark_at_app. rewrite Ha. reflexivity.
Qed.

Section Names.
Variable r : symbol -> symbol.
Variable q : pos -> pos.
Hypothesis H : renaming r q.

Definition base (a : symbol) : symbol := if plainb a then r a else a.
Definition ren (s : symbol) : symbol := base (fst (mark_at s)) ++ snd (mark_at s).

Lemma base_unmarked a : unmarked a -> unmarked (base a).
Proof.
  intros Ha. unfold base. destruct (plainb a) eqn:E; [|exact Ha]. apply plain_unmarked, (rn_names _ _ H). now apply plainb_iff.
Qed.
Lemma base_inj a b : base a = base b -> a = b.
Proof.
  unfold base. destruct (plainb a) eqn:Ea, (plainb b) eqn:Eb; intros E; auto.
  - apply (rn_apart _ _ H); auto; now apply plainb_iff.
  - apply plainb_iff in Ea. apply (rn_names _ _ H) in Ea. rewrite E in Ea. apply plainb_iff in Ea. congruence.
  - apply plainb_iff in Eb. apply (rn_names _ _ H) in Eb. rewrite <- E in Eb. apply plainb_iff in Eb. congruence.
Qed.
Lemma ren_inj s t : ren s = ren t -> s = t.
Proof.
  unfold ren. intros E. apply (f_equal mark_at) in E.
  rewrite !unmarked_split in E by auto using base_unmarked, mark_at_first, mark_at_rest. injection E as E1 E2.
  apply base_inj in E1. rewrite <- (mark_at_join s), <- (mark_at_join t). congruence.
Qed.
Lemma ren_plain s : plain_name s -> ren s = r s.
Proof.
  intros Hs. unfold ren. rewrite (plain_unmarked s Hs). cbn [fst snd]. rewrite app_nil_r. unfold base.
  apply plainb_iff in Hs. now rewrite Hs.
Qed.
Lemma ren_closed s : ren (closed_symbol s) = closed_symbol (ren s).
Proof. unfold ren, closed_symbol. change (bs "@closed"%string) with (x40 :: bs "closed"%string). rewrite mark_at_app. cbn [fst snd]. now rewrite app_assoc. Qed.
Lemma ren_eqb s t : bytes_eqb (ren s) (ren t) = bytes_eqb s t.
Proof.
  destruct (bytes_eqb s t) eqn:E.
  - apply bytes_eqb_eq in E. subst t. now apply bytes_eqb_eq.
  - destruct (bytes_eqb (ren s) (ren t)) eqn:E'; [|reflexivity]. apply bytes_eqb_eq, ren_inj, bytes_eqb_eq in E'. congruence.
Qed.

(** ** States *)

Definition ren_scope (sc : scope) : scope := map (fun kv => (ren (fst kv), snd kv)) sc.
Definition ren_frame (f : frame) : frame := mkframe (fr_slots f) (fr_captures f) (fr_self f) (map ren_scope (fr_scopes f)).
Definition ren_state (s : sstate) : sstate :=
  mksstate (map ren_frame (ss_stack s)) (ss_keys s) (map (rename_error r q) (ss_errors s)).

Lemma ren_assoc s sc : assoc (ren s) (ren_scope sc) = assoc s sc.
Proof. induction sc as [|[k v] sc IH]; [reflexivity|]. cbn. rewrite ren_eqb. now destruct (bytes_eqb k s). Qed.
Lemma ren_resolve s scs : scopes_resolve (ren s) (map ren_scope scs) = scopes_resolve s scs.
Proof. induction scs as [|sc scs IH]; [reflexivity|]. cbn [map scopes_resolve]. rewrite ren_assoc. now destruct (assoc s sc). Qed.
Lemma ren_find s st : find_frame (map ren_frame st) (ren s) = find_frame st s.
Proof.
  induction st as [|f st IH]; [reflexivity|]. cbn [map find_frame]. unfold frame_resolve. cbn [ren_frame fr_scopes].
  rewrite ren_resolve. destruct (scopes_resolve s (fr_scopes f)); [reflexivity|]. now rewrite IH.
Qed.
Lemma ren_root scs : root_scope (map ren_scope scs) = option_map ren_scope (root_scope scs).
Proof. induction scs as [|sc [|sc' scs] IH]; [reflexivity|reflexivity|]. exact IH. Qed.
Lemma ren_set_root scs new : set_root_scope (map ren_scope scs) (ren_scope new) = map ren_scope (set_root_scope scs new).
Proof. induction scs as [|sc [|sc' scs] IH]; [reflexivity|reflexivity|]. cbn [map set_root_scope] in *. now rewrite IH. Qed.
Lemma ren_capture f s i : frame_capture (ren_frame f) (ren s) i
  = option_map (fun p => (fst p, ren_frame (snd p))) (frame_capture f s i).
Proof.
  unfold frame_capture. cbn [ren_frame fr_scopes]. rewrite ren_root. destruct (root_scope (fr_scopes f)) as [sc|]; [|reflexivity].
  cbn [option_map]. rewrite ren_assoc. destruct (assoc s sc); [reflexivity|]. cbn. unfold ren_frame. cbn. rewrite <- ren_set_root.
  reflexivity.
Qed.
Lemma ren_install n : forall st s i, install_captures n (map ren_frame st) (ren s) i
  = option_map (fun p => (fst p, map ren_frame (snd p))) (install_captures n st s i).
Proof.
  induction n as [|n IH]; intros st s i; [reflexivity|]. destruct st as [|f st]; [reflexivity|]. cbn [map install_captures].
  rewrite IH. destruct (install_captures n st s i) as [[j st']|]; [|reflexivity]. cbn [option_map fst snd].
  rewrite ren_capture. now destruct (frame_capture f s j) as [[k f']|].
Qed.

(** ** Simulation *)

Definition sim {A B} (g : A -> B) (m : M A) (m' : M B) : Prop :=
  forall s, m' (ren_state s) = option_map (fun p => (g (fst p), ren_state (snd p))) (m s).

Lemma sim_ret {A B} (g : A -> B) a b : b = g a -> sim g (ret a) (ret b).
Proof. intros ->. intros s. reflexivity. Qed.
Lemma sim_bind {A B A' B'} (g : A -> A') (h : B -> B') m m' k k' :
  sim g m m' -> (forall a, sim h (k a) (k' (g a))) -> sim h (bind m k) (bind m' k').
Proof. intros Hm Hk s. unfold bind. rewrite Hm. destruct (m s) as [[a s1]|]; [|reflexivity]. cbn. apply Hk. Qed.
Lemma sim_report k p k' : se_kind (rename_error r q (mkserror k p)) = k' -> sim id (report k p) (report k' (q p)).
Proof. intros <- s. unfold report, ren_state. cbn. now rewrite map_app. Qed.

Lemma sim_refuse {A B} (g : option A -> option B) k p k' : g None = None -> se_kind (rename_error r q (mkserror k p)) = k' ->
  sim g (_ <- report k p ;; ret None) (_ <- report k' (q p) ;; ret None).
Proof. intros Hg Hk. apply (sim_bind id); [now apply sim_report|]. intros a. now apply sim_ret. Qed.

Lemma sim_declare x p : plain_name x -> sim id (declare x p) (declare (r x) (q p)).
Proof.
  intros Hx s. unfold declare, ren_state. cbn [ss_stack]. destruct (ss_stack s) as [|f st] eqn:Es; [reflexivity|]. cbn [map].
  unfold frame_declare. cbn [ren_frame fr_scopes]. destruct (fr_scopes f) as [|sc scs] eqn:Esc; [reflexivity|]. cbn [map].
  unfold scope_declare. rewrite <- (ren_plain x Hx), ren_assoc. destruct (assoc x sc).
  - unfold bind, report, ret. cbn [ss_stack ss_keys ss_errors option_map fst snd]. rewrite Es, map_app, (ren_plain x Hx). reflexivity.
  - cbn. reflexivity.
Qed.
Lemma sim_declare_first : sim id (declare (bs "std"%string) (mkpos 0 0)) (declare (bs "std"%string) (q (mkpos 0 0))).
Proof. rewrite <- (rn_std _ _ H) at 2. apply sim_declare. repeat constructor. Qed.

Lemma sim_resolve x p : plain_name x -> sim id (resolve x p) (resolve (r x) (q p)).
Proof.
  intros Hx s. unfold resolve, stack_resolve. cbn [ren_state ss_stack]. rewrite <- (ren_plain x Hx), ren_find, <- ren_closed.
  destruct (find_frame (ss_stack s) x) as [[[|n] i]|].
  - reflexivity.
  - rewrite ren_install. destruct (install_captures (S n) (ss_stack s) (closed_symbol x) i) as [[j st]|]; reflexivity.
  - unfold bind, report, ret, ren_state. cbn [ss_stack ss_keys ss_errors option_map fst snd]. rewrite map_app, (ren_plain x Hx). reflexivity.
Qed.
Lemma sim_self : sim id resolve_self resolve_self.
Proof.
  intros s. unfold resolve_self. cbn [ren_state ss_stack]. destruct (ss_stack s) as [|f st]; [reflexivity|]. cbn [map].
  unfold frame_self. cbn [ren_frame fr_self]. destruct (fr_self f) eqn:E; cbn; unfold ren_state, ren_frame; cbn; rewrite ?E; reflexivity.
Qed.
Lemma sim_enter : sim id enter_block enter_block.
Proof. intros s. unfold enter_block. cbn [ren_state ss_stack]. now destruct (ss_stack s). Qed.
Lemma sim_exit : sim id exit_block exit_block.
Proof.
  intros s. unfold exit_block. cbn [ren_state ss_stack]. destruct (ss_stack s) as [|f st]; [reflexivity|]. cbn [map].
  unfold frame_exit_block. cbn [ren_frame fr_scopes]. now destruct (fr_scopes f).
Qed.
Lemma sim_enter_frame : sim id enter_frame enter_frame.
Proof. intros s. reflexivity. Qed.
Lemma sim_exit_frame : sim id exit_frame exit_frame.
Proof.
  intros s. unfold exit_frame. cbn [ren_state ss_stack]. destruct (ss_stack s) as [|f st]; [reflexivity|]. cbn [map].
  unfold frame_exit_block. cbn [ren_frame fr_scopes]. now destruct (fr_scopes f).
Qed.
Lemma sim_clear : sim id clear_keys clear_keys.
Proof. intros s. reflexivity. Qed.
Lemma sim_key x p : sim id (insert_key x p) (insert_key x (q p)).
Proof.
  intros s. unfold insert_key. destruct (is_ill_symbol x); [reflexivity|]. cbn [ren_state ss_keys].
  destruct (existsb (bytes_eqb x) (ss_keys s)); [|reflexivity]. unfold bind, report, ret, ren_state. cbn. now rewrite map_app.
Qed.

Lemma sim_items {A A' B B'} (d : A -> A') (g : B -> B') f f' l :
  Forall (fun x => sim (option_map g) (f x) (f' (d x))) l ->
  sim (option_map (map g)) (items f l) (items f' (map d l)).
Proof.
  induction 1 as [|x l Hx Hl IH]; [now apply sim_ret|]. cbn [map items].
  apply (sim_bind (option_map g)); [exact Hx|]. intros b. apply (sim_bind (option_map (map g))); [exact IH|]. intros bs.
  apply sim_ret. now destruct b, bs.
Qed.

Lemma ill_kept x : plain_name x -> is_ill_symbol (r x) = is_ill_symbol x.
Proof. intros Hx. rewrite !plain_not_ill; auto using (rn_names _ _ H). Qed.

(** ** Commands *)

Lemma sim_unit u : plain_unit u -> sim (option_map (move_unit q)) (analyze_unit u) (analyze_unit (rename_unit r q u)).
Proof.
  destruct u as [s|s p]; intros Hu; [now apply sim_ret|]. cbn [analyze_unit rename_unit]. rewrite ill_kept, plain_not_ill by assumption.
  apply (sim_bind id); [now apply sim_resolve|]. intros [i|]; now apply sim_ret.
Qed.
Lemma sim_part u : wf_part u -> sim (option_map (move_part q)) (analyze_part u) (analyze_part (rename_part r q u)).
Proof.
  destruct u as [u|[]]; intros Hu; try now apply sim_ret. cbn [analyze_part rename_part].
  apply (sim_bind (option_map (move_unit q))); [now apply sim_unit|]. intros [i|]; now apply sim_ret.
Qed.
Lemma not_ill p : wf_pos p -> is_ill_pos p = false.
Proof. unfold wf_pos, is_ill_pos. intros Hp. destruct (N.eqb_spec (line p) 0) as [E|E]; [|reflexivity]. rewrite E in Hp. now destruct Hp. Qed.
Lemma sim_argument a : wf_argument a ->
  sim (option_map (move_argument q)) (analyze_argument a) (analyze_argument (rename_argument r q a)).
Proof.
  intros [Ha Hp]. unfold analyze_argument, is_ill_argument. cbn [rename_argument arg_pos arg_parts].
  rewrite (not_ill (arg_pos a)), (not_ill (q (arg_pos a))) by (try apply (rn_places _ _ H); exact Hp).
  apply (sim_bind (option_map (map (move_part q)))).
  - apply sim_items. eapply Forall_impl; [|exact Ha]. intros ?. apply sim_part.
  - intros [ps|]; now apply sim_ret.
Qed.
Lemma sim_redirection d : wf_redirection d ->
  sim (option_map (move_redirection q)) (analyze_redirection d) (analyze_redirection (rename_redirection r q d)).
Proof.
  destruct d as [|s [fd|a|a]|l a]; cbn [wf_redirection]; intros Hd; [destruct Hd|now apply sim_ret|..];
    cbn [analyze_redirection rename_redirection]; (apply (sim_bind (option_map (move_argument q))); [now apply sim_argument|]);
    intros [x|]; now apply sim_ret.
Qed.
Lemma sim_env_item kv : plain_unit (fst kv) /\ wf_argument (snd kv) ->
  sim (option_map (fun kv => (move_unit q (fst kv), move_argument q (snd kv)))) (analyze_env_item kv)
    (analyze_env_item (rename_unit r q (fst kv), rename_argument r q (snd kv))).
Proof.
  intros [Hu Ha]. unfold analyze_env_item. cbn [fst snd]. apply (sim_bind (option_map (move_unit q))); [now apply sim_unit|].
  intros [k|]; [|now apply sim_ret]. cbn [option_map]. apply (sim_bind (option_map (move_argument q))); [now apply sim_argument|].
  intros [v|]; now apply sim_ret.
Qed.
Lemma same_builtin a : builtin_of (rename_argument r q a) = builtin_of a.
Proof. unfold builtin_of. cbn [rename_argument arg_parts]. destruct (arg_parts a) as [|[[s|s p]|[]] [|? ?]]; reflexivity. Qed.
Lemma sim_basic c : wf_basic c -> sim (option_map (move_basic q)) (analyze_basic c) (analyze_basic (rename_basic r q c)).
Proof.
  intros (H1 & H2 & H3 & H4 & H5). unfold analyze_basic. cbn [rename_basic bc_program bc_env bc_arguments bc_redirections bc_abort bc_pos].
  rewrite same_builtin. destruct (builtin_of (bc_program c)); [now apply sim_refuse|].
  apply (sim_bind (option_map (move_argument q))); [now apply sim_argument|]. intros pr.
  apply (sim_bind (option_map (map (fun kv => (move_unit q (fst kv), move_argument q (snd kv)))))).
  { apply sim_items. eapply Forall_impl; [|exact H2]. intros ?. apply sim_env_item. }
  intros env. apply (sim_bind (option_map (map (move_argument q)))).
  { apply sim_items. eapply Forall_impl; [|exact H3]. intros ?. apply sim_argument. }
  intros args. apply (sim_bind (option_map (map (move_redirection q)))).
  { apply sim_items. eapply Forall_impl; [|exact H4]. intros ?. apply sim_redirection. }
  intros rs. apply sim_ret. now destruct pr, env, args, rs.
Qed.
Lemma sim_command k c : wf_command c -> sim (option_map (move_command q)) (analyze_command k c) (analyze_command k (rename_command r q c)).
Proof.
  intros [H1 H2]. unfold analyze_command. cbn [rename_command cmd_head cmd_tail].
  cbn [rename_basic bc_program bc_env bc_arguments bc_redirections bc_abort bc_pos]. rewrite same_builtin.
  destruct (builtin_of (bc_program (cmd_head c))) as [b|].
  - assert (match map (rename_basic r q) (cmd_tail c) with [] => true | _ => false end = match cmd_tail c with [] => true | _ => false end) as -> by now destruct (cmd_tail c).
    assert (match map (rename_redirection r q) (bc_redirections (cmd_head c)) with [] => true | _ => false end = match bc_redirections (cmd_head c) with [] => true | _ => false end) as -> by now destruct (bc_redirections (cmd_head c)).
    destruct (k || _ || _); [now apply sim_refuse|].
    apply (sim_bind (option_map (map (move_argument q)))).
    { apply sim_items. eapply Forall_impl; [|apply H1]. intros ?. apply sim_argument. }
    intros [args|]; now apply sim_ret.
  - apply (sim_bind (option_map (move_basic q))); [now apply sim_basic|]. intros hd.
    apply (sim_bind (option_map (map (move_basic q)))).
    { apply sim_items. eapply Forall_impl; [|exact H2]. intros ?. apply sim_basic. }
    intros tl. apply sim_ret. now destruct hd, tl.
Qed.
Lemma sim_command_block b : wf_command_block b ->
  sim (option_map (move_command_block q)) (analyze_command_block b) (analyze_command_block (rename_command_block r q b)).
Proof.
  intros [H1 H2]. unfold analyze_command_block. cbn [rename_command_block cb_kind cb_head cb_tail].
  apply (sim_bind (option_map (move_command q))); [now apply sim_command|]. intros hd.
  apply (sim_bind (option_map (map (move_command q)))).
  { apply sim_items. eapply Forall_impl; [|exact H2]. intros ?. apply sim_command. }
  intros tl. apply sim_ret. now destruct hd, tl.
Qed.

(** ** Trees *)

Lemma sim_params ps : all_of wf_name ps ->
  sim id (declare_params ps) (declare_params (map (fun sp => (r (fst sp), q (snd sp))) ps)).
Proof.
  induction ps as [|[x p] ps IH]; intros Hps; [now apply sim_ret|]. destruct Hps as [[Hx Hp] Hps]. cbn [fst snd] in Hx.
  cbn [map declare_params fst snd]. rewrite ill_kept, plain_not_ill by assumption.
  apply (sim_bind id); [now apply sim_declare|]. intros d. apply (sim_bind id); [now apply IH|]. intros ds. now apply sim_ret.
Qed.

Definition ES (e : expr) : Prop := forall fn lp, wf_expr e ->
  sim (option_map (move_expr q)) (analyze_expr fn lp e) (analyze_expr fn lp (rename_expr r q e)).
Definition SS (s : statement) : Prop := forall fn lp, wf_statement s ->
  sim (option_map (move_statement q)) (analyze_statement fn lp s) (analyze_statement fn lp (rename_statement r q s)).
Definition BS (b : block) : Prop := forall fn lp, wf_block b ->
  sim (option_map (map (move_statement q))) (analyze_block fn lp b) (analyze_block fn lp (rename_block r q b)).
Definition ES' (e : expr) : Prop := ES e /\ match e with EAccess o f _ => ES o /\ ES f | _ => True end.

Lemma all_sim es fn lp : Forall ES' es -> all_of wf_expr es ->
  Forall (fun e => sim (option_map (move_expr q)) (analyze_expr fn lp e) (analyze_expr fn lp (rename_expr r q e))) es.
Proof.
  induction 1 as [|e es [He _] _ IH]; intros Hw; constructor; [apply He, Hw|apply IH, Hw].
Qed.

Ltac go := match goal with
  | |- sim _ (_ <- enter_block ;; _) _ => apply (sim_bind id); [exact sim_enter|intros _]
  | |- sim _ (_ <- exit_block ;; _) _ => apply (sim_bind id); [exact sim_exit|intros _]
  | H : forall fn lp, _ -> sim _ (analyze_expr fn lp ?e) _ |- sim _ (bind (analyze_expr _ _ ?e) _) _ =>
      apply (sim_bind (option_map (move_expr q))); [apply H; assumption|intros]
  | H : forall fn lp, _ -> sim _ (analyze_block fn lp ?e) _ |- sim _ (bind (analyze_block _ _ ?e) _) _ =>
      apply (sim_bind (option_map (map (move_statement q)))); [apply H; assumption|intros]
  | |- sim _ (ret _) (ret _) => apply sim_ret; repeat match goal with x : option _ |- _ => destruct x end; reflexivity
  end.

Lemma tree_sim : (forall e, ES' e) /\ (forall s, SS s) /\ (forall b, BS b).
Proof.
  apply tree_ind; unfold ES', ES, SS, BS.
  - split; [|exact I]. intros fn lp [].
  - intros p. split; [|exact I]. intros fn lp _. cbn [analyze_expr rename_expr]. destruct fn; [|now apply sim_refuse].
    apply (sim_bind id); [exact sim_self|]. intros i. now apply sim_ret.
  - intros x p. split; [|exact I]. intros fn lp [Hx _]. cbn [analyze_expr rename_expr]. rewrite ill_kept, plain_not_ill by assumption.
    apply (sim_bind id); [now apply sim_resolve|]. intros [i|]; now apply sim_ret.
  - intros l p. split; [|exact I]. intros fn lp _. now apply sim_ret.
  - intros x p. split; [|exact I]. intros fn lp _. apply sim_ret. now destruct (is_ill_symbol x).
  - intros es p Hes. split; [|exact I]. intros fn lp [Hw _]. cbn [analyze_expr rename_expr].
    apply (sim_bind (option_map (map (move_expr q)))); [|intros; go].
    apply sim_items. now apply all_sim.
  - intros kvs p Hkvs. split; [|exact I]. intros fn lp [Hw _]. cbn [analyze_expr rename_expr].
    apply (sim_bind id); [exact sim_clear|]. intros _.
    apply (sim_bind (option_map (map (fun kv => (fst kv, move_expr q (snd kv)))))); [|intros; go].
    apply sim_items. clear p. induction Hkvs as [|kv kvs [Hkv _] _ IH]; constructor; [|apply IH, Hw].
    destruct Hw as [[_ Hw] _]. cbn [fst snd]. apply (sim_bind id); [apply sim_key|]. intros k.
    apply (sim_bind (option_map (move_expr q))); [now apply Hkv|]. intros v. apply sim_ret. now destruct k, v.
  - intros ps b p Hb. split; [|exact I]. intros fn lp (Hps & Hw & _). cbn [analyze_expr rename_expr].
    apply (sim_bind id); [exact sim_enter_frame|intros _]. apply (sim_bind id); [now apply sim_params|]. intros d.
    go. apply (sim_bind id); [exact sim_exit_frame|]. intros fi. rewrite map_length. go.
  - intros op e p [He _]. split; [|exact I]. intros fn lp [Hw _]. cbn [analyze_expr rename_expr]. go.
    match goal with |- sim _ (match ?a with _ => _ end) _ => destruct a as [x|] end; cbn [option_map]; [|go].
    destruct op, fn; try go. now apply sim_refuse.
  - intros a op b p [Ha _] [Hb _]. split; [|exact I]. intros fn lp (H1 & H2 & _). cbn [analyze_expr rename_expr]. repeat go.
  - intros c t e p [Hc _] Ht He. split; [|exact I]. intros fn lp (H1 & H2 & H3 & _). cbn [analyze_expr rename_expr]. repeat go.
  - intros o f p [Ho _] [Hf _]. split; [|split; assumption]. intros fn lp (H1 & H2 & _). cbn [analyze_expr rename_expr]. repeat go.
  - intros f args p [Hf _] Hargs. split; [|exact I]. intros fn lp (H1 & H2 & _). cbn [analyze_expr rename_expr]. go.
    apply (sim_bind (option_map (map (move_expr q)))); [|intros; go]. apply sim_items. now apply all_sim.
  - intros b p. split; [|exact I]. intros fn lp [Hb _]. cbn [analyze_expr rename_expr].
    apply (sim_bind (option_map (move_command_block q))); [now apply sim_command_block|]. intros; go.
  - intros fn lp [].
  - intros x e p [He _] fn lp (Hx & Hw & _). cbn [analyze_statement rename_statement].
    apply (sim_bind id); [now apply sim_declare|]. intros; repeat go.
  - intros l e p Hl [He _] fn lp (H1 & H2 & _). cbn [analyze_statement rename_statement].
    apply (sim_bind (option_map (move_target q))); [|intros; repeat go].
    destruct l; cbn [rename_expr]; try (now apply sim_refuse).
    + destruct H1 as [Hs _]. rewrite ill_kept, plain_not_ill by assumption.
      apply (sim_bind id); [now apply sim_resolve|]. intros [i|]; now apply sim_ret.
    + destruct Hl as (_ & Ho & Hf), H1 as (H3 & H4 & _). repeat go.
  - intros e p [He _] fn lp [Hw _]. cbn [analyze_statement rename_statement].
    apply (sim_bind id); [|intros; repeat go]. destruct fn; [now apply sim_ret|now apply sim_refuse].
  - intros p fn lp _. cbn [analyze_statement rename_statement]. destruct lp; [now apply sim_ret|now apply sim_refuse].
  - intros c b p [Hc _] Hb fn lp (H1 & H2 & _). cbn [analyze_statement rename_statement]. repeat go.
  - intros x e b p [He _] Hb fn lp (Hx & H1 & H2 & _). cbn [analyze_statement rename_statement]. rewrite ill_kept, plain_not_ill by assumption.
    repeat go. apply (sim_bind id); [now apply sim_declare|]. intros; repeat go.
  - intros e [He _] fn lp Hw. cbn [analyze_statement rename_statement]. repeat go.
  - intros fn lp [].
  - intros ss Hss fn lp Hw. cbn [analyze_block rename_block]. apply sim_items. cbn [wf_block] in Hw.
    induction Hss as [|s ss Hs _ IH]; constructor; [apply Hs, Hw|apply IH, Hw].
Qed.

Lemma sema_renamed b : wf_block b ->
  sema (rename_block r q b) = match sema b with
                              | SemaOk p => SemaOk (move_program q p)
                              | SemaErrors es => SemaErrors (map (rename_error r q) es)
                              | SemaCrash => SemaCrash
                              end.
Proof.
  intros Hb. unfold sema.
  pose (k := fun b => x <- analyze_block false false b ;; fi <- exit_frame ;; ret (x, fi)).
  pose (s0 := mksstate [mkframe 1 [] None [[(bs "std"%string, 0)]]] [] []).
  assert (E0 : ren_state s0 = s0).
  { unfold ren_state, s0. cbn [ss_stack ss_keys ss_errors map]. unfold ren_frame. cbn [fr_scopes fr_slots fr_captures fr_self map ren_scope fst snd].
    rewrite ren_plain by (repeat constructor). now rewrite (rn_std _ _ H). }
  assert (Ek : forall b, (_ <- enter_frame ;; _ <- declare (bs "std"%string) (mkpos 0 0) ;;
      r <- analyze_block false false b ;; fi <- exit_frame ;; ret (r, fi)) (mksstate [] [] []) = k b s0) by reflexivity.
  rewrite !Ek. clear Ek.
  assert (Hs : sim (fun rf => (option_map (map (move_statement q)) (fst rf), snd rf)) (k b) (k (rename_block r q b))).
  { unfold k. apply (sim_bind (option_map (map (move_statement q)))); [now apply (proj2 (proj2 tree_sim))|]. intros x.
    apply (sim_bind id); [exact sim_exit_frame|]. intros fi. now apply sim_ret. }
  specialize (Hs s0). rewrite E0 in Hs. rewrite Hs. destruct (k b s0) as [p|]; [|reflexivity].
  destruct p as [[[ss|] fi] s]; cbn [option_map fst snd]; [|reflexivity].
  unfold ren_state. cbn [ss_errors]. now destruct (ss_errors s).
Qed.

End Names.

Lemma text_renamed r q src b les : renaming r q -> analyze src = Analysis b les [] ->
  sema (rename_block r q b) = match sema b with
                              | SemaOk p => SemaOk (move_program q p)
                              | SemaErrors es => SemaErrors (map (rename_error r q) es)
                              | SemaCrash => SemaCrash
                              end.
Proof. intros H E. apply sema_renamed; [assumption|]. eapply analyze_wf; eauto. Qed.
