(** Which keys the semantic analyser reports. *)
From Coq Require Import Strings.String.
From Verif Require Import Base Lexer Ast Parser Program Sema SpecLexer SpecParser SpecSema SpecProgram SpecKeys LexerProofs
  ParserFactsProofs SemaProofs SemaShapeProofs SemaMainProofs SemaFactsProofs SemaTextProofs.
From Coq Require Import Lia.
Local Open Scope sema_scope.

(** ** Repetitions *)

Fixpoint reps (seen : list symbol) (l : list (symbol * pos)) : list (symbol * pos) :=
  match l with
  | [] => []
  | (k, p) :: l => if existsb (bytes_eqb k) seen then (k, p) :: reps seen l else reps (k :: seen) l
  end.

Lemma seen_in k seen : existsb (bytes_eqb k) seen = true <-> In k seen.
Proof.
  rewrite existsb_exists. split.
  - intros (x & Hx & E). apply bytes_eqb_eq in E. subst. exact Hx.
  - intros H. exists k. split; [exact H|apply beq_refl].
Qed.

Lemma reps_spec l : forall seen r, repeats seen l r <-> r = reps seen l.
Proof.
  induction l as [|[k p] l IH]; intros seen r; cbn [reps].
  - split; [intros H; inversion H; reflexivity|intros ->; constructor].
  - destruct (existsb (bytes_eqb k) seen) eqn:E; split.
    + apply seen_in in E. intros H; inversion H; subst; [contradiction|]. f_equal. apply IH. assumption.
    + apply seen_in in E. intros ->. apply re_old; [exact E|]. apply IH. reflexivity.
    + intros H; inversion H; subst; [apply IH; assumption|]. exfalso. match goal with H : In k seen |- _ => apply seen_in in H; congruence end.
    + intros ->. apply re_new; [rewrite <- seen_in; congruence|]. apply IH. reflexivity.
Qed.

Lemma repeated_spec b ks : repeated b ks <-> ks = flat_map (reps []) (dicts_block b).
Proof.
  unfold repeated. generalize (dicts_block b). intros ds. split.
  - intros (kss & H & ->). induction H as [|d r ds kss H1 H IH]; [reflexivity|]. cbn. apply reps_spec in H1. subst. f_equal. exact IH.
  - intros ->. exists (map (reps []) ds). split; [|symmetry; rewrite <- flat_map_concat_map; reflexivity].
    induction ds; constructor; [apply reps_spec; reflexivity|assumption].
Qed.

(** ** What an analysis adds *)

Definition dup (e : serror) : list (symbol * pos) :=
  match se_kind e with DuplicateKey k => [(k, se_pos e)] | _ => [] end.
Definition dups (es : list serror) := flat_map dup es.

Definition adds (ds : list (list (symbol * pos))) {X} (m : M X) : Prop := forall s a s', m s = Some (a, s') ->
  (exists more, ss_errors s' = ss_errors s ++ more /\ dups more = flat_map (reps []) ds) /\
  (ds = [] -> ss_keys s' = ss_keys s).

Lemma adds_bind d1 d2 {X Y} (m : M X) (k : X -> M Y) : adds d1 m -> (forall a, adds d2 (k a)) -> adds (d1 ++ d2) (bind m k).
Proof.
  intros H1 H2 s b s'' E. unfold bind in E. destruct (m s) as [[a s']|] eqn:Em; [|discriminate].
  destruct (H1 _ _ _ Em) as [(m1 & E1 & D1) K1]. destruct (H2 _ _ _ _ E) as [(m2 & E2 & D2) K2]. split.
  - exists (m1 ++ m2). split; [rewrite E2, E1, app_assoc; reflexivity|].
    unfold dups in *. rewrite !flat_map_app. congruence.
  - intros Hn. apply app_eq_nil in Hn as [-> ->]. rewrite K2, K1 by reflexivity. reflexivity.
Qed.
Lemma adds_q {X Y} d (m : M X) (k : X -> M Y) : adds [] m -> (forall a, adds d (k a)) -> adds d (bind m k).
Proof. intros H1 H2. exact (adds_bind [] d m k H1 H2). Qed.
Lemma adds_l {X Y} d (m : M X) (k : X -> M Y) : adds d m -> (forall a, adds [] (k a)) -> adds d (bind m k).
Proof. intros H1 H2. rewrite <- (app_nil_r d). apply adds_bind; assumption. Qed.
Lemma adds_ret {X} (x : X) : adds [] (ret x).
Proof. intros s a s' E. injection E as <- <-. split; [exists []; rewrite app_nil_r; auto|auto]. Qed.
Lemma adds_report k p : (forall x, k <> DuplicateKey x) -> adds [] (report k p).
Proof.
  intros Hk s a s' E. injection E as <- <-. split; [|reflexivity]. exists [mkserror k p]. split; [reflexivity|].
  cbn. unfold dup. cbn. destruct k; try reflexivity. destruct (Hk s0 eq_refl).
Qed.
Lemma adds_items {X Y} (f : X -> M (option Y)) (d : X -> list (list (symbol * pos))) l :
  Forall (fun x => adds (d x) (f x)) l -> adds (flat_map d l) (items f l).
Proof.
  induction 1 as [|x l H HF IH]; cbn; [apply adds_ret|]. apply adds_bind; [exact H|]. intros b. apply adds_l; [exact IH|].
  intros r. apply adds_ret.
Qed.
Lemma adds_items_q {X Y} (f : X -> M (option Y)) l : (forall x, adds [] (f x)) -> adds [] (items f l).
Proof.
  intros H. induction l; cbn; [apply adds_ret|]. apply adds_q; [apply H|]. intros b. apply adds_q; [exact IHl|]. intros; apply adds_ret.
Qed.

Lemma adds_same {X} (m : M X) : (forall s a s', m s = Some (a, s') -> ss_errors s' = ss_errors s /\ ss_keys s' = ss_keys s) -> adds [] m.
Proof. intros H s a s' E. destruct (H _ _ _ E) as [-> ->]. split; [exists []; rewrite app_nil_r; auto|auto]. Qed.

Lemma adds_enter_block : adds [] enter_block.
Proof. apply adds_same. intros s a s' E. unfold enter_block in E. destruct (ss_stack s); [discriminate|]. injection E as <- <-. auto. Qed.
Lemma adds_exit_block : adds [] exit_block.
Proof.
  apply adds_same. intros s a s' E. unfold exit_block in E. destruct (ss_stack s); [discriminate|].
  destruct (frame_exit_block f); [|discriminate]. injection E as <- <-. auto.
Qed.
Lemma adds_enter_frame : adds [] enter_frame.
Proof. apply adds_same. intros s a s' E. injection E as <- <-. auto. Qed.
Lemma adds_exit_frame : adds [] exit_frame.
Proof.
  apply adds_same. intros s a s' E. unfold exit_frame in E. destruct (ss_stack s); [discriminate|].
  destruct (frame_exit_block f); [|discriminate]. injection E as <- <-. auto.
Qed.
Lemma adds_self : adds [] resolve_self.
Proof.
  apply adds_same. intros s a s' E. unfold resolve_self in E. destruct (ss_stack s); [discriminate|].
  destruct (frame_self f). injection E as <- <-. auto.
Qed.
Lemma adds_resolve x p : adds [] (resolve x p).
Proof.
  intros s a s' E. unfold resolve in E. destruct (stack_resolve (ss_stack s) x) as [[[i k]|]|]; [..|discriminate].
  - injection E as <- <-. cbn. split; [exists []; rewrite app_nil_r; auto|auto].
  - revert E. apply (adds_q [] (report (UndeclaredVariable x) p)); [apply adds_report; discriminate|intros; apply adds_ret].
Qed.
Lemma adds_declare x p : adds [] (declare x p).
Proof.
  intros s a s' E. unfold declare in E. destruct (ss_stack s); [discriminate|].
  destruct (frame_declare f x) as [[[i k]|]|]; [..|discriminate].
  - injection E as <- <-. cbn. split; [exists []; rewrite app_nil_r; auto|auto].
  - revert E. apply (adds_q [] (report (DuplicateVariable x) p)); [apply adds_report; discriminate|intros; apply adds_ret].
Qed.

Ltac quiet :=
  repeat match goal with
    | |- forall _, _ => intros
    | |- adds [] (bind _ _) => apply adds_q
    | |- adds [] (ret _) => apply adds_ret
    | |- adds [] (report _ _) => apply adds_report; discriminate
    | |- adds [] (resolve _ _) => apply adds_resolve
    | |- adds [] (declare _ _) => apply adds_declare
    | |- adds [] resolve_self => apply adds_self
    | |- adds [] enter_block => apply adds_enter_block
    | |- adds [] exit_block => apply adds_exit_block
    | |- adds [] enter_frame => apply adds_enter_frame
    | |- adds [] exit_frame => apply adds_exit_frame
    | |- adds [] (items _ _) => apply adds_items_q
    | |- adds [] (match ?x with _ => _ end) => destruct x
    end.

Lemma adds_unit u : adds [] (analyze_unit u).
Proof. unfold analyze_unit. quiet. Qed.
Lemma adds_part u : adds [] (analyze_part u).
Proof. unfold analyze_part. destruct u as [u|[]]; quiet. apply adds_unit. Qed.
Lemma adds_argument u : adds [] (analyze_argument u).
Proof. unfold analyze_argument. quiet. apply adds_part. Qed.
Lemma adds_redirection u : adds [] (analyze_redirection u).
Proof. unfold analyze_redirection. quiet; apply adds_argument. Qed.
Lemma adds_env_item u : adds [] (analyze_env_item u).
Proof. unfold analyze_env_item. quiet; [apply adds_unit|apply adds_argument]. Qed.
Lemma adds_basic u : adds [] (analyze_basic u).
Proof. unfold analyze_basic. quiet; auto using adds_argument, adds_env_item, adds_redirection. Qed.
Lemma adds_command a u : adds [] (analyze_command a u).
Proof. unfold analyze_command. quiet; auto using adds_argument, adds_basic. Qed.
Lemma adds_command_block u : adds [] (analyze_command_block u).
Proof. unfold analyze_command_block. cbv zeta. quiet; apply adds_command. Qed.
Lemma adds_params ps : adds [] (declare_params ps).
Proof. induction ps as [|[s p] ps IH]; cbn; quiet. exact IH. Qed.

(** ** Dict literals *)

Lemma key_adds k p s a s' : is_ill_symbol k = false -> insert_key k p s = Some (a, s') ->
  exists more, ss_errors s' = ss_errors s ++ more /\
    forall l, reps (ss_keys s) ((k, p) :: l) = dups more ++ reps (ss_keys s') l.
Proof.
  intros Hi E. unfold insert_key in E. rewrite Hi in E. cbn [reps]. destruct (existsb (bytes_eqb k) (ss_keys s)).
  - injection E as <- <-. cbn. exists [mkserror (DuplicateKey k) p]. split; reflexivity.
  - injection E as <- <-. cbn. exists []. rewrite app_nil_r. split; reflexivity.
Qed.

Lemma dict_adds (f : expr -> M (option xexpr)) kvs :
  Forall (fun kv => adds (dicts_expr (snd kv)) (f (snd kv))) kvs ->
  flat_map (fun kv => dicts_expr (snd kv)) (removelast kvs) = [] ->
  Forall (fun kv => is_ill_symbol (fst (fst kv)) = false) kvs ->
  forall s r s',
    items (fun kv => k <- insert_key (fst (fst kv)) (snd (fst kv)) ;; v <- f (snd kv) ;; ret (zip k v)) kvs s = Some (r, s') ->
    exists more, ss_errors s' = ss_errors s ++ more /\
      dups more = reps (ss_keys s) (map fst kvs) ++ flat_map (reps []) (flat_map (fun kv => dicts_expr (snd kv)) kvs).
Proof.
  induction 1 as [|[[k p] v] kvs Hv HF IH]; intros Hl Hk s r s' E.
  - injection E as <- <-. exists []. rewrite app_nil_r. auto.
  - inversion Hk as [|? ? Hk1 Hk2]; subst. cbn [fst snd] in *. cbn [items] in E. unfold bind in E at 1.
    set (m := (bind (insert_key (fst (fst (k, p, v))) (snd (fst (k, p, v)))) _)) in E.
    destruct (m s) as [[b s1]|] eqn:Em; [|discriminate]. subst m. cbn [fst snd] in Em.
    unfold bind in Em at 1. destruct (insert_key k p s) as [[k' s0]|] eqn:Ek; [|discriminate].
    destruct (key_adds _ _ _ _ _ Hk1 Ek) as (m0 & E0 & R0).
    assert (Hv' : adds (dicts_expr v) (v0 <- f v ;; ret (zip k' v0))) by (apply adds_l; [exact Hv|intros; apply adds_ret]).
    destruct (Hv' _ _ _ Em) as [(m1 & E1 & D1) K1].
    unfold bind in E. destruct (items _ kvs s1) as [[r2 s2]|] eqn:Ei; [|discriminate]. injection E as <- <-.
    destruct kvs as [|kv kvs].
    + cbn in Ei. injection Ei as <- <-. exists (m0 ++ m1). split; [rewrite E1, E0, app_assoc; reflexivity|].
      cbn [map fst snd flat_map]. rewrite R0, app_nil_r. unfold dups in *. rewrite flat_map_app, D1. cbn [reps]. rewrite app_nil_r. reflexivity.
    + change (removelast (((k, p), v) :: kv :: kvs)) with (((k, p), v) :: removelast (kv :: kvs)) in Hl. cbn [flat_map snd] in Hl.
      apply app_eq_nil in Hl as [Hv0 Hl]. destruct (IH Hl Hk2 _ _ _ Ei) as (m2 & E2 & D2).
      exists (m0 ++ m1 ++ m2). split; [rewrite E2, E1, E0, !app_assoc; reflexivity|].
      rewrite (K1 Hv0) in D2. rewrite Hv0 in D1. cbn [map fst snd]. cbn [flat_map snd]. rewrite Hv0. cbn [app].
      change (map fst ((k, p, v) :: kv :: kvs)) with ((k, p) :: map fst (kv :: kvs)).
      rewrite R0. unfold dups in *. rewrite (flat_map_app dup m0), (flat_map_app dup m1), D1, D2. cbn [app]. rewrite <- app_assoc. reflexivity.
Qed.

Lemma each_Forall {A} (f : A -> Prop) l : each f l <-> Forall f l.
Proof. induction l; cbn; split; [constructor|auto|intros [? ?]; constructor; tauto|intros H; inversion H; tauto]. Qed.
Lemma all_of_Forall {A} (f : A -> Prop) l : all_of f l <-> Forall f l.
Proof. induction l; cbn; split; [constructor|auto|intros [? ?]; constructor; tauto|intros H; inversion H; tauto]. Qed.

Lemma Forall3 {A} (P Q R : A -> Prop) l : Forall (fun x => P x -> Q x -> R x) l -> Forall P l -> Forall Q l -> Forall R l.
Proof. rewrite !Forall_forall. auto. Qed.

Lemma adds_tail {X Y Z} ds (m1 : M X) (m2 : M Y) (g : X -> Y -> Z) {Z'} (h : X -> Y -> Z') :
  adds ds (x <- m1 ;; y <- m2 ;; ret (g x y)) -> adds ds (x <- m1 ;; y <- m2 ;; ret (h x y)).
Proof.
  intros H s a s' E. unfold bind in *. destruct (m1 s) as [[x s1]|] eqn:E1; [|discriminate].
  destruct (m2 s1) as [[y s2]|] eqn:E2; [|discriminate]. injection E as <- <-.
  eapply (H s (g x y) s2). rewrite E1, E2. reflexivity.
Qed.

Lemma adds_trees :
  (forall e, wf_expr e -> flat_expr e -> forall fn lp, adds (dicts_expr e) (analyze_expr fn lp e)) /\
  (forall e, wf_statement e -> flat_statement e -> forall fn lp, adds (dicts_statement e) (analyze_statement fn lp e)) /\
  (forall e, wf_block e -> flat_block e -> forall fn lp, adds (dicts_block e) (analyze_block fn lp e)).
Proof.
  apply tree_ind.
  - contradiction.
  - intros. cbn. quiet.
  - intros. cbn. quiet.
  - intros. cbn. quiet.
  - intros. cbn [analyze_expr dicts_expr]. apply adds_ret.
  - (* arrays *)
    intros es p IH [Hw _] Hf fn lp. cbn [analyze_expr dicts_expr]. apply adds_l; [|intros; apply adds_ret].
    apply adds_items. apply all_of_Forall in Hw. cbn in Hf. apply each_Forall in Hf.
    pose proof (Forall3 _ _ _ _ IH Hw Hf) as H. revert H. apply Forall_impl. auto.
  - (* dicts *)
    intros kvs p IH [Hw _] [Hl Hf] fn lp. apply all_of_Forall in Hw. apply each_Forall in Hf.
    assert (Hv : Forall (fun kv => adds (dicts_expr (snd kv)) (analyze_expr fn lp (snd kv))) kvs).
    { rewrite Forall_forall in *. intros kv Hin. apply IH; auto. apply Hw. exact Hin. }
    assert (Hk : Forall (fun kv : symbol * pos * expr => is_ill_symbol (fst (fst kv)) = false) kvs).
    { rewrite Forall_forall in *. intros kv Hin. apply plain_not_ill. apply Hw in Hin. apply Hin. }
    cbn [analyze_expr dicts_expr]. intros s a s' E. unfold bind at 1 in E. cbn [clear_keys] in E. split; [|discriminate].
    unfold bind at 1 in E.
    match type of E with match items ?f kvs ?t with _ => _ end = _ => destruct (items f kvs t) as [[r s1]|] eqn:Ei; [|discriminate] end.
    injection E as <- <-.
    destruct (dict_adds _ _ Hv Hl Hk _ _ _ Ei) as (more & E & D). exists more. split; [exact E|exact D].
  - (* functions *)
    intros ps b p IH (_ & Hw & _) Hf fn lp. cbn [analyze_expr dicts_expr]. apply adds_q; [quiet|]. intros _. apply adds_q; [apply adds_params|].
    intros r. apply adds_l; [apply IH; assumption|]. quiet.
  - intros op e p IH [Hw _] Hf fn lp. cbn [analyze_expr dicts_expr]. apply adds_l; [apply IH; assumption|]. quiet.
  - intros l op r p IHl IHr (H1 & H2 & _) [F1 F2] fn lp. cbn [analyze_expr dicts_expr].
    apply adds_bind; [auto|]. intros ?. apply adds_l; [auto|]. quiet.
  - intros c t e p IHc IHt IHe (H1 & H2 & H3 & _) (F1 & F2 & F3) fn lp. cbn [analyze_expr dicts_expr].
    apply adds_bind; [auto|]. intros ?. apply adds_q; [quiet|]. intros _. apply adds_bind; [auto|]. intros ?. apply adds_q; [quiet|]. intros _.
    apply adds_q; [quiet|]. intros _. apply adds_l; [auto|]. quiet.
  - intros l r p IHl IHr (H1 & H2 & _) [F1 F2] fn lp. cbn [analyze_expr dicts_expr].
    apply adds_bind; [auto|]. intros ?. apply adds_l; [auto|]. quiet.
  - intros f args p IHf IH (H1 & Hw & _) [F1 Hf] fn lp. cbn [analyze_expr dicts_expr].
    apply adds_bind; [auto|]. intros ?. apply adds_l; [|quiet].
    apply adds_items. apply all_of_Forall in Hw. apply each_Forall in Hf.
    pose proof (Forall3 _ _ _ _ IH Hw Hf) as H. revert H. apply Forall_impl. auto.
  - intros b p _ _ fn lp. cbn [analyze_expr dicts_expr]. apply adds_q; [apply adds_command_block|]. quiet.
  - contradiction.
  - intros x e p IH (_ & Hw & _) Hf fn lp. cbn [analyze_statement dicts_statement]. apply adds_q; [quiet|]. intros ?.
    apply adds_l; [auto|]. quiet.
  - (* assignments *)
    intros l r p IHl IHr (H1 & H2 & _) [F1 F2] fn lp. cbn [analyze_statement dicts_statement].
    destruct l.
    12: { apply adds_bind; [|intros ?; apply adds_l; [auto|quiet]].
      specialize (IHl H1 F1 fn lp). cbn [analyze_expr] in IHl. revert IHl. apply adds_tail. }
    all: apply adds_q; [quiet|]; intros ?; apply adds_l; [auto|quiet].
  - intros e p IH [Hw _] Hf fn lp. cbn [analyze_statement dicts_statement]. apply adds_q; [quiet|]. intros ?. apply adds_l; [auto|quiet].
  - intros p _ _ fn lp. cbn [analyze_statement dicts_statement]. quiet.
  - intros c b p IHc IHb (H1 & H2 & _) [F1 F2] fn lp. cbn [analyze_statement dicts_statement].
    apply adds_bind; [auto|]. intros ?. apply adds_q; [quiet|]. intros _. apply adds_l; [auto|quiet].
  - intros x c b p IHc IHb (_ & H1 & H2 & _) [F1 F2] fn lp. cbn [analyze_statement dicts_statement].
    apply adds_bind; [auto|]. intros ?. apply adds_q; [quiet|]. intros _. apply adds_q; [quiet|]. intros ?. apply adds_l; [auto|quiet].
  - intros e IH Hw Hf fn lp. cbn [analyze_statement dicts_statement]. apply adds_l; [auto|quiet].
  - contradiction.
  - intros ss IH Hw Hf fn lp. cbn [analyze_block dicts_block]. apply adds_items. cbn in Hw, Hf. apply all_of_Forall in Hw. apply each_Forall in Hf.
    pose proof (Forall3 _ _ _ _ IH Hw Hf) as H. revert H. apply Forall_impl. auto.
Qed.

Definition key_error (kp : symbol * pos) : serror := mkserror (DuplicateKey (fst kp)) (snd kp).

Lemma dups_all es : Forall (fun e => exists k, se_kind e = DuplicateKey k) es -> es = map key_error (dups es).
Proof.
  induction 1 as [|[k p] es [x Hx] HF IH]; [reflexivity|]. cbn in Hx. subst. unfold dups. cbn. f_equal. exact IH.
Qed.

Lemma sema_dups b : wf_block b -> flat_block b ->
  match sema b with
  | SemaOk _ => flat_map (reps []) (dicts_block b) = []
  | SemaErrors es => dups es = flat_map (reps []) (dicts_block b)
  | SemaCrash => True
  end.
Proof.
  intros Hw Hf. unfold sema.
  match goal with |- context [match ?m ?s with _ => _ end] => assert (H : adds (dicts_block b) m) end.
  { apply adds_q; [quiet|]. intros _. apply adds_q; [quiet|]. intros _. apply adds_l; [apply adds_trees; assumption|]. quiet. }
  match goal with |- context [match ?m ?s with _ => _ end] => destruct (m s) as [[[[ss|] fi] s']|] eqn:E end; [..|exact I].
  - destruct (H _ _ _ E) as [(more & E1 & D) _]. cbn [ss_errors app] in E1. rewrite E1. destruct more; [symmetry; exact D|exact D].
  - destruct (H _ _ _ E) as [(more & E1 & D) _]. cbn [ss_errors app] in E1. rewrite E1. exact D.
Qed.

Lemma repeated_keys src b les ks : analyze src = Analysis b les [] -> legal b -> flat_block b -> repeated b ks ->
  match ks with
  | [] => exists p, sema b = SemaOk p
  | _ => sema b = SemaErrors (map (fun kp => mkserror (DuplicateKey (fst kp)) (snd kp)) ks)
  end.
Proof.
  intros Ha Hl Hf Hr. apply repeated_spec in Hr. pose proof (sema_dups b (analyze_wf _ _ _ Ha) Hf) as H.
  destruct (text_legal _ _ _ Ha Hl) as [[p E]|(es & E & Hn & HF)]; rewrite E in H.
  - rewrite <- Hr in H. subst ks. rewrite H. eauto.
  - rewrite <- Hr in H. apply dups_all in HF. rewrite H in HF. destruct ks; [subst es; destruct (Hn eq_refl)|]. rewrite E, HF. reflexivity.
Qed.
