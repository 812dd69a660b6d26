(** The semantic analyser never panics, on any tree; outside functions it never allocates a
    slot for [self]. *)
From Coq Require Import Strings.String.
From Verif Require Import Base Lexer Ast Program Sema SemaProofs SemaTreeProofs.
Local Open Scope sema_scope.

Definition same_frame (f f' : frame) : Prop :=
  List.length (fr_scopes f') = List.length (fr_scopes f) /\ fr_self f' = fr_self f.

(** [fn]: the innermost frame may get a slot for [self] *)
Definition same (fn : bool) (st st' : stack) : Prop :=
  match st, st' with
  | f :: st, f' :: st' =>
    List.length (fr_scopes f') = List.length (fr_scopes f) /\ (fn = false -> fr_self f' = fr_self f) /\
    Forall2 same_frame st st'
  | _, _ => False
  end.
Definition ok (st : stack) : Prop := st <> [] /\ Forall (fun f => fr_scopes f <> []) st.

Lemma frames_refl st : Forall2 same_frame st st.
Proof. induction st; constructor; auto. split; reflexivity. Qed.
Lemma frames_trans a b c : Forall2 same_frame a b -> Forall2 same_frame b c -> Forall2 same_frame a c.
Proof.
  intros H. revert c. induction H as [|f f' st st' [H1 H2] H IH]; intros c Hc; inversion Hc as [|? f2 ? st2 [H3 H4] Hc']; subst; constructor.
  - split; congruence.
  - auto.
Qed.
Lemma frames_ok a b : Forall2 same_frame a b -> Forall (fun f => fr_scopes f <> []) a -> Forall (fun f => fr_scopes f <> []) b.
Proof.
  induction 1 as [|f f' st st' [H1 H2] H IH]; intros HF; [constructor|]. inversion HF; subst. constructor; auto.
  intros E. rewrite E in H1. destruct (fr_scopes f); [congruence|discriminate].
Qed.

Lemma same_refl fn st : st <> [] -> same fn st st.
Proof. destruct st; [congruence|]. intros _. cbn. auto using frames_refl. Qed.
Lemma same_trans fn a b c : same fn a b -> same fn b c -> same fn a c.
Proof.
  destruct a as [|f a], b as [|f' b], c as [|f2 c]; cbn; try contradiction. intros (H1 & H2 & H3) (H4 & H5 & H6).
  split; [congruence|]. split; [|eapply frames_trans; eauto]. intros E. rewrite H5, H2; auto.
Qed.
Lemma same_ok fn a b : same fn a b -> ok a -> ok b.
Proof.
  destruct a as [|f a], b as [|f' b]; cbn; try contradiction. intros (H1 & H2 & H3) [_ H]. inversion H; subst. split; [discriminate|].
  constructor; [|eapply frames_ok; eauto]. intros E. rewrite E in H1. destruct (fr_scopes f); [congruence|discriminate].
Qed.
Lemma same_frames fn a b : a <> [] -> Forall2 same_frame a b -> same fn a b.
Proof. intros Hn H. destruct H as [|f f' a b [H1 H2] H]; [congruence|]. cbn. auto. Qed.

Definition safe (fn : bool) {X} (m : M X) : Prop :=
  forall s, ok (ss_stack s) -> exists r s', m s = Some (r, s') /\ same fn (ss_stack s) (ss_stack s').

Lemma safe_ret fn {X} (x : X) : safe fn (ret x).
Proof. intros s [H _]. eexists _, _. split; [reflexivity|]. now apply same_refl. Qed.
Lemma safe_report fn k p : safe fn (report k p).
Proof. intros s [H _]. eexists _, _. split; [reflexivity|]. now apply same_refl. Qed.
Lemma safe_bind fn {X Y} (m : M X) (k : X -> M Y) : safe fn m -> (forall x, safe fn (k x)) -> safe fn (bind m k).
Proof.
  intros H Hk s Hs. destruct (H s Hs) as (r & s1 & E1 & H1). unfold bind. rewrite E1.
  destruct (Hk r s1 (same_ok _ _ _ H1 Hs)) as (r2 & s2 & E2 & H2). eexists _, _. split; [exact E2|]. eapply same_trans; eauto.
Qed.
Lemma safe_items fn {X Y} (f : X -> M (option Y)) l : Forall (fun x => safe fn (f x)) l -> safe fn (items f l).
Proof.
  induction 1 as [|x l H HF IH]; cbn [items]; [apply safe_ret|]. apply safe_bind; [exact H|]. intros r.
  apply safe_bind; [exact IH|]. intros; apply safe_ret.
Qed.
Lemma safe_items' fn {X Y} (f : X -> M (option Y)) l : (forall x, safe fn (f x)) -> safe fn (items f l).
Proof. intros H. apply safe_items. induction l; constructor; auto. Qed.
Lemma safe_clear fn : safe fn clear_keys.
Proof. intros s [H _]. eexists _, _. split; [reflexivity|]. now apply same_refl. Qed.
Lemma safe_key fn x p : safe fn (insert_key x p).
Proof.
  intros s Hs. unfold insert_key. destruct (is_ill_symbol x); [now apply safe_ret|].
  destruct (existsb _ _); [apply safe_bind; auto using safe_report, safe_ret|].
  eexists _, _. split; [reflexivity|]. apply same_refl, Hs.
Qed.

Lemma set_root_length scs new : List.length (set_root_scope scs new) = List.length scs.
Proof. induction scs as [|sc scs IH]; [reflexivity|]. destruct scs; [reflexivity|]. cbn [set_root_scope List.length] in *. now rewrite IH. Qed.

Lemma capture_safe f x from : fr_scopes f <> [] -> exists i f', frame_capture f x from = Some (i, f') /\ same_frame f f'.
Proof.
  intros H. unfold frame_capture. rewrite root_last by assumption. destruct (assoc _ _) as [i|].
  - exists i, f. split; [reflexivity|split; reflexivity].
  - eexists _, _. split; [reflexivity|]. split; [apply set_root_length|reflexivity].
Qed.

Lemma install_safe x y : forall st n i, Forall (fun f => fr_scopes f <> []) st -> find_frame st x = Some (n, i) ->
  exists j st', install_captures n st y i = Some (j, st') /\ Forall2 same_frame st st'.
Proof.
  induction st as [|f st IH]; intros n i HF Hf; [discriminate|]. cbn [find_frame] in Hf. inversion HF; subst.
  destruct (frame_resolve f x) as [ix|].
  - injection Hf as <- <-. eexists _, _. split; [reflexivity|apply frames_refl].
  - destruct (find_frame st x) as [[m ix]|]; [|discriminate]. injection Hf as <- <-.
    destruct (IH m ix ltac:(assumption) eq_refl) as (j & st' & E & Hs). cbn [install_captures]. rewrite E.
    destruct (capture_safe f y j ltac:(assumption)) as (i' & f' & E' & Hs'). rewrite E'. eexists _, _. split; [reflexivity|].
    constructor; auto.
Qed.

Lemma safe_resolve fn x p : safe fn (resolve x p).
Proof.
  intros s [Hn HF]. unfold resolve, stack_resolve. destruct (find_frame (ss_stack s) x) as [[n i]|] eqn:E.
  - destruct (install_safe x (closed_symbol x) _ _ _ HF E) as (j & st' & Ei & Hs).
    destruct n as [|n].
    + eexists _, _. split; [reflexivity|]. now apply same_refl.
    + rewrite Ei. eexists _, _. split; [reflexivity|]. now apply same_frames.
  - apply safe_bind; auto using safe_report, safe_ret. split; auto.
Qed.
Lemma safe_declare fn x p : safe fn (declare x p).
Proof.
  intros s [Hn HF]. unfold declare. destruct (ss_stack s) as [|f st] eqn:Es; [congruence|]. inversion HF; subst.
  unfold frame_declare. destruct (fr_scopes f) as [|sc scs] eqn:Esc; [congruence|]. destruct (scope_declare _ _ _) as [sc'|].
  - eexists _, _. split; [reflexivity|]. cbn. rewrite Esc. cbn. auto using frames_refl.
  - eexists _, _. split; [reflexivity|]. cbn. rewrite Es. auto using frames_refl.
Qed.
Lemma safe_self : safe true resolve_self.
Proof.
  intros s [Hn HF]. unfold resolve_self. destruct (ss_stack s) as [|f st] eqn:Es; [congruence|].
  unfold frame_self. destruct (fr_self f) as [i|]; (eexists _, _; split; [reflexivity|]; cbn; rewrite ?Es; repeat split; auto using frames_refl; discriminate).
Qed.
Lemma safe_block fn {X} (m : M (option X)) : safe fn m -> safe fn (in_block m).
Proof.
  intros H s [Hn HF]. unfold in_block, bind, enter_block. destruct (ss_stack s) as [|f st] eqn:Es; [congruence|]. inversion HF; subst.
  destruct (H (mksstate (frame_enter_block f :: st) (ss_keys s) (ss_errors s))) as (r & s1 & E1 & H1).
  { split; [discriminate|]. constructor; [discriminate|assumption]. }
  rewrite E1. unfold exit_block. cbn [ss_stack] in H1. destruct (ss_stack s1) as [|f1 st1]; [destruct H1|].
  destruct H1 as (H1 & H1b & H1c). unfold frame_exit_block. cbn in H1. destruct (fr_scopes f1) as [|sc1 scs1]; [discriminate|].
  eexists _, _. split; [reflexivity|]. cbn. injection H1 as H1. auto.
Qed.
Lemma safe_enter fn {X Y} (m : M (option X)) (k : option X -> M Y) : safe fn m -> (forall r, safe fn (k r)) ->
  safe fn (_ <- enter_block ;; r <- m ;; _ <- exit_block ;; k r).
Proof. intros H Hk s Hs. rewrite enter_block_eq. apply safe_bind; auto using safe_block. Qed.

Create HintDb safe.
Ltac safe := repeat first [solve [eauto 1 with safe] | apply safe_ret | apply safe_report | apply safe_bind; [|intro] | apply safe_items'; intro].

Lemma safe_unit fn u : safe fn (analyze_unit u).
Proof. destruct u; cbn; safe. destruct (is_ill_symbol _); safe. apply safe_resolve. Qed.
Local Hint Resolve safe_unit : safe.
Lemma safe_argument fn a : safe fn (analyze_argument a).
Proof. unfold analyze_argument. destruct (is_ill_argument a); safe. destruct x as [u|[]]; cbn; safe. Qed.
Local Hint Resolve safe_argument : safe.
Lemma safe_redirection fn r : safe fn (analyze_redirection r).
Proof. destruct r as [|src [fd|a|a]|l a]; cbn; safe; apply safe_argument. Qed.
Local Hint Resolve safe_redirection : safe.
Lemma safe_env fn kv : safe fn (analyze_env_item kv).
Proof. unfold analyze_env_item. safe; auto using safe_unit. match goal with |- context [match ?x with _ => _ end] => destruct x end; safe; auto using safe_unit, safe_argument. Qed.
Local Hint Resolve safe_env : safe.
Lemma safe_basic fn c : safe fn (analyze_basic c).
Proof. unfold analyze_basic. destruct (builtin_of _); safe; auto using safe_argument, safe_env, safe_redirection. Qed.
Local Hint Resolve safe_basic : safe.
Lemma safe_command fn a c : safe fn (analyze_command a c).
Proof.
  unfold analyze_command. destruct (builtin_of _); [destruct (_ || _)%bool|]; safe; auto using safe_argument, safe_basic.
Qed.
Local Hint Resolve safe_command : safe.
Lemma safe_command_block fn b : safe fn (analyze_command_block b).
Proof. unfold analyze_command_block. cbn zeta. safe; auto using safe_command. Qed.
Lemma safe_params fn ps : safe fn (declare_params ps).
Proof. induction ps as [|[x p] ps IH]; cbn [declare_params]; safe; auto. destruct (is_ill_symbol x); safe. apply safe_declare. Qed.

Lemma safe_function fn ps (m : M (option (list xstatement))) (k : option unit -> option (list xstatement) -> frame_info -> option xexpr) :
  safe true m -> safe fn (_ <- enter_frame ;; r <- declare_params ps ;; body <- m ;; fi <- exit_frame ;; ret (k r body fi)).
Proof.
  intros Hm s [Hn HF]. unfold bind at 1. cbn [enter_frame].
  destruct (safe_bind true (declare_params ps) (fun r => b <- m ;; ret (r, b)) (safe_params _ _)
     ltac:(intros; safe; exact Hm) (mksstate (frame_new :: ss_stack s) (ss_keys s) (ss_errors s))) as ([r b] & s2 & E2 & H2).
  { split; [discriminate|]. constructor; [discriminate|assumption]. }
  unfold bind in E2 |- *. destruct (declare_params ps _) as [[r1 s1]|]; [|discriminate]. destruct (m s1) as [[b1 s3]|]; [|discriminate].
  injection E2 as -> -> ->. unfold exit_frame. cbn [ss_stack] in H2. destruct (ss_stack s2) as [|f2 st2]; [destruct H2|].
  destruct H2 as (H2 & _ & H3). unfold frame_exit_block. cbn in H2. destruct (fr_scopes f2); [discriminate|].
  eexists _, _. split; [reflexivity|]. now apply same_frames.
Qed.

Ltac sf := repeat first [apply safe_ret | apply safe_enter; [|intro] | apply safe_report | apply safe_bind; [|intro]].

Lemma safe_trees :
  (forall e, (forall fn lp, safe fn (analyze_expr fn lp e)) /\
     match e with EAccess o f _ => (forall fn lp, safe fn (analyze_expr fn lp o)) /\ (forall fn lp, safe fn (analyze_expr fn lp f)) | _ => True end) /\
  (forall s fn lp, safe fn (analyze_statement fn lp s)) /\ (forall b fn lp, safe fn (analyze_block fn lp b)).
Proof.
  apply tree_ind.
  - split; auto. intros; cbn; sf.
  - split; auto. intros [] lp; cbn; sf. apply safe_self.
  - split; auto. intros; cbn. destruct (is_ill_symbol _); sf. apply safe_resolve.
  - split; auto. intros; cbn; sf.
  - split; auto. intros; cbn; sf.
  - intros es p HF. split; auto. intros; cbn; sf. apply safe_items. eapply Forall_impl; [|exact HF]. intros ? [H _]. apply H.
  - intros kvs p HF. split; auto. intros; cbn. apply safe_bind; [apply safe_clear|intro]. sf. apply safe_items.
    eapply Forall_impl; [|exact HF]. intros ? [H _]. sf; auto using safe_key.
  - intros ps b p Hb. split; auto. intros; cbn.
    apply (safe_function _ _ _ (fun r b fi => match zip r b with Some (_, body) => Some (XFunction (List.length ps) fi body p) | None => None end)). apply Hb.
  - intros op e p [H _]. split; auto. intros; cbn. apply safe_bind; [apply H|]. intros [x|]; sf. destruct op, fn; sf.
  - intros l op r p [Hl _] [Hr _]. split; auto. intros; cbn. sf; auto.
  - intros c t e p [Hc _] Ht He. split; auto. intros; cbn. sf; auto.
  - intros o f p [Ho _] [Hf _]. split; auto. intros; cbn. sf; auto.
  - intros f args p [Hf _] HF. split; auto. intros; cbn. sf; auto. apply safe_items. eapply Forall_impl; [|exact HF]. intros ? [H _]. apply H.
  - intros b p. split; auto. intros; cbn. apply safe_bind; [apply safe_command_block|intro; sf].
  - intros; cbn; sf.
  - intros x e p [He _] fn lp. cbn. sf; auto using safe_declare.
  - intros l r p [Hl Hl'] [Hr _] fn lp. cbn. apply safe_bind; [|intro; sf; auto].
    destruct l; sf.
    + destruct (is_ill_symbol _); sf. apply safe_resolve.
    + apply Hl'.
    + apply Hl'.
  - intros e p [He _] fn lp. cbn. sf; auto. destruct fn; sf.
  - intros p fn lp. cbn. destruct lp; sf.
  - intros c b p [Hc _] Hb fn lp. cbn. sf; auto.
  - intros x e b p [He _] Hb fn lp. cbn. apply safe_bind; auto. intros r s Hs.
    assert (Hb' : safe fn (in_block (ix <- (if is_ill_symbol x then ret None else declare x p) ;; b <- analyze_block fn true b ;; ret (Some (ix, b))))).
    { apply safe_block. sf; auto. destruct (is_ill_symbol x); sf. apply safe_declare. }
    destruct (Hb' s Hs) as (r' & s' & E & H). unfold in_block, bind in E |- *.
    destruct (enter_block s) as [[[] s1]|]; [|discriminate]. destruct ((if is_ill_symbol x then ret None else declare x p) s1) as [[ix s2]|]; [|discriminate].
    destruct (analyze_block fn true b s2) as [[b2 s3]|]; [|discriminate]. cbn [ret] in E. destruct (exit_block s3) as [[[] s4]|]; [|discriminate].
    injection E as <- <-. eexists _, _. split; [reflexivity|exact H].
  - intros e [He _] fn lp. cbn. sf; auto.
  - intros; cbn; sf.
  - intros ss HF fn lp. cbn. apply safe_items. eapply Forall_impl; [|exact HF]. auto.
Qed.

Definition start : sstate :=
  mksstate [mkframe 1 [] None [[(bs "std"%string, 0)]]] [] [].

Lemma start_eq {X} (k : M X) :
  (_ <- enter_frame ;; _ <- declare (bs "std"%string) (mkpos 0 0) ;; k) (mksstate [] [] []) = k start.
Proof. reflexivity. Qed.

Lemma start_run b : exists r s f,
  analyze_block false false b start = Some (r, s) /\ ss_stack s = [f] /\ fr_scopes f <> [] /\ fr_self f = None.
Proof.
  destruct (proj2 (proj2 safe_trees) b false false start) as (r & s & E & H).
  { split; [discriminate|]. constructor; [discriminate|constructor]. }
  exists r, s. unfold start in H. cbn [ss_stack] in H. destruct (ss_stack s) as [|f st]; [destruct H|].
  destruct H as (H & H1 & H2). inversion H2; subst. exists f. split; [exact E|]. split; [reflexivity|].
  split; [|now apply H1]. destruct (fr_scopes f); discriminate.
Qed.

Lemma sema_run b : exists r s f,
  analyze_block false false b start = Some (r, s) /\ ss_stack s = [f] /\ fr_self f = None /\ sema b = match r with
           | Some ss => match ss_errors s with [] => SemaOk (mkprogram ss (fr_slots f)) | es => SemaErrors es end
           | None => SemaErrors (ss_errors s)
           end.
Proof.
  destruct (start_run b) as (r & s & f & E & Es & Hf & Hself). exists r, s, f. split; [exact E|]. split; [exact Es|]. split; [exact Hself|].
  unfold sema. rewrite start_eq. unfold bind. rewrite E. unfold exit_frame. rewrite Es. unfold frame_exit_block.
  destruct (fr_scopes f); [congruence|]. destruct r; reflexivity.
Qed.

Lemma sema_no_crash b : sema b <> SemaCrash.
Proof.
  destruct (sema_run b) as ([ss|] & s & f & _ & _ & _ & ->); [destruct (ss_errors s)|]; discriminate.
Qed.
