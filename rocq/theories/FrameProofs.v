(** A call has to do with what it is given only: C110. *)
From Coq Require Import List Lia.
From Verif Require Import Base Lexer Ast Program Value StdLib Exec Runtime SpecProgram SpecRun SpecRuntime SpecTail TailProofs SpecGarbage SpecFrame
  GarbageRunProofs.
Import ListNotations.
#[local] Existing Instance anything.

(** A stack of [k] slots that hold nothing *)
Definition blank (id k : nat) : list vslot := repeat (Regular id VNil) k.
Lemma blank_pointers id k x : In x (flat_map slot_pointers (blank id k)) -> x = OCell id.
Proof. induction k as [|k IH]; cbn; [intros []|intros [<-|H]; auto]. Qed.
Lemma reach_incl h r r' x : (forall y, In y r -> In y r') -> reachable h r x -> reachable h r' x.
Proof. intros H. induction 1 as [x Hx|x v y H0 IH Hv Hy]; [apply rc_root, H, Hx|eapply rc_inside; eassumption]. Qed.
Lemma cell_out h id : length (h_cells h) <= id -> cell_get h id = VNil.
Proof. intros H. unfold cell_get. apply nth_overflow, H. Qed.
Lemma held_blank {W} (s : state W) more h id k x :
  length (h_cells h) <= id -> reachable h (more ++ roots (set_stack s (blank id k))) x -> x = OCell id \/ reachable h (more ++ held s) x.
Proof.
  intros L. induction 1 as [x H|x v y H IH Hv Hy].
  - apply in_app_or in H. destruct H as [H|H]; [right; apply rc_root, in_or_app; auto|].
    cbn [roots set_stack st_stack st_args st_modules In] in H. destruct H as [<-|[<-|H]].
    1,2: right; apply rc_root, in_or_app; right; cbn; auto.
    apply in_app_or in H. destruct H as [H|H]; [left; eapply blank_pointers, H|].
    right. apply rc_root, in_or_app. right. cbn. auto.
  - destruct IH as [->|IH]; [|right; eapply rc_inside; eassumption].
    cbn in Hv. rewrite (cell_out h id L) in Hv. destruct Hv as [<-|[]]. destruct Hy.
Qed.
Lemma held_roots {W} (s : state W) more h l x : reachable h (more ++ held s) x -> reachable h (more ++ roots (set_stack s l)) x.
Proof.
  apply reach_incl. intros y H. apply in_app_or in H. apply in_or_app. destruct H as [H|H]; [auto|right].
  cbn in *. destruct H as [H|[H|H]]; auto. right. right. apply in_or_app. auto.
Qed.
Lemma same_object_refl h x : same_object h h x.
Proof. destruct x; reflexivity. Qed.
Lemma same_size_refl h : same_size h h.
Proof. repeat split. Qed.

Section Frame.
Context {W : Type}.
Variable X : ext W.
Variable O : os W.
Hypothesis HX : honest X.
Hypothesis DX : detached X.
Variable n : nat.
Variables (obj : value) (f : func) (start : nat) (p : spos).
Hypothesis Ho : sound obj.
Hypothesis Hf : sound_func f.
Notation call := (ev_call (interp X O n) obj f start p).

Lemma call_local r r' (s : state W) : fits X r r' -> st_stack s = r -> sound_state s ->
  rel_out 0 0 r r' sound (call s) (call (set_stack s r')).
Proof.
  intros F E (S1 & S2). apply (r_call _ _ _ (run_local X O false HX true n) obj f start p Ho Hf r r' [] s F).
  split; [exact E|]. repeat split; try constructor; apply S2.
Qed.
Lemma pre_nil r fr (t : state W) : pre 0 r fr t -> fr = [] /\ st_stack t = r.
Proof. intros (P1 & P2 & _). destruct fr; [auto|discriminate]. Qed.

Theorem call_frame (s s' : state W) o : sound_state s -> call s = o -> finishes o s' -> st_leaked s' = false ->
  st_stack s' = st_stack s /\ untouched (st_heap s) (given obj f s) (st_heap s') (comes o ++ held s').
Proof.
  intros S E F L. set (id := length (h_cells (st_heap s))).
  set (st := blank id (length (st_stack s))).
  assert (Fi : fits X (st_stack s) st) by (right; symmetry; apply repeat_length).
  pose proof (call_local _ _ s Fi eq_refl S) as R. rewrite E in R.
  pose proof (call_regardless X O DX n obj f start p (set_stack s st) (set_stack s st)) as G.
  assert (B : but_garbage (pointers obj ++ func_pointers f) (set_stack s st) (set_stack s st)).
  { split; try reflexivity; [apply same_size_refl|intros; apply same_object_refl]. }
  specialize (G B).
  assert (K : exists fr, pre 0 (st_stack s) fr s' /\ left_alone (pointers obj ++ func_pointers f) (set_stack s st) (comes o) (set_stack s' (fr ++ st))).
  { destruct F as [v s'|q s'].
    - destruct (R L) as (_ & fr & P & E'). exists fr. split; [exact P|]. rewrite E' in G. exact (proj2 (proj2 G)).
    - destruct (R L) as (fr & P & E'). exists fr. split; [exact P|]. rewrite E' in G. exact (proj2 (proj2 G)). }
  destruct K as (fr & P & K). destruct (pre_nil _ _ _ P) as [-> ES]. cbn [app] in K. split; [exact ES|].
  intros x T N. destruct (K x T) as (K1 & K2 & K3).
  - intros H. cbn [set_stack st_heap] in H. unfold st in H. apply held_blank in H; [|unfold id; lia]. destruct H as [->|H].
    + cbn in T. unfold id in T. lia.
    + apply N. unfold given. rewrite app_assoc. exact H.
  - split; [exact K1|]. split; [exact K2|]. intros H. apply K3. apply held_roots. exact H.
Qed.

Lemma alike_but (s t : state W) id k : length (h_cells (st_heap s)) <= id -> alike (given obj f s) s t ->
  but_garbage (pointers obj ++ func_pointers f) (set_stack s (blank id k)) (set_stack t (blank id k)).
Proof.
  intros L [A1 A2 A3 A4 A5 A6 A7]. split; try assumption; [reflexivity|].
  intros x H. cbn [set_stack st_heap] in *. apply held_blank in H; [|exact L]. destruct H as [->|H].
  - cbn. rewrite !cell_out; [reflexivity|exact L|]. destruct A6 as [-> _]. exact L.
  - apply A7. unfold given. rewrite app_assoc. exact H.
Qed.
Lemma but_alike more (s t : state W) l : but_garbage more (set_stack s l) t -> alike (more ++ held s) s t.
Proof.
  intros [B1 B2 B3 B4 B5 B6 B7 B8]. split; try assumption. intros x H. apply B8. apply held_roots. exact H.
Qed.
Lemma alike_stack g (s t : state W) l : alike g s t -> alike g s (set_stack t l).
Proof. intros [A1 A2 A3 A4 A5 A6 A7]. split; assumption. Qed.

Theorem call_answers (s t : state W) : x_stack_size X = None \/ length (st_stack s) = length (st_stack t) ->
  sound_state s -> sound_state t -> alike (given obj f s) s t -> clean_end (call s) -> answers s t (call s) (call t).
Proof.
  intros F S T A C. set (id := length (h_cells (st_heap s))).
  set (st := blank id (length (st_stack s))).
  assert (Fs : fits X (st_stack s) st) by (right; symmetry; apply repeat_length).
  assert (Ft : fits X st (st_stack t)).
  { destruct F as [F|F]; [left; exact F|right]. unfold st, blank. rewrite repeat_length. exact F. }
  pose proof (call_local _ _ s Fs eq_refl S) as R.
  assert (B : but_garbage (pointers obj ++ func_pointers f) (set_stack s st) (set_stack t st)).
  { apply alike_but; [unfold id; lia|exact A]. }
  pose proof (call_regardless X O DX n obj f start p _ _ B) as G.
  assert (T' : sound_state (set_stack t st)).
  { split; [|exact (proj2 T)]. cbn. unfold st, blank. apply Forall_forall. intros x H. apply repeat_spec in H. subst x. split; exact Logic.I. }
  pose proof (call_local _ _ (set_stack t st) Ft eq_refl T') as R'.
  assert (E : set_stack (set_stack t st) (st_stack t) = t) by (destruct t; reflexivity). rewrite E in R'.
  destruct (call s) as [v s'|q s'|z s'|c|]; cbn [clean_end] in C; try contradiction.
  - destruct (R C) as (_ & fr & P & E'). destruct (pre_nil _ _ _ P) as [-> ES]. cbn [app] in E'. rewrite E' in G.
    destruct (call (set_stack t st)) as [w t'|q t'|z t'|c|]; cbn [regardless] in G; try contradiction.
    destruct G as (<- & G & _). assert (Lt : st_leaked t' = false) by (rewrite (bg_leaked _ _ _ G); exact C).
    destruct (R' Lt) as (_ & fr' & P' & ->). destruct (pre_nil _ _ _ P') as [-> ES']. cbn.
    split; [reflexivity|]. split; [apply alike_stack; eapply but_alike, G|]. split; [exact ES|reflexivity].
  - destruct (R C) as (fr & P & E'). destruct (pre_nil _ _ _ P) as [-> ES]. cbn [app] in E'. rewrite E' in G.
    destruct (call (set_stack t st)) as [w t'|q' t'|z t'|c|]; cbn [regardless] in G; try contradiction.
    destruct G as (<- & G & _). assert (Lt : st_leaked t' = false) by (rewrite (bg_leaked _ _ _ G); exact C).
    destruct (R' Lt) as (fr' & P' & ->). destruct (pre_nil _ _ _ P') as [-> ES']. cbn.
    split; [reflexivity|]. split; [apply alike_stack; eapply but_alike, G|]. split; [exact ES|reflexivity].
  - destruct (R C) as (l & E'). rewrite E' in G.
    destruct (call (set_stack t st)) as [w t'|q' t'|z' t'|c|]; cbn [regardless] in G; try contradiction.
    destruct G as (<- & G & Gl). assert (Lt : st_leaked t' = false) by (rewrite Gl; exact C).
    destruct (R' Lt) as (l' & ->). cbn. auto.
Qed.
End Frame.

(** ** Statements *)
Lemma own_blank {W} (s : state W) more h fr id k x :
  length (h_cells h) <= id -> reachable h (more ++ roots (set_stack s (fr ++ blank id k))) x ->
  x = OCell id \/ reachable h (more ++ flat_map slot_pointers fr ++ held s) x.
Proof.
  intros L H. rewrite app_assoc. apply (held_blank s _ h id k); [exact L|]. revert H. apply reach_incl. intros y H.
  apply in_app_or in H. destruct H as [H|H]; [apply in_or_app; left; apply in_or_app; auto|].
  cbn [roots set_stack st_stack st_args st_modules In] in H. rewrite flat_map_app, !in_app_iff in H. rewrite !in_app_iff. cbn. rewrite !in_app_iff. tauto.
Qed.
Lemma own_roots {W} (s : state W) more h fr l x :
  reachable h (more ++ flat_map slot_pointers fr ++ held s) x -> reachable h (more ++ roots (set_stack s (fr ++ l))) x.
Proof.
  apply reach_incl. intros y H. unfold roots. unfold held in H. cbn [set_stack st_stack st_args st_modules].
  rewrite flat_map_app. repeat (rewrite ?in_app_iff in *; cbn [In] in *). tauto.
Qed.

Section Local.
Context {W : Type}.
Variable X : ext W.
Variable O : os W.
Hypothesis HX : honest X.
Hypothesis DX : detached X.
Variable n : nat.
Variables (u : uinfo) (st : xstatement) (fn lp : bool) (k : nat).
Hypothesis V : valid_statement fn lp k st.
Notation does := (ev_statement (interp X O n) u st).

Lemma statement_local r r' fr (s : state W) : fits X r r' -> st_stack s = fr ++ r -> length fr = k -> sound_state s ->
  rel_out k k r r' flow_r (does s) (does (set_stack s (fr ++ r'))).
Proof.
  intros F E L (S1 & S2). apply (r_statement _ _ _ (run_local X O false HX true n) u st fn lp k V r r' fr s F).
  split; [exact E|]. split; [exact L|]. split; [|exact S2]. rewrite E in S1. apply Forall_app in S1. apply S1.
Qed.
Lemma top_of (fr r : list vslot) : length fr = k -> firstn k (fr ++ r) = fr /\ skipn k (fr ++ r) = r.
Proof. intros <-. split; [rewrite firstn_app, Nat.sub_diag, firstn_all, app_nil_r; reflexivity|apply skipn_app_length; reflexivity]. Qed.

Theorem statement_frame (s s' : state W) o : k <= length (st_stack s) -> sound_state s -> does s = o -> finishes o s' -> st_leaked s' = false ->
  skipn k (st_stack s') = skipn k (st_stack s) /\ untouched (st_heap s) (own k s) (st_heap s') (leaves o ++ own k s').
Proof.
  intros Lk S E F L. set (id := length (h_cells (st_heap s))).
  set (fr := firstn k (st_stack s)). set (r := skipn k (st_stack s)). set (r' := blank id (length r)).
  assert (Es : st_stack s = fr ++ r) by (symmetry; apply firstn_skipn).
  assert (Lf : length fr = k) by (unfold fr; rewrite firstn_length; lia).
  assert (Fi : fits X r r') by (right; symmetry; apply repeat_length).
  pose proof (statement_local r r' fr s Fi Es Lf S) as R. rewrite E in R.
  pose proof (statement_regardless X O DX n u st (set_stack s (fr ++ r')) (set_stack s (fr ++ r'))) as G.
  assert (B : but_garbage [] (set_stack s (fr ++ r')) (set_stack s (fr ++ r'))).
  { split; try reflexivity; [apply same_size_refl|intros; apply same_object_refl]. }
  specialize (G B).
  assert (K : exists fr', pre k r fr' s' /\ left_alone [] (set_stack s (fr ++ r')) (leaves o) (set_stack s' (fr' ++ r'))).
  { destruct F as [v s'|q s'].
    - destruct (R L) as (_ & fr' & P & E'). exists fr'. split; [exact P|]. rewrite E' in G. exact (proj2 (proj2 G)).
    - destruct (R L) as (fr' & P & E'). exists fr'. split; [exact P|]. rewrite E' in G. exact (proj2 (proj2 G)). }
  destruct K as (fr' & (P1 & P2 & _) & K). destruct (top_of fr' r P2) as [T1 T2]. split; [rewrite P1; exact T2|].
  intros x T N. destruct (K x T) as (K1 & K2 & K3).
  - intros H. cbn [set_stack st_heap] in H. unfold r' in H. apply own_blank in H; [|unfold id; lia]. destruct H as [->|H].
    + cbn in T. unfold id in T. lia.
    + apply N. exact H.
  - split; [exact K1|]. split; [exact K2|]. intros H. apply K3. unfold own in H. rewrite P1, T1 in H. apply own_roots. exact H.
Qed.

Theorem statement_leads (s t : state W) : k <= length (st_stack s) -> k <= length (st_stack t) ->
  x_stack_size X = None \/ length (st_stack s) = length (st_stack t) -> firstn k (st_stack t) = firstn k (st_stack s) ->
  sound_state s -> sound_state t -> alike (own k s) s t -> clean_end (does s) -> leads k s t (does s) (does t).
Proof.
  intros Lk Lk' F Ef S T A C. set (id := length (h_cells (st_heap s))).
  set (fr := firstn k (st_stack s)). set (r := skipn k (st_stack s)). set (q := skipn k (st_stack t)). set (b := blank id (length r)).
  assert (Es : st_stack s = fr ++ r) by (symmetry; apply firstn_skipn).
  assert (Et : st_stack t = fr ++ q) by (unfold fr; rewrite <- Ef; symmetry; apply firstn_skipn).
  assert (Lf : length fr = k) by (unfold fr; rewrite firstn_length; lia).
  assert (Fs : fits X r b) by (right; symmetry; apply repeat_length).
  assert (Ft : fits X b q).
  { destruct F as [F|F]; [left; exact F|right]. unfold b, blank. rewrite repeat_length. rewrite Es, Et, !app_length in F. lia. }
  pose proof (statement_local r b fr s Fs Es Lf S) as R.
  assert (B : but_garbage [] (set_stack s (fr ++ b)) (set_stack t (fr ++ b))).
  { destruct A as [A1 A2 A3 A4 A5 A6 A7]. split; try assumption; [reflexivity|].
    intros x H. cbn [set_stack st_heap] in *. unfold b in H. apply own_blank in H; [|unfold id; lia]. destruct H as [->|H].
    - cbn. rewrite !cell_out; [reflexivity|unfold id; lia|]. destruct A6 as [-> _]. unfold id; lia.
    - apply A7. exact H. }
  pose proof (statement_regardless X O DX n u st _ _ B) as G.
  assert (T' : sound_state (set_stack t (fr ++ b))).
  { split; [|exact (proj2 T)]. cbn. apply Forall_app. split.
    - destruct S as [S1 _]. rewrite Es in S1. apply Forall_app in S1. apply S1.
    - unfold b, blank. apply Forall_forall. intros x H. apply repeat_spec in H. subst x. split; exact Logic.I. }
  pose proof (statement_local b q fr (set_stack t (fr ++ b)) Ft eq_refl Lf T') as R'.
  assert (E : set_stack (set_stack t (fr ++ b)) (fr ++ q) = t) by (rewrite <- Et; destruct t; reflexivity). rewrite E in R'.
  assert (K : forall more s' t' fr1 fr2, pre k r fr1 s' -> pre k b fr2 t' -> but_garbage more (set_stack s' (fr1 ++ b)) t' ->
    local_end k more s t s' (set_stack t' (fr2 ++ q))).
  { intros more s' t' fr1 fr2 (P1 & P2 & _) (Q1 & Q2 & _) [B1 B2 B3 B4 B5 B6 B7 B8].
    assert (fr2 = fr1) as ->.
    { rewrite Q1 in B1. cbn in B1. destruct (top_of fr1 b P2) as [U1 _]. destruct (top_of fr2 b Q2) as [U2 _]. congruence. }
    destruct (top_of fr1 r P2) as [U1 U2]. destruct (top_of fr1 q P2) as [U3 U4]. split; [|rewrite P1; cbn; rewrite U1, U2, U3, U4; auto].
    split; try assumption. intros x H. cbn. apply B8. unfold own in H. rewrite P1, U1 in H. apply own_roots. exact H. }
  destruct (does s) as [v s'|q0 s'|z s'|c|]; cbn [clean_end] in C; try contradiction.
  - destruct (R C) as (_ & fr1 & P & E'). rewrite E' in G.
    destruct (does (set_stack t (fr ++ b))) as [w t'|q0 t'|z t'|c|]; cbn [regardless] in G; try contradiction.
    destruct G as (<- & G & _). assert (Lt : st_leaked t' = false) by (rewrite (bg_leaked _ _ _ G); exact C).
    destruct (R' Lt) as (_ & fr2 & P' & ->). split; [reflexivity|]. eapply K; eassumption.
  - destruct (R C) as (fr1 & P & E'). rewrite E' in G.
    destruct (does (set_stack t (fr ++ b))) as [w t'|q1 t'|z t'|c|]; cbn [regardless] in G; try contradiction.
    destruct G as (<- & G & _). assert (Lt : st_leaked t' = false) by (rewrite (bg_leaked _ _ _ G); exact C).
    destruct (R' Lt) as (fr2 & P' & ->). split; [reflexivity|]. eapply K; eassumption.
  - destruct (R C) as (l & E'). rewrite E' in G.
    destruct (does (set_stack t (fr ++ b))) as [w t'|q1 t'|z' t'|c|]; cbn [regardless] in G; try contradiction.
    destruct G as (<- & G & Gl). assert (Lt : st_leaked t' = false) by (rewrite Gl; exact C).
    destruct (R' Lt) as (l' & ->). cbn. auto.
Qed.
End Local.
