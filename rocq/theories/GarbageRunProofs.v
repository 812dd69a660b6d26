(** Programs neither see nor change nor find again what is not reached. *)
From Coq Require Import Strings.String Lia.
From Verif Require Import Base Lexer Ast Parser Program Sema Value Text StdLib Exec Runtime SpecRuntime SpecRun
  SoundLibProofs SoundRunProofs SpecGarbage GarbageLibProofs.

Section Sim.
Context {W : Type}.
Variable X : ext W.
Variable O : os W.
Variable tail : bool.
Hypothesis DX : detached X.
Notation M := (@M W).

Definition held_slot (sc : live) (x : vslot) : Prop := Forall sc (slot_pointers x).
Record rel (sc : live) (s t : state W) : Prop := mkrel {
  r_stack : st_stack t = st_stack s;
  r_args : st_args t = st_args s;
  r_modules : st_modules t = st_modules s;
  r_units : st_units t = st_units s;
  r_leaked : st_leaked t = st_leaked s;
  r_world : st_world t = st_world s;
  r_slots : Forall (held_slot sc) (st_stack s);
  r_hargs : Forall (held sc) (st_args s);
  r_hmodules : Forall (fun m => held sc (snd m)) (st_modules s);
  r_std : sc (ODict 0);
  r_script : sc (OArr 0);
  r_heap : agree sc (st_heap s) (st_heap t) }.

Definition sim_out {A} (sc : live) (h0 : heap) (R : live -> A -> Prop) (o1 o2 : outcome (state W) A) : Prop :=
  match o1 with
  | Val a s' => exists sc' t', grow sc h0 sc' (st_heap s') /\ rel sc' s' t' /\ R sc' a /\ o2 = Val a t'
  | Pan p s' => exists sc' t', grow sc h0 sc' (st_heap s') /\ rel sc' s' t' /\ held_panic sc' p /\ o2 = Pan p t'
  | Exit z s' => exists t', (st_world t' = st_world s' /\ st_leaked t' = st_leaked s') /\ o2 = Exit z t'
  | Crash c => o2 = Crash c
  | Fuel => o2 = Fuel
  end.
Definition sim {A} (sc : live) (m : M A) (R : live -> A -> Prop) : Prop :=
  forall s t, rel sc s t -> sim_out sc (st_heap s) R (m s) (m t).

Lemma sim_out_up {A} sc h sc' h' (R : live -> A -> Prop) o1 o2 : grow sc h sc' h' -> sim_out sc' h' R o1 o2 -> sim_out sc h R o1 o2.
Proof.
  intros H. destruct o1; cbn; auto.
  - intros (sc2 & t & A1 & A2). exists sc2, t. split; [exact (grow_trans _ _ _ _ _ _ H A1)|exact A2].
  - intros (sc2 & t & A1 & A2). exists sc2, t. split; [exact (grow_trans _ _ _ _ _ _ H A1)|exact A2].
Qed.
Lemma sim_ret {A} sc (a : A) (R : live -> A -> Prop) : R sc a -> sim sc (ret a) R.
Proof. intros H s t I. exists sc, t. split; [apply grow_refl|]. split; [exact I|]. split; [exact H|reflexivity]. Qed.
Lemma sim_throw {A} sc p (R : live -> A -> Prop) : held_panic sc p -> sim sc (throw p) R.
Proof. intros H s t I. exists sc, t. split; [apply grow_refl|]. split; [exact I|]. split; [exact H|reflexivity]. Qed.
Lemma sim_sum {A} sc (r : A + panic) (R : live -> A -> Prop) : match r with inl a => R sc a | inr p => held_panic sc p end -> sim sc (of_sum r) R.
Proof. destruct r as [a|p]; [apply sim_ret|apply sim_throw]. Qed.
Lemma sim_bind {A B} sc (m : M A) (f : A -> M B) R R' :
  sim sc m R -> (forall sc' a, sub sc sc' -> R sc' a -> sim sc' (f a) R') -> sim sc (bind m f) R'.
Proof.
  intros H K s t I. specialize (H s t I). unfold bind. destruct (m s) as [a s'|p s'|z s'|c|]; cbn in H.
  - destruct H as (sc' & t' & A1 & A2 & A3 & ->). apply (sim_out_up _ _ sc' (st_heap s')); [exact A1|]. apply K; [apply A1|assumption|assumption].
  - destruct H as (sc' & t' & A1 & A2 & A3 & ->). exists sc', t'. auto.
  - destruct H as (t' & A1 & ->). exists t'. auto.
  - rewrite H. reflexivity.
  - rewrite H. reflexivity.
Qed.
Lemma sim_get {A} sc (f : state W -> M A) R :
  (forall s t, rel sc s t -> sim_out sc (st_heap s) R (f s s) (f t t)) -> sim sc (bind get f) R.
Proof. intros H s t I. apply (H s t I). Qed.
Lemma sim_walked {A B} sc s t (a b : walk A) (k : A -> M B) R : rel sc s t -> b = a -> (forall x, a = Known x -> sim sc (k x) R) ->
  sim_out sc (st_heap s) R (bind (of_walk a) k s) (bind (of_walk b) k t).
Proof. intros I -> H. destruct a as [x| |]; [exact (H x eq_refl s t I)|reflexivity|reflexivity]. Qed.

(** ** Memory *)
Lemma slot_up sc sc' x : sub sc sc' -> held_slot sc x -> held_slot sc' x.
Proof. intros U. apply Forall_impl, U. Qed.
Lemma rel_moved sc sc' s t h1 h1' : rel sc s t -> moved sc (st_heap s) (st_heap t) sc' h1 h1' -> rel sc' (set_heap s h1) (set_heap t h1').
Proof.
  intros [] M. pose proof (moved_sub M) as U. split; cbn; try assumption; try (apply U; assumption).
  - eapply Forall_impl; [|eassumption]. intros x. apply slot_up, U.
  - apply (values_up U). assumption.
  - eapply Forall_impl; [|eassumption]. intros x. apply (held_up U).
  - exact (moved_agree M).
Qed.
Lemma rel_world sc s t w : rel sc s t -> rel sc (set_world s w) (set_world t w).
Proof. intros []. split; cbn; auto. Qed.
Lemma rel_args sc s t l : rel sc s t -> Forall (held sc) l -> rel sc (set_args s l) (set_args t l).
Proof. intros [] H. split; cbn; auto. Qed.
Lemma rel_stack sc s t l : rel sc s t -> Forall (held_slot sc) l -> rel sc (set_stack s l) (set_stack t l).
Proof. intros [] H. split; cbn; auto. Qed.
Lemma slot_held sc s t x : rel sc s t -> In x (st_stack s) -> held sc (slot_value (st_heap s) x) /\ slot_value (st_heap t) x = slot_value (st_heap s) x.
Proof.
  intros I H. pose proof (r_slots _ _ _ I) as F. rewrite Forall_forall in F. specialize (F x H). destruct x as [id v|c]; cbn in *.
  - split; [inversion F; assumption|reflexivity].
  - inversion F; subst. split; [apply (cell_held sc _ _ (r_heap _ _ _ I)); assumption|apply (cell_same sc _ _ (r_heap _ _ _ I)); assumption].
Qed.
Lemma sim_fetch sc ix : sim sc (fetch ix) held.
Proof.
  intros s t I. unfold fetch. rewrite (r_stack _ _ _ I). destruct (nth_error (st_stack s) ix) as [x|] eqn:E; [|reflexivity].
  apply nth_error_In in E. destruct (slot_held _ _ _ _ I E) as [V L]. exists sc, t. split; [apply grow_refl|]. split; [exact I|].
  split; [exact V|]. rewrite L. reflexivity.
Qed.
Lemma sim_store sc ix v : held sc v -> sim sc (store ix v) (fun _ _ => True).
Proof.
  intros Hv s t I. unfold store. rewrite (r_stack _ _ _ I). destruct (nth_error (st_stack s) ix) as [x|] eqn:E; [|reflexivity].
  apply nth_error_In in E. pose proof (r_slots _ _ _ I) as F. rewrite Forall_forall in F. specialize (F x E).
  destruct x as [id u|c]; inversion F; subst.
  - eexists sc, _. split; [apply grow_refl|]. split; [|split; [exact Logic.I|reflexivity]]. apply rel_stack; [exact I|].
    apply Forall_list_set; [apply I|]. constructor; assumption.
  - pose proof (cell_set_moved sc _ _ c v (r_heap _ _ _ I) ltac:(assumption) Hv) as M. eexists sc, _. split; [apply M|].
    split; [exact (rel_moved _ _ _ _ _ _ I M)|]. split; [exact Logic.I|reflexivity].
Qed.
Lemma sim_capture sc ix : sim sc (capture ix) (fun sc c => sc (OCell c)).
Proof.
  intros s t I. unfold capture. rewrite (r_stack _ _ _ I). destruct (nth_error (st_stack s) ix) as [x|] eqn:E; [|reflexivity].
  apply nth_error_In in E. pose proof (r_slots _ _ _ I) as F. rewrite Forall_forall in F. specialize (F x E).
  destruct x as [id u|c]; inversion F; subst.
  - pose proof (cell_set_moved sc _ _ id u (r_heap _ _ _ I) ltac:(assumption) ltac:(assumption)) as M. eexists sc, _. split; [apply M|].
    split; [|split; [assumption|reflexivity]].
    apply (rel_moved sc sc (set_stack s _) (set_stack t _)); [|exact M]. apply rel_stack; [exact I|].
    apply Forall_list_set; [apply I|]. constructor; [assumption|constructor].
  - exists sc, t. split; [apply grow_refl|]. split; [exact I|]. split; [assumption|reflexivity].
Qed.
Lemma sim_place (sc : live) ix c : sc (OCell c) -> sim sc (place ix c) (fun _ _ => True).
Proof.
  intros Hc s t I. unfold place. rewrite (r_stack _ _ _ I). destruct (nth_error (st_stack s) ix) as [x|] eqn:E; [|reflexivity].
  eexists sc, _. split; [apply grow_refl|]. split; [|split; [exact Logic.I|reflexivity]]. apply rel_stack; [exact I|].
  apply Forall_list_set; [apply I|]. constructor; [assumption|constructor].
Qed.

Lemma nil_nth l k j : nth j (l ++ repeat VNil k) VNil = nth j l VNil.
Proof.
  destruct (Nat.lt_ge_cases j (length l)) as [L|L]; [apply app_nth1, L|]. rewrite app_nth2, (nth_overflow l) by lia.
  destruct (nth_in_or_default (j - length l) (repeat VNil k) VNil) as [H|H]; [apply repeat_spec in H|]; exact H.
Qed.
Definition with_cells (sc : live) (from k : nat) : live := fun x => sc x \/ match x with OCell l => from <= l < from + k | _ => False end.
Lemma cells_moved sc h h' k : agree sc h h' ->
  moved sc h h' (with_cells sc (length (h_cells h)) k) (mkheap (h_cells h ++ repeat VNil k) (h_arrs h) (h_dicts h) (h_iters h))
    (mkheap (h_cells h' ++ repeat VNil k) (h_arrs h') (h_dicts h') (h_iters h')).
Proof.
  intros A. pose proof (ag_same _ _ _ A) as B. destruct (ag_size _ _ _ A) as (S1 & S2 & S3 & S4).
  assert (U : sub sc (with_cells sc (length (h_cells h)) k)) by (left; assumption). split; split.
  - exact U.
  - intros x [H|H]; [left; exact H|right]. destruct x; cbn; [lia|contradiction|contradiction|contradiction].
  - intros []; cbn [there h_cells h_arrs h_dicts h_iters]; rewrite ?app_length; lia.
  - intros [l|l|l|l] _ _; try reflexivity. cbn. unfold cell_get. cbn. apply nil_nth.
  - unfold same_size. cbn. rewrite !app_length. auto.
  - intros x [Hx|Hx].
    + specialize (B x Hx). destruct x as [l|l|l|l]; try exact B. cbn. unfold cell_get. cbn. rewrite !nil_nth. exact B.
    + destruct x as [l|l|l|l]; try contradiction. cbn. unfold cell_get. cbn. rewrite !nil_nth, !nth_overflow by lia. reflexivity.
  - intros x [Hx|Hx].
    + pose proof (values_up U _ (ag_held _ _ _ A x Hx)) as D. destruct x as [l|l|l|l]; try exact D. cbn in *. unfold cell_get in *. cbn. rewrite !nil_nth. exact D.
    + destruct x as [l|l|l|l]; try contradiction. cbn. unfold cell_get. cbn. rewrite !nil_nth, !nth_overflow by lia. repeat constructor.
Qed.
Lemma sim_extend sc k p : sim sc (Runtime.extend X false k p) (fun _ _ => True).
Proof.
  intros s t I. unfold Runtime.extend. rewrite (r_stack _ _ _ I).
  destruct (overflows X (length (st_stack s) + k)).
  - exists sc, t. split; [apply grow_refl|]. split; [exact I|]. split; [constructor|reflexivity].
  - pose proof (cells_moved sc _ _ k (r_heap _ _ _ I)) as M. eexists _, _. split; [apply M|]. split; [|split; [exact Logic.I|reflexivity]].
    pose proof (rel_moved _ _ _ _ _ _ I M) as K. destruct (ag_size _ _ _ (r_heap _ _ _ I)) as (S1 & _). rewrite S1.
    set (l := map (new_slot false) (seq (length (h_cells (st_heap s))) k) ++ st_stack s).
    assert (L : Forall (held_slot (with_cells sc (length (h_cells (st_heap s))) k)) l).
    { apply Forall_app. split; [|apply K]. apply Forall_forall. intros x Hx. apply in_map_iff in Hx as (i & <- & Hi). apply in_seq in Hi.
      constructor; [right; exact Hi|constructor]. }
    exact (rel_stack _ _ _ l K L).
Qed.
Lemma Forall_skip {A} (P : A -> Prop) k l : Forall P l -> Forall P (skipn k l).
Proof. revert l. induction k; intros l H; [exact H|]. destruct H; [constructor|]. apply IHk. assumption. Qed.
Lemma Forall_first {A} (P : A -> Prop) k l : Forall P l -> Forall P (firstn k l).
Proof. revert l. induction k; intros l H; [constructor|]. destruct H; [constructor|]. constructor; [assumption|]. apply IHk. assumption. Qed.
Lemma rel_shrink sc s t k : rel sc s t -> rel sc (shrink k s) (shrink k t).
Proof. intros I. unfold shrink. rewrite (r_stack _ _ _ I). apply rel_stack; [exact I|]. apply Forall_skip, I. Qed.
Lemma rel_first sc s t k : rel sc s t -> rel sc (set_args s (firstn k (st_args s))) (set_args t (firstn k (st_args t))).
Proof. intros I. rewrite (r_args _ _ _ I). apply rel_args; [exact I|]. apply Forall_first, I. Qed.

(** ** Operations on heap and world *)
Lemma sim_lift sc (f1 f2 : heap -> W -> outcome (heap * W) value) s t : rel sc s t ->
  lib_out sc (st_heap s) (st_heap t) (f1 (st_heap s) (st_world s)) (f2 (st_heap t) (st_world s)) ->
  sim_out sc (st_heap s) held (lift f1 s) (lift f2 t).
Proof.
  intros I L. unfold lift. rewrite (r_world _ _ _ I).
  destruct (f1 (st_heap s) (st_world s)) as [v x|p x|z x|c|], (f2 (st_heap t) (st_world s)) as [v' x'|p' x'|z' x'|c'|]; cbn in L; try contradiction; cbn.
  - destruct L as (-> & -> & sc' & M & V). eexists sc', _. split; [apply M|]. split; [|split; [exact V|reflexivity]].
    apply rel_world, (rel_moved _ _ _ _ _ _ I M).
  - destruct L as (-> & -> & sc' & M & V). eexists sc', _. split; [apply M|]. split; [|split; [exact V|reflexivity]].
    apply rel_world, (rel_moved _ _ _ _ _ _ I M).
  - destruct L as (-> & L). eexists. split; [|reflexivity]. split; [exact L|exact (r_leaked _ _ _ I)].
  - congruence.
  - reflexivity.
Qed.

(** ** The evaluator *)
Definition flow_h (sc : live) (f : flow) : Prop := Forall sc (flow_pointers f).
Definition result_h (sc : live) (r : flow * spos * value) : Prop := flow_h sc (fst (fst r)) /\ held sc (snd r).

Record sims (E : evals) : Prop := mksims {
  s_expr : forall sc u e, sim sc (ev_expr E u e) result_h;
  s_statement : forall sc u st, sim sc (ev_statement E u st) flow_h;
  s_call : forall sc obj f start p, held sc obj -> held_func sc f -> sim sc (ev_call E obj f start p) held;
  s_for : forall sc u ix g p b, held_func sc g -> sim sc (ev_for E u ix g p b) flow_h }.

Section Step.
Variable E : @evals W.
Variable n : nat.
Hypothesis HE : sims E.

Lemma sim_block sc u b : sim sc (eval_block E u b) flow_h.
Proof.
  revert sc. induction b as [|st b IH]; intros sc; [apply sim_ret; constructor|]. destruct b as [|st' b].
  - cbn [eval_block]. exact (s_statement _ HE sc u st).
  - cbn [eval_block]. eapply sim_bind; [exact (s_statement _ HE sc u st)|].
    intros sc' [v|v|] _ Hf; [apply IH|apply sim_ret, Hf|apply sim_ret, Hf].
Qed.
Lemma sim_list sc u es : sim sc (eval_list E u es)
  (fun sc r => match r with inl f => flow_h sc f | inr l => Forall (held sc) l end).
Proof.
  revert sc. induction es as [|e es IH]; intros sc; cbn [eval_list]; [apply sim_ret; constructor|].
  eapply sim_bind; [exact (s_expr _ HE sc u e)|]. intros sc1 [[f p] o] _ [Hf _]. cbn [fst snd] in Hf.
  destruct f as [v|v|]; [|apply sim_ret, Hf|apply sim_ret, Hf].
  eapply sim_bind; [apply IH|]. intros sc2 [f|l] U Hl; apply sim_ret; [exact Hl|]. constructor; [exact (held_up U _ Hf)|exact Hl].
Qed.
Lemma symbol_put_held sc k v d : Forall (held_entry sc) d -> held sc v -> Forall (held_entry sc) (symbol_put k v d).
Proof.
  intros Hd Hv. unfold symbol_put. match goal with |- context [put_entry ?e _ _ _] => destruct (put_entry e (VStr k) v d) as [d'| |] eqn:P end; try exact Hd.
  eapply put_held; [exact Hd| |exact Hv|exact P]. constructor.
Qed.
Lemma sim_dict u kvs : forall sc d, Forall (held_entry sc) d ->
  sim sc (eval_dict E u kvs d) (fun sc r => match r with inl f => flow_h sc f | inr l => Forall (held_entry sc) l end).
Proof.
  induction kvs as [|[x e] kvs IH]; intros sc d Hd; cbn [eval_dict]; [apply sim_ret, Hd|].
  eapply sim_bind; [exact (s_expr _ HE sc u e)|]. intros sc1 [[f p] o] U [Hf _]. cbn [fst snd] in Hf.
  destruct f as [v|v|]; [|apply sim_ret, Hf|apply sim_ret, Hf].
  apply IH. apply symbol_put_held; [exact (entries_up U _ Hd)|exact Hf].
Qed.

Lemma sim_access sc obj op f fp : held sc obj -> held sc f -> sim sc (access n obj op f fp) held.
Proof.
  intros Ho Hfs. unfold access. apply sim_get. intros s t I.
  assert (HB : forall sc1 (r : option value), sub sc sc1 -> (forall v, r = Some v -> held sc1 v) ->
    sim sc1 (match r with Some v => ret v | None => throw (PIndexOutOfBounds f fp) end) held).
  { intros sc1 [v|] U H; [apply sim_ret, H; reflexivity|apply sim_throw]. exact (held_up U _ Hfs). }
  assert (G : forall m : M value, sim sc m held -> sim_out sc (st_heap s) held (m s) (m t)) by (intros m Hm; apply Hm; assumption).
  destruct obj as [| |b|z|x|tx|l|l|g|d c]; try (apply (G (throw _)), sim_throw; first [exact Ho|exact Hfs]).
  - destruct f; try (apply (G (throw _)), sim_throw; exact Hfs). apply (G (match option_map VByte (nth_z tx z) with Some v => ret v | None => throw _ end)).
    apply HB; [apply sub_refl|]. intros v. destruct (nth_z tx z); cbn; [|discriminate]. intros [= <-]. constructor.
  - apply held_arr in Ho. destruct f; try (apply (G (throw _)), sim_throw; exact Hfs). rewrite (arr_same sc _ _ (r_heap _ _ _ I) l Ho).
    apply (G (match nth_z (arr_get (st_heap s) l) z with Some v => ret v | None => throw _ end)).
    apply HB; [apply sub_refl|]. intros v Hv. eapply nth_z_held; [|exact Hv]. apply (arr_held sc _ _ (r_heap _ _ _ I) l Ho).
  - apply held_dict in Ho. apply sim_walked; [exact I|apply (dict_get_same sc _ _ (r_heap _ _ _ I)); assumption|].
    intros r Hr. apply HB; [apply sub_refl|]. intros v ->. exact (dict_get_held sc _ _ (r_heap _ _ _ I) n l f v Ho Hr).
  - apply (G (match error_get d c f with Some v => ret v | None => throw (PIndexOutOfBounds f fp) end)).
    apply HB; [apply sub_refl|]. intros v. unfold error_get. destruct f; try discriminate. destruct (bytes_eqb s0 _); [intros [= <-]; constructor|].
    destruct (bytes_eqb s0 _); [intros [= <-]; exact Ho|discriminate].
Qed.

Lemma sim_push u args start : forall sc, sim sc (push_args E u start args) (fun sc r => match r with Some f => flow_h sc f | None => True end).
Proof.
  induction args as [|e args IH]; intros sc; cbn [push_args]; [apply sim_ret; exact I|].
  eapply sim_bind; [exact (s_expr _ HE sc u e)|]. intros sc1 [[f p] o] _ [Hf _]. cbn [fst snd] in Hf.
  apply sim_get. intros s t Is.
  destruct f as [v|v|]; unfold bind, put.
  - rewrite (r_args _ _ _ Is). refine (IH sc1 (set_args s (st_args s ++ [v])) _ _). apply rel_args; [exact Is|].
    apply Forall_app. split; [apply Is|repeat constructor; exact Hf].
  - refine (sim_ret sc1 _ _ _ (set_args s (firstn start (st_args s))) _ _); [exact Hf|]. apply rel_first, Is.
  - refine (sim_ret sc1 _ _ _ (set_args s (firstn start (st_args s))) _ _); [exact Hf|]. apply rel_first, Is.
Qed.
Definition prepared (sc : live) (r : flow + value * func * nat) : Prop :=
  match r with inl f => flow_h sc f | inr (obj, g, _) => held sc obj /\ held_func sc g end.
Lemma sim_prepare sc u f args : sim sc (prepare_call E u f args) prepared.
Proof.
  unfold prepare_call. eapply sim_bind; [exact (s_expr _ HE sc u f)|].
  intros sc1 [[fl p] o] _ [Hf Ho]. cbn [fst snd] in Hf, Ho. destruct fl as [v|v|]; [|apply sim_ret, Hf|apply sim_ret, Hf].
  destruct v as [| | | | | | | |g|]; try (apply sim_throw; exact Hf). apply sim_get. intros s t Is. rewrite (r_args _ _ _ Is).
  refine (sim_bind sc1 _ _ _ _ (sim_push u args (length (st_args s)) sc1) _ s t Is).
  intros sc2 [fl|] U H; apply sim_ret; [exact H|]. split; [exact (held_up U _ Ho)|exact (func_up U _ Hf)].
Qed.

Lemma sim_equal sc a b (f : bool -> bool) : held sc a -> held sc b ->
  sim sc (bind get (fun s => bind (of_walk (eqv (st_heap s) n false a b)) (fun e => ret (VBool (f e))))) held.
Proof.
  intros Ha Hb. apply sim_get. intros s t Is.
  apply sim_walked; [exact Is|apply (eqv_same sc _ _ (r_heap _ _ _ Is)); assumption|]. intros e _. apply sim_ret. constructor.
Qed.
Lemma checked_held sc p z : panic_pointers p = [] -> match checked p z with inl v => held sc v | inr q => held_panic sc q end.
Proof. intros H. unfold checked. destruct (in_i64 z); [constructor|]. unfold held_panic. rewrite H. constructor. Qed.
Lemma arithmetic_held sc op p a lp b rp : held sc a -> held sc b ->
  match arithmetic_op op p a lp b rp with inl v => held sc v | inr q => held_panic sc q end.
Proof.
  intros Ha Hb. destruct a; cbn [arithmetic_op]; try exact Ha; destruct b; try exact Hb; try constructor.
  unfold int_op. destruct op; try (apply checked_held; reflexivity); destruct (_ =? 0)%Z; try constructor; try (apply checked_held; reflexivity); destruct (in_i64 _); constructor.
Qed.
Lemma ord_held sc op a lp b rp : held sc a -> held sc b -> match ord_op op a lp b rp with inl v => held sc v | inr q => held_panic sc q end.
Proof. intros Ha Hb. destruct a; cbn [ord_op]; try exact Ha; destruct b; try exact Hb; constructor. Qed.
Lemma concat_held sc a lp b rp : held sc a -> held sc b -> match concat_op a lp b rp with inl v => held sc v | inr q => held_panic sc q end.
Proof. intros Ha Hb. destruct a; cbn [concat_op]; try exact Ha; destruct b; try exact Hb; constructor. Qed.
Lemma sim_binary sc u l op r p : sim sc (eval_binary E n u l op r p) flow_h.
Proof.
  unfold eval_binary. eapply sim_bind; [exact (s_expr _ HE sc u l)|]. intros sc1 [[fl pl] o] _ [Hf _]. cbn [fst snd] in Hf.
  destruct fl as [a|v|]; [|apply sim_ret, Hf|apply sim_ret, Hf].
  assert (R : forall kk : value -> spos -> M value, (forall sc2 b q, sub sc1 sc2 -> held sc2 b -> sim sc2 (kk b q) held) ->
    sim sc1 (bind (ev_expr E u r) (fun '(fr, rp, _) => match fr with
       | Reg b => bind (kk b rp) (fun v => ret (Reg v)) | f => ret f end)) flow_h).
  { intros kk Hkk. eapply sim_bind; [exact (s_expr _ HE sc1 u r)|]. intros sc2 [[fr pr] o'] U [Hr _]. cbn [fst snd] in Hr.
    destruct fr as [b|v|]; [|apply sim_ret, Hr|apply sim_ret, Hr]. eapply sim_bind; [exact (Hkk sc2 b pr U Hr)|]. intros sc3 v _ Hv. apply sim_ret, Hv. }
  pose proof (R (fun b rp => match b with VBool _ => ret b | _ => throw (PTypeError b (bs "bool") rp) end)) as R2.
  specialize (R2 ltac:(intros sc2 b q U Hb; destruct b; try (apply sim_throw; exact Hb); apply sim_ret, Hb)).
  pose proof (R (fun b rp => of_sum (arithmetic_op op p a pl b rp))
    ltac:(intros sc2 b q U Hb; apply sim_sum, arithmetic_held; [exact (held_up U _ Hf)|exact Hb])) as RA.
  pose proof (R (fun b rp => of_sum (ord_op op a pl b rp))
    ltac:(intros sc2 b q U Hb; apply sim_sum, ord_held; [exact (held_up U _ Hf)|exact Hb])) as RO.
  destruct op; try exact RA; try exact RO.
  - apply (R (fun b _ => bind get (fun s => bind (of_walk (eqv (st_heap s) n false a b)) (fun e => ret (VBool e))))).
    intros sc2 b q U Hb. apply (sim_equal sc2 a b (fun e => e)); [exact (held_up U _ Hf)|exact Hb].
  - apply (R (fun b _ => bind get (fun s => bind (of_walk (eqv (st_heap s) n false a b)) (fun e => ret (VBool (negb e)))))).
    intros sc2 b q U Hb. apply (sim_equal sc2 a b negb); [exact (held_up U _ Hf)|exact Hb].
  - destruct a as [|[|]| | | | | | | |]; try (apply sim_throw; exact Hf); [exact R2|apply sim_ret; constructor].
  - destruct a as [|[|]| | | | | | | |]; try (apply sim_throw; exact Hf); [apply sim_ret; constructor|exact R2].
  - apply (R (fun b rp => of_sum (concat_op a pl b rp))). intros sc2 b q U Hb. apply sim_sum, concat_held; [exact (held_up U _ Hf)|exact Hb].
Qed.

Lemma sim_capture_all sc l : sim sc (capture_all l) (fun sc ctx => Forall (fun x => sc (OCell (fst x))) ctx).
Proof.
  revert sc. induction l as [|c l IH]; intros sc; cbn [capture_all]; [apply sim_ret; constructor|].
  eapply sim_bind; [apply sim_capture|]. intros sc1 x U Hx. eapply sim_bind; [apply IH|]. intros sc2 r U' A. apply sim_ret.
  constructor; [apply U', Hx|exact A].
Qed.
Lemma sim_alloc sc (f : heap -> value * heap) : (forall sc' h h', sub sc sc' -> agree sc' h h' -> made sc' h h' (f h) (f h')) -> sim sc (alloc f) held.
Proof.
  intros H s t Is. unfold alloc. destruct (H sc _ _ (sub_refl sc) (r_heap _ _ _ Is)) as (A & sc' & M & V).
  destruct (f (st_heap s)) as [v h], (f (st_heap t)) as [v' h']. cbn in *. subst v'. eexists sc', _. split; [apply M|].
  split; [exact (rel_moved _ _ _ _ _ _ Is M)|]. split; [exact V|reflexivity].
Qed.
Lemma sim_plain sc u p (m : M flow) : sim sc m flow_h -> sim sc (bind m (fun f => ret (f, at_ u p, VNil))) result_h.
Proof. intros H. eapply sim_bind; [exact H|]. intros sc' f _ Hf. apply sim_ret. split; [exact Hf|constructor]. Qed.

Lemma sim_eval_expr sc u e : sim sc (eval_expr X O E n u e) result_h.
Proof.
  destruct e as [ix p|l p|s p|es p|kvs p|params fi b p|op e p|l op r p|c t e p|o f p|f args p|b p];
  cbn [eval_expr]; try apply sim_plain.
  - eapply sim_bind; [apply sim_fetch|]. intros sc1 v _ Hv. apply sim_ret, Hv.
  - apply sim_ret. destruct l; constructor.
  - apply sim_ret. constructor.
  - eapply sim_bind; [exact (sim_list sc u es)|]. intros sc1 [f|l] _ Hr; [apply sim_ret, Hr|].
    eapply sim_bind; [apply sim_alloc|intros sc2 v _ Hv; apply sim_ret, Hv].
    intros sc2 h h' U A. apply made_arr; [exact A|exact (values_up U _ Hr)].
  - eapply sim_bind; [apply (sim_dict u kvs sc []); constructor|]. intros sc1 [f|l] _ Hr; [apply sim_ret, Hr|].
    eapply sim_bind; [apply sim_alloc|intros sc2 v _ Hv; apply sim_ret, Hv].
    intros sc2 h h' U A. apply made_dict; [exact A|exact (entries_up U _ Hr)].
  - eapply sim_bind; [apply sim_capture_all|]. intros sc1 ctx _ Hc. apply sim_ret. apply Forall_map. exact Hc.
  - eapply sim_bind; [exact (s_expr _ HE sc u e)|]. intros sc1 [[f q] o] _ [Hf _]. cbn [fst snd] in Hf.
    destruct f as [v|v|]; [|apply sim_ret, Hf|apply sim_ret, Hf]. apply sim_sum.
    unfold unary_op_value. destruct op; destruct v; first [exact Hf|constructor].
  - exact (sim_binary sc u l op r (at_ u p)).
  - eapply sim_bind; [exact (s_expr _ HE sc u c)|]. intros sc1 [[f q] o] _ [Hf _]. cbn [fst snd] in Hf.
    destruct f as [v|v|]; [|apply sim_ret, Hf|apply sim_ret, Hf]. destruct v as [|b| | | | | | | |]; try (apply sim_throw; exact Hf).
    apply (sim_block sc1 u).
  - eapply sim_bind; [exact (s_expr _ HE sc u o)|]. intros sc1 [[fo q] o'] _ [Hf _]. cbn [fst snd] in Hf.
    destruct fo as [v|v|]; [|apply sim_ret; split; [exact Hf|constructor]|apply sim_ret; split; [exact Hf|constructor]].
    eapply sim_bind; [exact (s_expr _ HE sc1 u f)|]. intros sc2 [[ff q'] o''] Hsub [Hff _]. cbn [fst snd] in Hff.
    destruct ff as [w|w|]; [|apply sim_ret; split; [exact Hff|constructor]|apply sim_ret; split; [exact Hff|constructor]].
    eapply sim_bind; [apply (sim_access sc2); [exact (held_up Hsub _ Hf)|exact Hff]|]. intros sc3 x Hsub' Hx. apply sim_ret. split; [exact Hx|].
    exact (held_up (sub_trans _ _ _ Hsub Hsub') _ Hf).
  - eapply sim_bind; [exact (sim_prepare sc u f args)|].
    intros sc1 [fl|[[obj g] start]] _ H; [apply sim_ret, H|]. destruct H as [H1 H2].
    eapply sim_bind; [exact (s_call _ HE sc1 obj g start (at_ u p) H1 H2)|]. intros sc2 v _ Hv. apply sim_ret, Hv.
  - intros s t Is.
    pose proof (sim_lift sc
      (eval_command_block X O (fun ix => option_map (slot_value (st_heap s)) (nth_error (st_stack s) ix)) (u_path u) b (at_ u p))
      (eval_command_block X O (fun ix => option_map (slot_value (st_heap t)) (nth_error (st_stack t) ix)) (u_path u) b (at_ u p))
      s t Is) as L.
    specialize (L ltac:(apply command_out; [exact (r_heap _ _ _ Is)| |];
      [intros ix; rewrite (r_stack _ _ _ Is); destruct (nth_error (st_stack s) ix) as [x|] eqn:Ex; [|reflexivity]; cbn; f_equal;
        apply nth_error_In in Ex; apply (slot_held _ _ _ _ Is Ex)
      |intros ix v; destruct (nth_error (st_stack s) ix) as [x|] eqn:Ex; [|discriminate]; intros [= <-]; apply nth_error_In in Ex;
        apply (slot_held _ _ _ _ Is Ex)])).
    unfold bind. destruct (lift _ s) as [v s'|q s'|z s'|c|]; cbn [sim_out] in L.
    + destruct L as (sc' & t' & L1 & L2 & L3 & L4). rewrite L4. exists sc', t'. auto.
    + destruct L as (sc' & t' & L1 & L2 & L3 & L4). rewrite L4. exists sc', t'. auto.
    + destruct L as (t' & L3 & L4). rewrite L4. exists t'. auto.
    + rewrite L. reflexivity.
    + rewrite L. reflexivity.
Qed.

Lemma sim_assign sc obj op f fp v p : held sc obj -> held sc f -> held sc v -> sim sc (assign_field n obj op f fp v p) (fun _ _ => True).
Proof.
  intros Ho Hf Hv. unfold assign_field. apply sim_get. intros s t Is.
  assert (HP : forall h h', moved sc (st_heap s) (st_heap t) sc h h' ->
    sim_out sc (st_heap s) (fun _ (_ : unit) => True) (put (set_heap s h) s) (put (set_heap t h') t)).
  { intros h h' M. eexists sc, _. split; [apply M|]. split; [exact (rel_moved _ _ _ _ _ _ Is M)|]. split; [exact I|reflexivity]. }
  assert (HT : forall e, held_panic sc e -> sim_out sc (st_heap s) (fun _ (_ : unit) => True) (throw e s) (throw e t))
    by (intros e He; exact (sim_throw sc e _ He s t Is)).
  pose proof (r_heap _ _ _ Is) as A.
  destruct obj as [| | | | | |l|l| |]; try (apply HT; first [exact Ho|exact Hf]).
  - apply held_arr in Ho. destruct f; try (apply HT; exact Hf). rewrite (arr_same sc _ _ A l Ho).
    destruct (Z.of_nat (length (arr_get (st_heap s) l)) <=? z)%Z; [apply HT; exact Hf|].
    destruct (z <? 0)%Z; [apply HT; exact Hf|]. apply HP. apply arr_set_moved; [exact A|exact Ho|].
    apply Forall_list_set; [apply (arr_held sc _ _ A l Ho)|exact Hv].
  - apply held_dict in Ho. rewrite (dict_put_same sc _ _ A n l f v Ho Hf).
    destruct (dict_put (st_heap s) n l f v) as [d| |] eqn:P; [|reflexivity|reflexivity].
    apply HP. apply dict_set_moved; [exact A|exact Ho|]. exact (dict_put_held sc _ _ A n l f v d Ho Hf Hv P).
Qed.

Lemma sim_eval_statement sc u st : sim sc (eval_statement E n u st) flow_h.
Proof.
  destruct st as [l r|e| |c b|ix e b|e]; cbn [eval_statement].
  - eapply sim_bind; [exact (s_expr _ HE sc u r)|]. intros sc1 [[f p] o] _ [Hf _]. cbn [fst snd] in Hf.
    destruct f as [v|v|]; [|apply sim_ret, Hf|apply sim_ret, Hf]. destruct l as [ix q|oe fe q].
    + eapply sim_bind; [apply sim_store; exact Hf|]. intros sc2 _ _ _. apply sim_ret. constructor.
    + eapply sim_bind; [exact (s_expr _ HE sc1 u oe)|]. intros sc2 [[fo p'] o'] Hs2 [Hfo _]. cbn [fst snd] in Hfo.
      destruct fo as [vo|vo|]; [|apply sim_ret, Hfo|apply sim_ret, Hfo].
      eapply sim_bind; [exact (s_expr _ HE sc2 u fe)|]. intros sc3 [[ff p''] o''] Hs3 [Hff _]. cbn [fst snd] in Hff.
      destruct ff as [vf|vf|]; [|apply sim_ret, Hff|apply sim_ret, Hff].
      eapply sim_bind; [apply (sim_assign sc3); [exact (held_up Hs3 _ Hfo)|exact Hff|exact (held_up (sub_trans _ _ _ Hs2 Hs3) _ Hf)]|].
      intros sc4 _ _ _. apply sim_ret. constructor.
  - eapply sim_bind; [exact (s_expr _ HE sc u e)|]. intros sc1 [[f p] o] _ [Hf _]. cbn [fst snd] in Hf.
    apply sim_ret. destruct f; exact Hf.
  - apply sim_ret. constructor.
  - eapply sim_bind; [exact (s_expr _ HE sc u c)|]. intros sc1 [[f p] o] _ [Hf _]. cbn [fst snd] in Hf.
    destruct f as [v|v|]; [|apply sim_ret, Hf|apply sim_ret, Hf]. destruct v as [|[|]| | | | | | | |]; try (apply sim_throw; exact Hf); [|apply sim_ret; constructor].
    eapply sim_bind; [exact (sim_block sc1 u b)|]. intros sc2 [w|w|] _ Hw.
    + apply (s_statement _ HE sc2 u (XWhile c b)).
    + apply sim_ret, Hw.
    + apply sim_ret. constructor.
  - eapply sim_bind; [exact (s_expr _ HE sc u e)|]. intros sc1 [[f p] o] _ [Hf _]. cbn [fst snd] in Hf.
    destruct f as [v|v|]; [|apply sim_ret, Hf|apply sim_ret, Hf]. destruct v as [| | | | | | | |g|]; try (apply sim_throw; exact Hf).
    exact (s_for _ HE sc1 u ix g p b Hf).
  - eapply sim_bind; [exact (s_expr _ HE sc u e)|]. intros sc1 [[f p] o] _ [Hf _]. apply sim_ret, Hf.
Qed.

Lemma sim_field (sc : live) l p x : sc (ODict l) ->
  sim sc (bind get (fun s => bind (of_walk (dict_get (st_heap s) n l (VStr x))) (fun r =>
        match r with Some v => ret v | None => throw (PIndexOutOfBounds (VStr x) p) end))) held.
Proof.
  intros Hl. apply sim_get. intros s t Is. assert (Hx : held sc (VStr x)) by constructor.
  apply sim_walked; [exact Is|apply (dict_get_same sc _ _ (r_heap _ _ _ Is)); assumption|].
  intros [v|] Hr; [apply sim_ret|apply sim_throw; constructor]. exact (dict_get_held sc _ _ (r_heap _ _ _ Is) n l _ v Hl Hr).
Qed.
Lemma sim_eval_for sc u ix g p b : held_func sc g -> sim sc (eval_for E n u ix g p b) flow_h.
Proof.
  intros Hg. unfold eval_for. apply sim_get. intros s t Is. rewrite (r_args _ _ _ Is).
  refine (sim_bind sc _ _ _ _ (s_call _ HE sc VNil g (length (st_args s)) p _ Hg) _ s t Is); [constructor|].
  intros sc1 r Hs1 Hr. destruct r as [| | | | | | |l| |]; try (apply sim_throw; exact Hr).
  apply held_dict in Hr. cbv zeta. eapply sim_bind; [apply sim_field, Hr|]. intros sc2 fin Hs2 Hfin.
  destruct fin as [|[|]| | | | | | | |]; try (apply sim_throw; exact Hfin); [apply sim_ret; constructor|].
  eapply sim_bind; [apply sim_field, Hs2, Hr|]. intros sc3 v Hs3 Hv. eapply sim_bind; [apply sim_store; exact Hv|]. intros sc4 _ Hs4 _.
  eapply sim_bind; [exact (sim_block sc4 u b)|]. intros sc5 [w|w|] Hs5 Hw.
  - apply (s_for _ HE sc5 u ix g p b).
    apply (func_up Hs5), (func_up Hs4), (func_up Hs3), (func_up Hs2), (func_up Hs1), Hg.
  - apply sim_ret, Hw.
  - apply sim_ret. constructor.
Qed.

(** ** Calls *)
Lemma grow_shrink sc h sc' (s : state W) k : grow sc h sc' (st_heap s) -> grow sc h sc' (st_heap (shrink k s)).
Proof. intros H; exact H. Qed.
Lemma sim_out_shrink {A} sc h (R : live -> A -> Prop) k o1 o2 : sim_out sc h R o1 o2 ->
  sim_out sc h R
    (match o1 with Val a s => Val a (shrink k s) | Pan p s => Pan p (shrink k s) | r => r end)
    (match o2 with Val a s => Val a (shrink k s) | Pan p s => Pan p (shrink k s) | r => r end).
Proof.
  destruct o1 as [a s|p s|z s|c|]; cbn [sim_out].
  - intros (sc' & t' & A1 & A2 & A3 & ->). exists sc', (shrink k t'). split; [exact A1|]. split; [apply rel_shrink, A2|auto].
  - intros (sc' & t' & A1 & A2 & A3 & ->). exists sc', (shrink k t'). split; [exact A1|]. split; [apply rel_shrink, A2|auto].
  - intros (t' & A0 & ->). exists t'. auto.
  - intros ->. reflexivity.
  - intros ->. reflexivity.
Qed.
Lemma sim_finish {A} sc k (m : M A) R : sim sc m R -> sim sc (finish k m) R.
Proof. intros H s t Is. pose proof (sim_out_shrink sc (st_heap s) R k _ _ (H s t Is)) as K. unfold finish. destruct (m s), (m t); exact K. Qed.

Lemma sim_tail_call sc u k f args p : sim sc (tail_call E u k f args p) flow_h.
Proof.
  intros s t Is. unfold tail_call. pose proof (sim_prepare sc u f args s t Is) as P.
  destruct (prepare_call E u f args s) as [[fl|[[obj g] start]] s1|e s1|z s1|c|]; cbn [sim_out] in P.
  - destruct P as (sc' & t' & A1 & A2 & A3 & ->). exists sc', (shrink k t'). split; [exact A1|]. split; [apply rel_shrink, A2|auto].
  - destruct P as (sc' & t' & A1 & A2 & [A3 A4] & ->). pose proof (rel_shrink _ _ _ k A2) as B1.
    apply (sim_out_up sc _ sc' (st_heap s1)); [exact A1|].
    refine (sim_bind sc' _ _ _ _ (s_call _ HE sc' obj g start (at_ u p) A3 A4) _ (shrink k s1) (shrink k t') B1).
    intros sc2 v _ Hv. apply sim_ret, Hv.
  - destruct P as (sc' & t' & A1 & A2 & A3 & ->). exists sc', (shrink k t'). split; [exact A1|]. split; [apply rel_shrink, A2|auto].
  - destruct P as (t' & A & ->). exists t'. auto.
  - rewrite P. reflexivity.
  - rewrite P. reflexivity.
Qed.

Lemma sim_body u k b : forall sc, sim sc (eval_body tail E u k b) flow_h.
Proof.
  induction b as [|st b IH]; intros sc.
  - cbn [eval_body]. apply sim_finish, sim_ret. constructor.
  - destruct b as [|st' b].
    + cbn [eval_body].
      pose proof (sim_finish sc k _ _ (s_statement _ HE sc u st)) as D.
      destruct tail; [|exact D].
      destruct st as [l r|e| |c b|ix e b|e]; try exact D.
      * destruct e as [ix p|l p|x p|es p|kvs p|params fi b p|op e p|l op r p|c t e p|o f p|f args p|b p]; try exact D.
        eapply sim_bind; [exact (sim_tail_call sc u k f args p)|].
        intros sc1 fl _ H. apply sim_ret. destruct fl; exact H.
      * destruct e as [ix p|l p|x p|es p|kvs p|params fi b p|op e p|l op r p|c t e p|o f p|f args p|b p]; try exact D.
        exact (sim_tail_call sc u k f args p).
    + intros s t Is.
      pose proof (s_statement _ HE sc u st s t Is) as G.
      change (sim_out sc (st_heap s) flow_h
        (match ev_statement E u st s with
         | Val (Reg _) s1 => eval_body tail E u k (st' :: b) s1
         | Val f s1 => Val f (shrink k s1) | Pan p s1 => Pan p (shrink k s1) | r => r end)
        (match ev_statement E u st t with
         | Val (Reg _) s1 => eval_body tail E u k (st' :: b) s1
         | Val f s1 => Val f (shrink k s1) | Pan p s1 => Pan p (shrink k s1) | r => r end)).
      destruct (ev_statement E u st s) as [f s1|e s1|z s1|c|]; cbn [sim_out] in G.
      * destruct G as (sc' & t' & A1 & A2 & A3 & ->).
        destruct f as [v|v|].
        -- apply (sim_out_up sc _ sc' (st_heap s1)); [exact A1|]. exact (IH sc' s1 t' A2).
        -- exists sc', (shrink k t'). split; [exact A1|]. split; [apply rel_shrink, A2|auto].
        -- exists sc', (shrink k t'). split; [exact A1|]. split; [apply rel_shrink, A2|auto].
      * destruct G as (sc' & t' & A1 & A2 & A3 & ->). exists sc', (shrink k t'). split; [exact A1|]. split; [apply rel_shrink, A2|auto].
      * destruct G as (t' & A & ->). exists t'. auto.
      * rewrite G. reflexivity.
      * rewrite G. reflexivity.
Qed.

Lemma sim_store_all l : forall sc ix, Forall (held sc) l -> sim sc (store_all ix l) (fun _ _ => True).
Proof.
  induction l as [|v l IH]; intros sc ix H; cbn [store_all]; [apply sim_ret; exact I|]. inversion H; subst.
  eapply sim_bind; [apply sim_store; assumption|]. intros sc1 _ U _. apply IH. apply (values_up U). assumption.
Qed.
Lemma sim_place_all l : forall sc, Forall (fun x => sc (OCell (fst x))) l -> sim sc (place_all l) (fun _ _ => True).
Proof.
  induction l as [|[c ix] l IH]; intros sc H; cbn [place_all]; [apply sim_ret; exact I|]. inversion H; subst.
  eapply sim_bind; [apply sim_place; assumption|]. intros sc1 _ U _. apply IH. eapply Forall_impl; [|eassumption]. intros x. apply U.
Qed.

Lemma sim_call_hush sc obj unit params fi body ctx fp start p : held sc obj -> held_func sc (FHush unit params fi body ctx fp) ->
  sim sc (call_hush X tail false E obj unit params fi body ctx fp start p) held.
Proof.
  intros Ho V. apply context_cells in V. unfold call_hush. apply sim_get. intros s t Is.
  rewrite (r_args _ _ _ Is).
  assert (Ha : Forall (held sc) (skipn start (st_args s))) by (apply Forall_skip, Is).
  assert (Hr : rel sc (set_args s (firstn start (st_args s))) (set_args t (firstn start (st_args s)))) by (apply rel_args; [exact Is|apply Forall_first, Is]).
  unfold bind at 1 4. unfold put.
  refine ((_ : sim sc _ held) (set_args s (firstn start (st_args s))) (set_args t (firstn start (st_args s))) Hr).
  revert Ha. generalize (skipn start (st_args s)). clear s t Is Hr. intros args Ha.
  destruct (Nat.eqb (length args) params); [|apply sim_throw; constructor].
  eapply sim_bind; [apply sim_extend|]. intros sc1 _ U1 _.
  eapply sim_bind; [apply sim_store_all, (values_up U1), Ha|]. intros sc2 _ U2 _.
  eapply sim_bind; [apply sim_place_all; eapply Forall_impl; [|exact V]; intros x Hx; apply U2, U1, Hx|]. intros sc3 _ U3 _.
  apply (sim_bind sc3 _ _ (fun _ _ => True)).
  { destruct (fi_self fi); [apply sim_store|apply sim_ret; exact I].
    exact (held_up U3 _ (held_up U2 _ (held_up U1 _ Ho))). }
  intros sc4 _ U4 _. eapply sim_bind; [exact (sim_body _ (fi_slots fi) body sc4)|].
  intros sc5 [v|v|] _ Hv; [apply sim_ret, Hv|apply sim_ret, Hv|]. intros s t Is. reflexivity.
Qed.

Lemma sim_std sc ix : sim sc (store ix std_value) (fun _ _ => True).
Proof. intros s t Is. refine (sim_store sc ix std_value _ s t Is). constructor; [apply Is|constructor]. Qed.
Lemma sim_program sc u prog : sim sc (eval_program X false E u prog) held.
Proof.
  unfold eval_program. eapply sim_bind; [apply sim_extend|]. intros sc1 _ _ _.
  eapply sim_bind; [apply sim_std|]. intros sc2 _ _ _ s t Is.
  pose proof (sim_block sc2 u (pr_statements prog) s t Is) as B.
  destruct (eval_block E u (pr_statements prog) s) as [f s1|e s1|z s1|c|]; cbn [sim_out] in B.
  - destruct B as (sc' & t' & A1 & A2 & A3 & ->).
    destruct f as [v|v|]; [|reflexivity|reflexivity]. exists sc', (shrink (pr_root_slots prog) t'). split; [exact A1|]. split; [apply rel_shrink, A2|auto].
  - destruct B as (sc' & t' & A1 & A2 & A3 & ->). exists sc', t'. auto.
  - destruct B as (t' & A & ->). exists t'. auto.
  - rewrite B. reflexivity.
  - rewrite B. reflexivity.
Qed.
Lemma sim_leaking {A} sc (m : M A) R : sim sc m R -> sim sc (leaking m) R.
Proof.
  intros H s t Is. specialize (H s t Is). unfold leaking. destruct (m s) as [a s'|p s'|z s'|c|]; cbn [sim_out] in H.
  - destruct H as (sc' & t' & A1 & A2 & A3 & ->). exists sc', t'. auto.
  - destruct H as (sc' & t' & A1 & A2 & A3 & ->). eexists sc', _. split; [exact A1|]. split; [|split; [exact A3|reflexivity]].
    destruct A2. split; cbn; auto.
  - destruct H as (t' & A1 & ->). exists t'. auto.
  - rewrite H. reflexivity.
  - rewrite H. reflexivity.
Qed.
Lemma sim_load sc path p : sim sc (load X false E path p) held.
Proof.
  unfold load. apply sim_get. intros s t Is. rewrite (r_world _ _ _ Is), (r_units _ _ _ Is).
  assert (HT : forall e, panic_pointers e = [] -> sim_out sc (st_heap s) held (throw e s) (throw e t)).
  { intros e He. refine (sim_throw sc e held _ s t Is). unfold held_panic. rewrite He. constructor. }
  destruct (x_file X path (st_world s)) as [e|text]; [apply HT; reflexivity|].
  destruct (analyze text) as [b les pes| |]; [|reflexivity|reflexivity].
  destruct les as [|]; [|apply HT; reflexivity]. destruct pes as [|]; [|apply HT; reflexivity].
  destruct (sema b) as [prog|es|]; [|apply HT; reflexivity|reflexivity].
  unfold bind at 1 2, put.
  apply (sim_leaking sc _ _ (sim_program sc (mkuinfo (st_units s) path) prog)
    (mkstate (st_stack s) (st_args s) (st_heap s) (st_modules s) (S (st_units s)) (st_leaked s) (st_world s))).
  destruct Is. split; cbn; auto.
Qed.
Lemma module_held sc path l v : Forall (fun m => held sc (snd m)) l -> module_get path l = Some v -> held sc v.
Proof. induction 1 as [|[k x] l Hx _ IH]; cbn; [discriminate|]. destruct (bytes_eqb path k); [intros [= <-]; exact Hx|exact IH]. Qed.
Lemma sim_import sc x p : sim sc (import X false E x p) held.
Proof.
  unfold import. apply sim_get. intros s t Is. rewrite (r_world _ _ _ Is), (r_modules _ _ _ Is).
  destruct (x_resolve X x (sp_path p) (st_world s)) as [e|path]; [refine (sim_throw sc _ _ _ s t Is); constructor|].
  destruct (module_get path (st_modules s)) as [v|] eqn:Md.
  - refine (sim_ret sc v held _ s t Is). eapply module_held; [apply Is|exact Md].
  - refine (sim_bind sc _ _ _ _ (sim_load sc path p) _ s t Is). intros sc1 v _ Hv. apply sim_get. intros s1 t1 I1.
    unfold bind, put, ret. eexists sc1, _. split; [apply grow_refl|]. split; [|split; [exact Hv|reflexivity]].
    destruct I1. split; cbn; auto. congruence.
Qed.

Lemma sim_native sc g args start p : Forall sc (native_pointers g) -> Forall (held sc) args -> sim sc (native_body X false E n g args start p) held.
Proof.
  intros Hg Ha s t Is.
  assert (HT : forall e, held_panic sc e -> sim_out sc (st_heap s) held (throw e s) (throw e t)) by (intros e He; exact (sim_throw sc e held He s t Is)).
  assert (HL : sim_out sc (st_heap s) held (lift (native_call X n args_value g args p) s) (lift (native_call X n args_value g args p) t)).
  { apply sim_lift; [exact Is|]. apply native_out; try assumption; [apply Is|]. constructor; [apply Is|constructor]. }
  destruct g as [f|o f|a st|x st|st|st to step|st to step|f pt|st]; try exact HL.
  - destruct f; try exact HL; unfold native_body.
    + destruct args as [|a [|a' l]]; [apply HT; constructor| |destruct a; apply HT; constructor].
      inversion Ha as [|? ? Sg _]; subst.
      destruct a as [| | | | | | | |g|]; try (apply HT; exact Sg). unfold catch.
      pose proof (s_call _ HE sc VNil g (start + 1) p ltac:(constructor) Sg s t Is) as C.
      destruct (ev_call E VNil g (start + 1) p s) as [v s'|e s'|z s'|c|]; cbn [sim_out] in C.
      * destruct C as (sc' & t' & A1 & A2 & A3 & ->). exists sc', t'. auto.
      * destruct C as (sc' & t' & A1 & A2 & A3 & ->).
        rewrite (panic_text_same sc' _ _ (r_heap _ _ _ A2) X DX n e A3).
        destruct (panic_text X n (st_heap s') e) as [x| |]; [|reflexivity|reflexivity].
        exists sc', t'. split; [exact A1|]. split; [exact A2|]. split; [constructor|]. reflexivity.
      * destruct C as (t' & A & ->). exists t'. auto.
      * rewrite C. reflexivity.
      * rewrite C. reflexivity.
    + destruct args as [|a [|a' l]]; [apply HT; constructor| |destruct a; apply HT; constructor].
      inversion Ha as [|? ? Sg _]; subst.
      destruct a as [| | | | |x| | | |]; try (apply HT; exact Sg). exact (sim_import sc x p s t Is).
  - cbn [native_pointers] in Hg. apply Forall_app in Hg. destruct Hg as [Ho Hf]. exact (s_call _ HE sc o f start p Ho Hf s t Is).
Qed.
Lemma sim_call sc obj f start p : held sc obj -> held_func sc f -> sim sc (call X tail false E n obj f start p) held.
Proof.
  intros Ho Hf. destruct f as [unit params fi body ctx fp|g]; cbn [call].
  - apply sim_call_hush; assumption.
  - apply sim_get. intros s t Is. unfold truncated. rewrite (r_args _ _ _ Is).
    assert (SA : Forall (held sc) (skipn start (st_args s))) by (apply Forall_skip, Is).
    pose proof (sim_native sc g (skipn start (st_args s)) start p Hf SA s t Is) as N.
    destruct (native_body X false E n g (skipn start (st_args s)) start p s) as [v s'|e s'|z s'|c|]; cbn [sim_out] in N.
    + destruct N as (sc' & t' & A1 & A2 & A3 & ->). eexists sc', _. split; [exact A1|]. split; [apply rel_first, A2|auto].
    + destruct N as (sc' & t' & A1 & A2 & A3 & ->). eexists sc', _. split; [exact A1|]. split; [apply rel_first, A2|auto].
    + destruct N as (t' & A & ->). exists t'. auto.
    + rewrite N. reflexivity.
    + rewrite N. reflexivity.
Qed.
End Step.

Lemma sims_step E n : sims E -> sims (step X O tail false E n).
Proof.
  intros HE. split; cbn [step ev_expr ev_statement ev_call ev_for]; intros.
  - apply sim_eval_expr, HE.
  - apply sim_eval_statement, HE.
  - apply sim_call; assumption.
  - apply sim_eval_for; assumption.
Qed.
Theorem sims_run n : sims (run X O tail false n).
Proof.
  induction n as [|n IH]; cbn [run]; [|apply sims_step, IH].
  split; intros; intros s t Is; reflexivity.
Qed.

(** ** What is reached *)
Lemma rel_start (more : list object) s t : but_garbage more s t -> rel (reachable (st_heap s) (more ++ roots s)) s t.
Proof.
  intros []. assert (R : forall x, In x (roots s) -> reachable (st_heap s) (more ++ roots s) x) by (intros; apply rc_root, in_or_app; right; assumption).
  split; try assumption.
  - apply Forall_forall. intros x Hx. apply Forall_forall. intros y Hy. apply R. right; right. apply in_or_app. left. apply in_flat_map. eauto.
  - apply Forall_forall. intros x Hx. apply Forall_forall. intros y Hy. apply R. right; right. apply in_or_app. right. apply in_or_app. left. apply in_flat_map. eauto.
  - apply Forall_forall. intros x Hx. apply Forall_forall. intros y Hy. apply R. right; right. apply in_or_app. right. apply in_or_app. right. apply in_flat_map. eauto.
  - apply R. left; reflexivity.
  - apply R. right; left; reflexivity.
  - split; [assumption|assumption|]. intros x Hx. apply Forall_forall. intros v Hv. apply Forall_forall. intros y Hy. eapply rc_inside; eassumption.
Qed.
Lemma rel_closed sc s t (more : list object) : rel sc s t -> Forall sc more -> forall x, reachable (st_heap s) (more ++ roots s) x -> sc x.
Proof.
  intros I H x. induction 1 as [x Hx|x v y _ IH Hv Hy].
  - apply in_app_or in Hx. destruct Hx as [Hx|[<-|[<-|Hx]]]; [rewrite Forall_forall in H; apply H, Hx|apply I|apply I|].
    apply in_app_or in Hx. destruct Hx as [Hx|Hx]; [|apply in_app_or in Hx; destruct Hx as [Hx|Hx]]; apply in_flat_map in Hx as (z & Hz & Hx).
    + pose proof (r_slots _ _ _ I) as F. rewrite Forall_forall in F. specialize (F z Hz). unfold held_slot in F. rewrite Forall_forall in F. apply F, Hx.
    + pose proof (r_hargs _ _ _ I) as F. rewrite Forall_forall in F. specialize (F z Hz). unfold held in F. rewrite Forall_forall in F. apply F, Hx.
    + pose proof (r_hmodules _ _ _ I) as F. rewrite Forall_forall in F. specialize (F z Hz). unfold held in F. rewrite Forall_forall in F. apply F, Hx.
  - pose proof (ag_held _ _ _ (r_heap _ _ _ I) x IH) as F. rewrite Forall_forall in F. specialize (F v Hv). unfold held in F. rewrite Forall_forall in F. apply F, Hy.
Qed.
Lemma sim_regardless {A} (m : M A) (ptrs : A -> list object) more s t :
  sim (reachable (st_heap s) (more ++ roots s)) m (fun sc a => Forall sc (ptrs a)) -> but_garbage more s t -> regardless ptrs more s (m s) (m t).
Proof.
  intros H B. pose proof (rel_start more s t B) as I. specialize (H s t I).
  assert (K : forall sc' s' t' l, grow (reachable (st_heap s) (more ++ roots s)) (st_heap s) sc' (st_heap s') -> rel sc' s' t' -> Forall sc' l ->
    but_garbage l s' t' /\ left_alone more s l s').
  { intros sc' s' t' l G J L. pose proof (rel_closed sc' s' t' l J L) as C. split.
    - destruct J as [? ? ? ? ? ? ? ? ? ? ? [Z S]]. split; try assumption. intros x Hx. apply S, C, Hx.
    - intros x T N. destruct G as [G1 G2 G3 G4]. split; [apply G3, T|]. split; [apply G4; assumption|]. intros R. destruct (G2 x (C x R)); contradiction. }
  unfold regardless. destruct (m s) as [a s'|p s'|z s'|c|]; cbn [sim_out] in H.
  - destruct H as (sc' & t' & G & J & R & ->). split; [reflexivity|]. eapply K; eassumption.
  - destruct H as (sc' & t' & G & J & R & ->). split; [reflexivity|]. eapply K; eassumption.
  - destruct H as (t' & E & ->). split; [reflexivity|exact E].
  - rewrite H. reflexivity.
  - rewrite H. exact Logic.I.
Qed.
End Sim.

Section Interp.
Context {W : Type}.
Variable X : ext W.
Variable O : os W.
Hypothesis DX : detached X.
Lemma statement_regardless n u st (s t : state W) : but_garbage [] s t ->
  regardless flow_pointers [] s (ev_statement (interp X O n) u st s) (ev_statement (interp X O n) u st t).
Proof. intros B. apply sim_regardless; [|exact B]. apply (s_statement _ (sims_run X O true DX n)). Qed.
Lemma expr_regardless n u e (s t : state W) : but_garbage [] s t ->
  regardless (fun r => flow_pointers (fst (fst r)) ++ pointers (snd r)) [] s (ev_expr (interp X O n) u e s) (ev_expr (interp X O n) u e t).
Proof.
  intros B. apply (sim_regardless _ (fun r : flow * spos * value => flow_pointers (fst (fst r)) ++ pointers (snd r))); [|exact B]. intros s1 t1 I.
  pose proof (s_expr _ (sims_run X O true DX n) _ u e s1 t1 I) as K.
  unfold interp. destruct (ev_expr _ u e s1); cbn in *; auto. destruct K as (sc' & t' & A1 & A2 & [A3 A4] & A5). exists sc', t'.
  split; [exact A1|]. split; [exact A2|]. split; [apply Forall_app; split; assumption|exact A5].
Qed.
Lemma call_regardless n obj f start p (s t : state W) : but_garbage (pointers obj ++ func_pointers f) s t ->
  regardless pointers (pointers obj ++ func_pointers f) s (ev_call (interp X O n) obj f start p s) (ev_call (interp X O n) obj f start p t).
Proof.
  intros B. apply sim_regardless; [|exact B]. apply (s_call _ (sims_run X O true DX n)); apply Forall_forall; intros x Hx; apply rc_root, in_or_app; left; apply in_or_app; auto.
Qed.
Lemma program_regardless n u prog (s t : state W) : but_garbage [] s t ->
  regardless pointers [] s (eval_program X false (interp X O n) u prog s) (eval_program X false (interp X O n) u prog t).
Proof. intros B. apply sim_regardless; [|exact B]. apply (sim_program X (interp X O n) (sims_run X O true DX n)). Qed.

(** ** A collector between statements *)
Lemma reach_more h l l' x : incl l l' -> reachable h l x -> reachable h l' x.
Proof. intros H. induction 1 as [x Hx|x v y _ IH Hv Hy]; [apply rc_root, H, Hx|eapply rc_inside; eassumption]. Qed.
Lemma same_inside h h' x : same_object h h' x -> inside_object h' x = inside_object h x.
Proof. destruct x; cbn; intros ->; reflexivity. Qed.
Lemma but_less more (s t : state W) : but_garbage more s t -> but_garbage [] s t.
Proof. intros []. split; try assumption. intros x Hx. apply bg_same. eapply reach_more; [|exact Hx]. apply incl_appr, incl_refl. Qed.
Lemma but_trans (s t u : state W) : but_garbage [] s t -> but_garbage [] t u -> but_garbage [] s u.
Proof.
  intros A B. pose proof A as A'. pose proof B as B'. destruct A', B'.
  assert (R : roots t = roots s) by (unfold roots; congruence).
  assert (H : forall x, reachable (st_heap s) (roots s) x -> reachable (st_heap t) (roots t) x).
  { induction 1 as [x Hx|x v y Hr IH Hv Hy]; [apply rc_root; rewrite R; exact Hx|].
    eapply rc_inside; [exact IH| |exact Hy]. rewrite (same_inside _ _ _ (bg_same x Hr)). exact Hv. }
  split; try congruence.
  - unfold same_size in *. intuition congruence.
  - intros x Hx. specialize (bg_same x Hx). specialize (bg_same0 x (H x Hx)). destruct x; cbn in *; congruence.
Qed.
Lemma alone_trans (s s1 s2 : state W) more more' : left_alone [] s more s1 -> left_alone [] s1 more' s2 -> left_alone [] s more' s2.
Proof.
  intros A B x T N. destruct (A x T N) as (T1 & S1 & N1). destruct (B x T1) as (T2 & S2 & N2).
  - intros R. apply N1. eapply reach_more; [|exact R]. apply incl_appr, incl_refl.
  - split; [exact T2|]. split; [|exact N2]. destruct x; cbn in *; congruence.
Qed.
Lemma regardless_after {A} (ptrs : A -> list object) (s s1 : state W) more o o' : left_alone [] s more s1 -> regardless ptrs [] s1 o o' -> regardless ptrs [] s o o'.
Proof.
  intros L. destruct o, o'; cbn; auto; intros (E & B & C); (split; [exact E|split; [exact B|exact (alone_trans _ _ _ _ _ L C)]]).
Qed.
Lemma collecting_regardless (gc : nat -> state W -> state W) n u b (s : state W) : (forall k s, but_garbage [] s (gc k s)) ->
  regardless flow_pointers [] s (eval_block (interp X O n) u b s) (collecting gc (interp X O n) u b s).
Proof.
  intros G. assert (K : forall b s t, but_garbage [] s t ->
    regardless flow_pointers [] s (eval_block (interp X O n) u b s) (collecting gc (interp X O n) u b t)).
  { clear b s. induction b as [|st b IH]; intros s t B.
    - cbn. split; [reflexivity|]. split; [exact B|]. intros x T N. split; [exact T|]. split; [destruct x; reflexivity|exact N].
    - pose proof (fun k => statement_regardless n u st s (gc k t) (but_trans _ _ _ B (G k t))) as H. destruct b as [|st' b]; [exact (H 1)|].
      specialize (H (S (length (st' :: b)))).
      change (collecting gc (interp X O n) u (st :: st' :: b) t) with
        (match ev_statement (interp X O n) u st (gc (S (length (st' :: b))) t) with
         | Val (Reg _) s => collecting gc (interp X O n) u (st' :: b) s | r => r end).
      change (eval_block (interp X O n) u (st :: st' :: b) s) with
        (bind (ev_statement (interp X O n) u st) (fun f => match f with Reg _ => eval_block (interp X O n) u (st' :: b) | f => ret f end) s).
      unfold bind. destruct (ev_statement (interp X O n) u st s) as [f s1|p s1|z s1|c|], (ev_statement (interp X O n) u st (gc _ t)) as [f' t1|p' t1|z' t1|c'|];
        cbn in H; try contradiction; try exact H.
      destruct H as (<- & B1 & L1). destruct f as [v|v|]; [|split; [reflexivity|split; assumption]|split; [reflexivity|split; assumption]].
      apply (regardless_after _ s s1 _ _ _ L1). apply IH. exact (but_less _ _ _ B1). }
  apply K. split; try reflexivity; [repeat split|]. intros x _. destruct x; reflexivity.
Qed.
End Interp.
