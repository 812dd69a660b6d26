(** Evaluation of analysed code keeps the state sound, leaves the stacks as they were, and never
    misses a slot nor meets an impossible control flow.  It can only change, of the iterators and
    closed variables there are, those that were mentioned. *)
From Coq Require Import Strings.String Sorting.Permutation Lia.
From Verif Require ShowProofs JsonProofs.
From Verif Require Import Base Lexer Ast Parser Program Sema Value Text StdLib Exec Runtime SpecLexer SpecParser SpecSema SpecProgram
  SpecRun SoundLibProofs SemaShapeProofs SemaTextProofs.


(** ** Scopes *)
Definition sub (a b : scope) : Prop := (forall i, @sc_iter a i -> @sc_iter b i) /\ (forall c, @sc_cell a c -> @sc_cell b c).
Lemma sub_refl a : sub a a. Proof. split; auto. Qed.
Lemma sub_trans a b c : sub a b -> sub b c -> sub a c.
Proof. intros [H K] [H' K']. split; auto. Qed.
Lemma sub_anything a : sub a anything. Proof. split; cbn; auto. Qed.

Section Up.
Context {a b : scope} (Hab : sub a b).
Lemma sound_up_all : (forall v, @sound a v -> @sound b v) /\ (forall f, @sound_func a f -> @sound_func b f) /\
  (forall g, @sound_native a g -> @sound_native b g).
Proof.
  assert (V : forall v, @sound a v -> @sound b v).
  { fix IV 1. assert (Fn : forall f, @sound_func a f -> @sound_func b f).
    { fix IF 1. intros [u p fi body ctx fp|g].
      - intros (A & B & C & D & E). repeat split; try assumption. eapply Forall_impl; [|exact E]. intros x. apply Hab.
      - destruct g as [f|o f|l st|t st|st|st to step|st to step|f pt|st]; cbn; try exact (fun H => H); try apply Hab.
        intros [H K]. split; [exact (IV _ H)|exact (IF _ K)]. }
    intros [| | | | | | | |f|d c]; try exact (fun H => H); [exact (Fn f)|exact (IV c)]. }
  assert (F : forall f, @sound_func a f -> @sound_func b f) by (intros f; exact (V (VFun f))).
  split; [exact V|]. split; [exact F|]. intros g. exact (F (FRust g)).
Qed.
Lemma sound_up v : @sound a v -> @sound b v. Proof. apply sound_up_all. Qed.
Lemma func_up f : @sound_func a f -> @sound_func b f. Proof. apply sound_up_all. Qed.
Lemma native_up g : @sound_native a g -> @sound_native b g. Proof. apply sound_up_all. Qed.
Lemma values_up l : Forall (@sound a) l -> Forall (@sound b) l.
Proof. apply Forall_impl, sound_up. Qed.
Lemma entry_up e : @sound_entry a e -> @sound_entry b e.
Proof. intros [H K]. split; apply sound_up; assumption. Qed.
Lemma entries_up l : Forall (@sound_entry a) l -> Forall (@sound_entry b) l.
Proof. apply Forall_impl, entry_up. Qed.
Lemma heap_up h : @sound_heap a h -> @sound_heap b h.
Proof.
  intros (A & B & C & D). split; [apply values_up, A|]. split; [eapply Forall_impl; [apply values_up|exact B]|].
  split; [eapply Forall_impl; [apply entries_up|exact C]|]. eapply Forall_impl; [|exact D].
  intros [| |l|]; cbn; auto. apply entries_up.
Qed.
Lemma slot_up x : @sound_slot a x -> @sound_slot b x.
Proof. destruct x; cbn; [intros [H K]; split; [apply Hab, H|apply sound_up, K]|apply Hab]. Qed.
Lemma state_up {W} (s : state W) : @sound_state a W s -> @sound_state b W s.
Proof.
  intros (A & B & C & D). split; [eapply Forall_impl; [apply slot_up|exact A]|]. split; [apply values_up, B|].
  split; [apply heap_up, C|]. eapply Forall_impl; [|exact D]. intros x. apply sound_up.
Qed.
End Up.

(** The scope after a step: what is new may be mentioned too.  What was there and was not mentioned
    is as it was. *)
Definition grows (a b : scope) (h h' : heap) : Prop :=
  sub a b /\
  (forall i, @sc_iter b i -> @sc_iter a i \/ length (h_iters h) <= i < length (h_iters h')) /\
  (forall c, @sc_cell b c -> @sc_cell a c \/ length (h_cells h) <= c < length (h_cells h')).
Definition steps (a b : scope) (h h' : heap) : Prop := @keeps a h h' /\ grows a b h h'.

Lemma steps_keeps a h h' : @keeps a h h' -> steps a a h h'.
Proof. intros K. split; [exact K|]. repeat split; auto. Qed.
Lemma steps_refl a h : steps a a h h.
Proof. apply steps_keeps, keeps_refl. Qed.
Lemma steps_sub a b h h' : steps a b h h' -> sub a b.
Proof. intros (_ & H & _). exact H. Qed.
Lemma steps_trans a b c h1 h2 h3 : steps a b h1 h2 -> steps b c h2 h3 -> steps a c h1 h3.
Proof.
  intros ((A1 & A2 & A3 & A4 & A5) & A6 & A7 & A8) ((B1 & B2 & B3 & B4 & B5) & B6 & B7 & B8). split; [|split].
  - split; [auto|]. repeat split; try lia.
    + intros i N L. rewrite B2; [apply A2; assumption| |lia]. intros H. destruct (A7 i H); [contradiction|lia].
    + intros i N L. rewrite B4; [apply A4; assumption| |lia]. intros H. destruct (A8 i H); [contradiction|lia].
  - exact (sub_trans _ _ _ A6 B6).
  - split.
    + intros i H. destruct (B7 i H) as [H1|H1]; [destruct (A7 i H1)|]; auto; right; lia.
    + intros i H. destruct (B8 i H) as [H1|H1]; [destruct (A8 i H1)|]; auto; right; lia.
Qed.

Section Sound.
Context {W : Type}.
Variable X : ext W.
Variable O : os W.
Variables tail eager : bool.
Hypothesis HX : honest X.

(** The stack, from the point of view of a frame of [k] slots *)
Definition stk (k : nat) (s s' : state W) : Prop :=
  length (st_stack s) <= length (st_stack s') /\
  (st_leaked s = true -> st_leaked s' = true) /\
  (st_leaked s' = false ->
     skipn k (st_stack s') = skipn k (st_stack s) /\
     map slot_id (st_stack s') = map slot_id (st_stack s)).

Definition after (a b : scope) (k : nat) (s s' : state W) : Prop :=
  @sound_state b W s' /\ stk k s s' /\ steps a b (st_heap s) (st_heap s') /\
  exists extra, st_args s' = st_args s ++ extra.
Definition same (a b : scope) (k : nat) (s s' : state W) : Prop := after a b k s s' /\ st_args s' = st_args s.

Definition post {A} (sc : scope) (k : nat) (R : scope -> A -> Prop) (s : state W) (o : outcome (state W) A) : Prop :=
  match o with
  | Val a s' => exists sc', R sc' a /\ same sc sc' k s s'
  | Pan _ s' => exists sc', after sc sc' k s s'
  | Crash c => allowed c
  | _ => True
  end.
Definition good {A} (sc : scope) (k : nat) (m : M A) (R : scope -> A -> Prop) : Prop :=
  forall s : state W, @sound_state sc W s -> k <= length (st_stack s) -> post sc k R s (m s).

Lemma stk_refl k s : stk k s s.
Proof. repeat split; auto. Qed.
Lemma stk_trans k a b c : stk k a b -> stk k b c -> stk k a c.
Proof.
  intros (A1 & A2 & A3) (B1 & B2 & B3). split; [lia|]. split; [auto|]. intros L.
  destruct (B3 L) as [B4 B5].
  assert (Lb : st_leaked b = false) by (destruct (st_leaked b); [rewrite B2 in L; auto|reflexivity]).
  destruct (A3 Lb). split; congruence.
Qed.
Lemma stk_weaken k s s' : stk 0 s s' -> stk k s s'.
Proof.
  intros (A & B & C). split; [exact A|]. split; [exact B|]. intros L. destruct (C L) as [D E]. cbn in D.
  split; [congruence|exact E].
Qed.
Lemma after_trans k sa sb sc a b c : after sa sb k a b -> after sb sc k b c -> after sa sc k a c.
Proof.
  intros (_ & A2 & A3 & x & A4) (B1 & B2 & B3 & y & B4). split; [exact B1|]. split; [eapply stk_trans; eassumption|].
  split; [exact (steps_trans _ _ _ _ _ _ A3 B3)|]. exists (x ++ y). rewrite B4, A4, app_assoc. reflexivity.
Qed.
Lemma same_refl sc k s : @sound_state sc W s -> same sc sc k s s.
Proof.
  intros H. split; [|reflexivity]. split; [exact H|]. split; [apply stk_refl|]. split; [apply steps_refl|].
  exists []. rewrite app_nil_r. reflexivity.
Qed.
Lemma same_after k sa sb sc a b c : same sa sb k a b -> after sb sc k b c -> after sa sc k a c.
Proof. intros [A _] B. exact (after_trans _ _ _ _ _ _ _ A B). Qed.
Lemma same_trans k sa sb sc a b c : same sa sb k a b -> same sb sc k b c -> same sa sc k a c.
Proof. intros [A A'] [B B']. split; [exact (after_trans _ _ _ _ _ _ _ A B)|congruence]. Qed.
Lemma after_frame k sa sb s s' : k <= length (st_stack s) -> after sa sb k s s' -> k <= length (st_stack s').
Proof. intros H (_ & (A & _) & _). lia. Qed.
Lemma after_sub k sa sb s s' : after sa sb k s s' -> sub sa sb.
Proof. intros (_ & _ & H & _). exact (steps_sub _ _ _ _ H). Qed.
Lemma post_after {A} k sa sb (R : scope -> A -> Prop) s s' o :
  same sa sb k s s' -> post sb k R s' o -> post sa k R s o.
Proof.
  intros H. destruct o; cbn; auto.
  - intros (sc & A1 & A2). exists sc. split; [exact A1|]. exact (same_trans _ _ _ _ _ _ _ H A2).
  - intros (sc & A1). exists sc. exact (same_after _ _ _ _ _ _ _ H A1).
Qed.

Lemma good_bind {A B} sc k (m : M A) (f : A -> M B) R R' :
  good sc k m R -> (forall sc' a, sub sc sc' -> R sc' a -> good sc' k (f a) R') -> good sc k (bind m f) R'.
Proof.
  intros Hm Hf s Hs Hk. specialize (Hm s Hs Hk). unfold bind. destruct (m s) as [a s'|p s'|z s'|c|]; cbn in Hm |- *; auto.
  destruct Hm as (sc' & Ra & Hsame). eapply post_after; [exact Hsame|]. apply Hf; [exact (after_sub _ _ _ _ _ (proj1 Hsame))|exact Ra|apply Hsame|].
  exact (after_frame _ _ _ _ _ Hk (proj1 Hsame)).
Qed.
Lemma good_ret {A} sc k (a : A) (R : scope -> A -> Prop) : R sc a -> good sc k (ret a) R.
Proof. intros H s Hs _. exists sc. split; [exact H|apply same_refl, Hs]. Qed.
Lemma good_throw {A} sc k p (R : scope -> A -> Prop) : good sc k (throw p) R.
Proof. intros s Hs _. exists sc. apply (same_refl sc k s Hs). Qed.
Lemma good_fuel {A} sc k (R : scope -> A -> Prop) : good sc k (fun _ => Fuel) R.
Proof. intros s _ _. exact I. Qed.
Lemma good_sum {A} sc k (r : A + panic) (R : scope -> A -> Prop) : (forall a, r = inl a -> R sc a) -> good sc k (of_sum r) R.
Proof. destruct r; intros H; [apply good_ret, H; reflexivity|apply good_throw]. Qed.
Lemma good_walk {A} sc k (r : walk A) (R : scope -> A -> Prop) : (forall a, r = Known a -> R sc a) -> good sc k (of_walk r) R.
Proof.
  destruct r; intros H; cbn [of_walk]; [apply good_ret, H; reflexivity|intros s _ _; exact I|apply good_fuel].
Qed.
Lemma good_get {A} sc k (f : state W -> M A) R :
  (forall s, @sound_state sc W s -> k <= length (st_stack s) -> post sc k R s (f s s)) -> good sc k (bind get f) R.
Proof. intros H s Hs Hk. apply H; assumption. Qed.

(** A change of the heap only *)
Lemma same_heap sc sc' k s h : @sound_state sc W s -> @sound_heap sc' h -> steps sc sc' (st_heap s) h -> same sc sc' k s (set_heap s h).
Proof.
  intros Hs Hh K. apply (state_up (steps_sub _ _ _ _ K)) in Hs. destruct Hs as (S1 & S2 & S3 & S4). split; [|reflexivity].
  split; [repeat split; try assumption; apply Hh|].
  split; [repeat split; auto|]. split; [exact K|]. exists []. cbn. rewrite app_nil_r. reflexivity.
Qed.

(** The scope in which a new iterator may be mentioned too *)
Definition widened (sc : scope) (h h' : heap) : scope :=
  mkscope (fun i => @sc_iter sc i \/ length (h_iters h) <= i < length (h_iters h')) (@sc_cell sc).
Lemma widened_sub sc h h' : sub sc (widened sc h h').
Proof. split; cbn; auto. Qed.
Lemma widened_steps sc h h' : @keeps (widened sc h h') h h' -> steps sc (widened sc h h') h h'.
Proof.
  intros (A & B & C & D & E). split; [|split; [apply widened_sub|split; cbn; auto]].
  split; [exact A|]. repeat split; auto. intros i N L. apply B; [|exact L]. cbn. intros [H|H]; [contradiction|lia].
Qed.
Lemma good_lift sc k f :
  (forall sc', sub sc sc' -> forall h w, @sound_heap sc' h -> @kept sc' W h (f h w)) -> good sc k (lift f) (@sound).
Proof.
  intros H s Hs Hk. unfold lift.
  assert (H' : forall sc', sub sc sc' -> @kept sc' W (st_heap s) (f (st_heap s) (st_world s))).
  { intros sc' Hsub. apply H; [exact Hsub|]. apply (heap_up Hsub), Hs. }
  assert (G : forall sc' (x : heap * W), @sound_heap sc' (fst x) -> steps sc sc' (st_heap s) (fst x) ->
    same sc sc' k s (set_world (set_heap s (fst x)) (snd x))).
  { intros sc' x A B. pose proof (same_heap sc sc' k s (fst x) Hs A B) as [(C1 & C2 & C3) C4]. split; [|exact C4].
    split; [exact C1|]. split; [exact C2|exact C3]. }
  destruct (f (st_heap s) (st_world s)) as [v x|p x|z x|c|]; cbn; auto.
  - exists (widened sc (st_heap s) (fst x)). destruct (H' _ (widened_sub sc (st_heap s) (fst x))) as [A B].
    destruct A as [A1 A2]; [intros L; right; lia|]. split; [exact A1|]. apply G; [exact A2|]. apply widened_steps, B.
  - exists sc. destruct (H' sc (sub_refl sc)) as (A & B). apply (G sc x); [exact A|apply steps_keeps, B].
  - apply (H' sc (sub_refl sc)).
Qed.

(** ** Memory *)
Lemma slot_in s ix : ix < length (st_stack s) -> exists x : vslot, nth_error (st_stack (W := W) s) ix = Some x.
Proof.
  intros H. destruct (nth_error (st_stack s) ix) as [x|] eqn:E; [eauto|]. apply nth_error_None in E. lia.
Qed.
Lemma slot_sound sc s x ix : @sound_state sc W s -> nth_error (st_stack s) ix = Some x -> @sound_slot sc x.
Proof. intros (S1 & _) H. apply nth_error_In in H. rewrite Forall_forall in S1. exact (S1 _ H). Qed.
Lemma slot_value_sound sc s x ix : @sound_state sc W s -> nth_error (st_stack s) ix = Some x -> @sound sc (slot_value (st_heap s) x).
Proof.
  intros Hs H. pose proof (slot_sound sc s x ix Hs H) as S1.
  destruct x; cbn; [apply S1|apply sound_cell, Hs].
Qed.
Lemma good_fetch sc k ix : ix < k -> good sc k (fetch ix) (@sound).
Proof.
  intros H s Hs Hk. unfold fetch. destruct (slot_in s ix) as [x E]; [lia|]. rewrite E.
  exists sc. split; [eapply slot_value_sound; eassumption|apply same_refl, Hs].
Qed.
Lemma skipn_list_set {A} (l : list A) ix k x : ix < k -> skipn k (list_set l ix x) = skipn k l.
Proof.
  revert ix k. induction l as [|y l IH]; intros [|ix] [|k] H; cbn; try lia; try reflexivity. apply IH. lia.
Qed.
Lemma map_list_set {A B} (f : A -> B) (l : list A) ix x y :
  nth_error l ix = Some y -> f x = f y -> map f (list_set l ix x) = map f l.
Proof.
  revert ix. induction l as [|z l IH]; intros [|ix]; cbn; try discriminate.
  - intros [= ->] E. congruence.
  - intros N E. rewrite (IH ix N E). reflexivity.
Qed.
Lemma stk_slot k s s' ix x y :
  ix < k -> nth_error (st_stack s) ix = Some y -> slot_id x = slot_id y ->
  st_stack s' = list_set (st_stack s) ix x -> st_leaked s' = st_leaked s -> stk k s s'.
Proof.
  intros H N E Es El. unfold stk. rewrite Es, El. split; [rewrite length_list_set; lia|]. split; [auto|]. intros _.
  split; [apply skipn_list_set, H|]. eapply map_list_set; eassumption.
Qed.
Lemma steps_cell_set sc h c v : @sc_cell sc c -> steps sc sc h (cell_set h c v).
Proof.
  intros H. apply steps_keeps. split; [auto|]. split; [reflexivity|]. split; [auto|]. split.
  - intros i N L. cbn. rewrite nth_error_list_set. destruct (Nat.eqb_spec c i) as [->|]; [contradiction|reflexivity].
  - cbn. rewrite length_list_set. auto.
Qed.
Lemma good_store sc k ix v : ix < k -> @sound sc v -> good sc k (store ix v) (fun _ _ => True).
Proof.
  intros H Hv s Hs Hk. unfold store. destruct (slot_in s ix) as [x E]; [lia|]. rewrite E.
  pose proof (slot_sound sc s x ix Hs E) as Sx. destruct x as [id v0|c]; exists sc.
  - destruct Hs as (S1 & S2 & S3 & S4). split; [exact I|]. split; [|reflexivity]. split.
    { repeat split; try assumption; try apply S3. cbn. apply Forall_list_set; [assumption|]. split; [apply Sx|exact Hv]. }
    split; [eapply (stk_slot k s _ ix (Regular id v)); try eassumption; reflexivity|]. split; [apply steps_refl|]. exists []. cbn. rewrite app_nil_r. reflexivity.
  - split; [exact I|]. apply same_heap; [exact Hs|apply sound_cell_set; [apply Hs|exact Hv]|apply steps_cell_set, Sx].
Qed.
Lemma good_capture sc k ix : ix < k -> good sc k (capture ix) (@sc_cell).
Proof.
  intros H s Hs Hk. unfold capture. destruct (slot_in s ix) as [x E]; [lia|]. rewrite E.
  pose proof (slot_sound sc s x ix Hs E) as Sx. destruct x as [id v0|c]; exists sc.
  - destruct Sx as [Si Sv].
    destruct Hs as (S1 & S2 & S3 & S4). split; [exact Si|]. split; [|reflexivity]. split.
    { repeat split; try assumption; try apply S3; cbn; apply Forall_list_set; try assumption; try apply S3. }
    split; [eapply (stk_slot k s _ ix (Closed id)); try eassumption; reflexivity|]. split; [apply steps_cell_set, Si|].
    exists []. cbn. rewrite app_nil_r. reflexivity.
  - split; [exact Sx|apply same_refl, Hs].
Qed.
Lemma good_capture_all sc k l n :
  Forall (fun c => cap_from c < k /\ cap_to c < n) l ->
  good sc k (capture_all l) (fun sc r => Forall (fun x => snd x < n) r /\ Forall (fun x => @sc_cell sc (fst x)) r).
Proof.
  intros H. revert sc. induction H as [|c l [H1 H2] Hl IH]; intros sc; cbn [capture_all]; [apply good_ret; split; constructor|].
  eapply good_bind; [apply good_capture, H1|]. intros sc1 x Hsub Hx. eapply good_bind; [apply IH|]. intros sc2 r Hsub2 [Hr Hr'].
  apply good_ret. split; constructor; try assumption. apply Hsub2, Hx.
Qed.

(** ** The evaluator *)
Definition flow_ok (fn lp : bool) (sc : scope) (f : flow) : Prop :=
  match f with Reg v => @sound sc v | Ret v => fn = true /\ @sound sc v | Brk => lp = true end.
Definition result_ok (fn lp : bool) (sc : scope) (r : flow * spos * value) : Prop :=
  flow_ok fn lp sc (fst (fst r)) /\ @sound sc (snd r).

Definition called (sc : scope) (start : nat) (s : state W) (o : outcome (state W) value) : Prop :=
  match o with
  | Val v s' => exists sc', @sound sc' v /\ @sound_state sc' W s' /\ stk 0 s s' /\ steps sc sc' (st_heap s) (st_heap s') /\
      st_args s' = firstn start (st_args s)
  | Pan _ s' => exists sc', @sound_state sc' W s' /\ stk 0 s s' /\ steps sc sc' (st_heap s) (st_heap s') /\
      exists extra, st_args s' = firstn start (st_args s) ++ extra
  | Crash c => allowed c
  | _ => True
  end.

Record good_evals (E : evals (W := W)) : Prop := {
  g_expr : forall sc u e fn lp k, valid_expr fn lp k e -> good sc k (ev_expr E u e) (result_ok fn lp);
  g_statement : forall sc u st fn lp k, valid_statement fn lp k st -> good sc k (ev_statement E u st) (flow_ok fn lp);
  g_call : forall sc obj f start p s, @sound sc obj -> @sound_func sc f -> @sound_state sc W s -> start <= length (st_args s) ->
    called sc start s (ev_call E obj f start p s);
  g_for : forall sc u ix f p b fn lp k, ix < k -> @sound_func sc f -> each (valid_statement fn true k) b ->
    good sc k (ev_for E u ix f p b) (flow_ok fn lp) }.

Section Step.
Variable E : evals (W := W).
Variable n : nat.
Hypothesis HE : good_evals E.

Lemma good_block sc u b fn lp k : each (valid_statement fn lp k) b -> good sc k (eval_block E u b) (flow_ok fn lp).
Proof.
  revert sc. induction b as [|s b IH]; intros sc; [intros _; apply good_ret; exact I|]. intros [H1 H2].
  destruct b as [|s' b]; [cbn; apply (g_statement _ HE), H1|].
  change (eval_block E u (s :: s' :: b)) with
    (bind (ev_statement E u s) (fun f => match f with Reg _ => eval_block E u (s' :: b) | f => ret f end)).
  eapply good_bind; [apply (g_statement _ HE), H1|]. intros sc1 [v|v|] Hsub Hf; [apply IH, H2|apply good_ret, Hf|apply good_ret, Hf].
Qed.

Lemma good_list sc u es fn lp k : each (valid_expr fn lp k) es ->
  good sc k (eval_list E u es) (fun sc r => match r with inl f => flow_ok fn lp sc f | inr l => Forall (@sound sc) l end).
Proof.
  revert sc. induction es as [|e es IH]; intros sc; cbn [eval_list each]; [intros _; apply good_ret; constructor|]. intros [H1 H2].
  eapply good_bind; [apply (g_expr _ HE), H1|]. intros sc1 [[f p] o] Hsub1 [Hf _]. cbn [fst snd] in Hf.
  destruct f as [v|v|]; [|apply good_ret, Hf|apply good_ret, Hf].
  eapply good_bind; [apply IH, H2|]. intros sc2 [g|l] Hsub2 Hr; apply good_ret; [exact Hr|].
  constructor; [apply (sound_up Hsub2), Hf|assumption].
Qed.

Lemma symbol_put_sound sc k v d : @sound sc v -> Forall (@sound_entry sc) d -> Forall (@sound_entry sc) (symbol_put k v d).
Proof.
  intros Hv Hd. unfold symbol_put. destruct (put_entry _ (VStr k) v d) as [d'| |] eqn:P; try exact Hd.
  eapply put_entry_sound; [exact Hd| |exact Hv|exact P]. exact I.
Qed.
Lemma good_dict sc u kvs d fn lp k : each (fun kv => valid_expr fn lp k (snd kv)) kvs -> Forall (@sound_entry sc) d ->
  good sc k (eval_dict E u kvs d) (fun sc r => match r with inl f => flow_ok fn lp sc f | inr l => Forall (@sound_entry sc) l end).
Proof.
  revert sc d. induction kvs as [|[x e] kvs IH]; intros sc d; cbn [eval_dict each snd]; [intros _ Hd; apply good_ret, Hd|].
  intros [H1 H2] Hd. eapply good_bind; [apply (g_expr _ HE), H1|]. intros sc1 [[f p] o] Hsub [Hf _]. cbn [fst snd] in Hf.
  destruct f as [v|v|]; [|apply good_ret, Hf|apply good_ret, Hf]. apply IH; [exact H2|].
  apply symbol_put_sound; [exact Hf|]. apply (entries_up Hsub), Hd.
Qed.

Lemma nth_z_sound sc h l z v : @sound_heap sc h -> nth_z (arr_get h l) z = Some v -> @sound sc v.
Proof.
  intros Hh. unfold nth_z. destruct (z <? 0)%Z; [discriminate|]. intros N. apply nth_error_In in N.
  pose proof (sound_arr h l Hh) as F. rewrite Forall_forall in F. exact (F _ N).
Qed.
Lemma dict_get_sound sc h l f v : @sound_heap sc h -> dict_get h n l f = Known (Some v) -> @sound sc v.
Proof.
  intros Hh. unfold dict_get. destruct (hash_walk h n LockNone f) as [[]| |]; cbn; try discriminate.
  apply find_entry_sound, sound_dict, Hh.
Qed.

Lemma good_access sc k obj op f fp : @sound sc obj -> good sc k (access n obj op f fp) (@sound).
Proof.
  intros Ho. unfold access. apply good_get. intros s Hs Hk.
  assert (Hh : @sound_heap sc (st_heap s)) by apply Hs.
  assert (HB : forall sc' (r : option value), (forall v, r = Some v -> @sound sc' v) ->
    good sc' k (match r with Some v => ret v | None => throw (PIndexOutOfBounds f fp) end) (@sound)).
  { intros sc' [v|] H; [apply good_ret, H; reflexivity|apply good_throw]. }
  assert (G : forall m : M value, good sc k m (@sound) -> post sc k (@sound) s (m s)) by (intros m Hm; apply Hm; assumption).
  destruct obj as [| |b|z|x|t|l|l|g|d c]; try (apply G, good_throw).
  - destruct f; try (apply G, good_throw). apply (G (match option_map VByte (nth_z t z) with Some v => ret v | None => throw _ end)).
    apply HB. intros v. destruct (nth_z t z); cbn; [|discriminate]. intros [= <-]. exact I.
  - destruct f; try (apply G, good_throw). apply (G (match nth_z (arr_get (st_heap s) l) z with Some v => ret v | None => throw _ end)).
    apply HB. intros v. apply (nth_z_sound sc), Hh.
  - assert (G' : good sc k (bind (of_walk (dict_get (st_heap s) n l f))
        (fun r => match r with Some v => ret v | None => throw (PIndexOutOfBounds f fp) end)) (@sound)).
    { eapply good_bind; [apply (good_walk sc k _ (fun sc r => forall v, r = Some v -> @sound sc v))|intros sc' r _; apply HB].
      intros a Ha v ->. exact (dict_get_sound sc _ _ _ _ Hh Ha). }
    apply (G _ G').
  - assert (G' : good sc k (match error_get d c f with Some v => ret v | None => throw (PIndexOutOfBounds f fp) end) (@sound)).
    { apply HB. intros v. unfold error_get. destruct f; try discriminate. destruct (bytes_eqb s0 _); [intros [= <-]; exact I|].
      destruct (bytes_eqb s0 _); [intros [= <-]; exact Ho|discriminate]. }
    apply (G _ G').
Qed.

(** Arguments are pushed; everything under them stays. *)
Definition pushed {A} (sc : scope) (k : nat) (R : scope -> A -> Prop) (F : scope -> flow -> Prop) (s : state W)
  (o : outcome (state W) (flow + A)) : Prop :=
  match o with
  | Val (inl f) s' => exists sc', F sc' f /\ same sc sc' k s s'
  | Val (inr a) s' => exists sc', R sc' a /\ after sc sc' k s s'
  | Pan _ s' => exists sc', after sc sc' k s s'
  | Crash c => allowed c
  | _ => True
  end.

Lemma set_args_after sc sc' k s s' l : after sc sc' k s s' -> Forall (@sound sc') l -> (exists x, l = st_args s ++ x) ->
  after sc sc' k s (set_args s' l).
Proof.
  intros ((S1 & S2 & S3 & S4) & B & C & _) Hl Hx. split; [repeat split; try assumption; apply S3|]. split; [exact B|]. split; [exact C|exact Hx].
Qed.

Lemma push_args_ok sc u args fn lp k : each (valid_expr fn lp k) args ->
  forall sc0 s0 s, after sc sc0 k s0 s -> k <= length (st_stack s) ->
  match push_args E u (length (st_args s0)) args s with
  | Val (Some f) s' => exists sc', flow_ok fn lp sc' f /\ same sc sc' k s0 s'
  | Val None s' => exists sc', after sc sc' k s0 s' /\ sub sc0 sc'
  | Pan _ s' => exists sc', after sc sc' k s0 s'
  | Crash c => allowed c
  | _ => True
  end.
Proof.
  induction args as [|e args IH]; intros V sc0 s0 s Ha Hk; cbn [push_args]; [exists sc0; split; [exact Ha|apply sub_refl]|]. destruct V as [V1 V2].
  pose proof (g_expr _ HE sc0 u e fn lp k V1 s (proj1 Ha) Hk) as He. unfold bind at 1.
  destruct (ev_expr E u e s) as [[[f p] o] s1|p s1|z s1|c|]; cbn in He |- *; auto.
  - destruct He as (sc1 & [Hf Ho] & [Hsame Hargs]). cbn [fst snd] in *.
    assert (A1 : after sc sc1 k s0 s1) by exact (after_trans _ _ _ _ _ _ _ Ha Hsame).
    assert (K1 : k <= length (st_stack s1)) by exact (after_frame _ _ _ _ _ Hk Hsame).
    pose proof A1 as ((S1 & S2 & S3 & S4) & A2 & A3 & x & A4).
    destruct f as [v|v|]; cbn.
    + assert (A5 : after sc sc1 k s0 (set_args s1 (st_args s1 ++ [v]))).
      { apply set_args_after; [exact A1| |].
        * apply Forall_app. split; [exact S2|repeat constructor; exact Hf].
        * exists (x ++ [v]). rewrite A4, app_assoc. reflexivity. }
      pose proof (IH V2 sc1 s0 _ A5 K1) as R.
      destruct (push_args E u (length (st_args s0)) args (set_args s1 (st_args s1 ++ [v]))) as [[f|] s2|q s2|z s2|c|]; auto.
      destruct R as (sc2 & R1 & R2). exists sc2. split; [exact R1|].
      exact (sub_trans _ _ _ (after_sub _ _ _ _ _ Hsame) R2).
    + exists sc1. split; [exact Hf|]. split; [|cbn; rewrite A4, firstn_app, Nat.sub_diag, firstn_all, app_nil_r; reflexivity].
      apply set_args_after; [exact A1| |].
      * rewrite <- (firstn_skipn (length (st_args s0))) in S2. apply Forall_app in S2. apply S2.
      * exists []. rewrite A4, firstn_app, Nat.sub_diag, firstn_all. reflexivity.
    + exists sc1. split; [exact Hf|]. split; [|cbn; rewrite A4, firstn_app, Nat.sub_diag, firstn_all, app_nil_r; reflexivity].
      apply set_args_after; [exact A1| |].
      * rewrite <- (firstn_skipn (length (st_args s0))) in S2. apply Forall_app in S2. apply S2.
      * exists []. rewrite A4, firstn_app, Nat.sub_diag, firstn_all. reflexivity.
  - destruct He as (sc1 & He). exists sc1. exact (after_trans _ _ _ _ _ _ _ Ha He).
Qed.

Lemma prepare_ok sc u f args fn lp k s : valid_expr fn lp k f -> each (valid_expr fn lp k) args ->
  @sound_state sc W s -> k <= length (st_stack s) ->
  pushed sc k (fun sc r => @sound sc (fst (fst r)) /\ @sound_func sc (snd (fst r)) /\ snd r = length (st_args s)) (flow_ok fn lp) s
    (prepare_call E u f args s).
Proof.
  intros Vf Va Hs Hk. unfold prepare_call. pose proof (g_expr _ HE sc u f fn lp k Vf s Hs Hk) as He. unfold bind at 1.
  destruct (ev_expr E u f s) as [[[fl p] o] s1|p s1|z s1|c|]; cbn in He |- *; auto.
  destruct He as (sc1 & [Hf Ho] & Hsame). cbn [fst snd] in *.
  assert (K1 : k <= length (st_stack s1)) by exact (after_frame _ _ _ _ _ Hk (proj1 Hsame)).
  destruct fl as [v|v|]; try (exists sc1; split; [exact Hf|exact Hsame]).
  destruct v as [| | | | | | | |g|]; try (exists sc1; apply Hsame).
  cbn. unfold bind at 1. rewrite (proj2 Hsame).
  pose proof (push_args_ok sc u args fn lp k Va sc1 s s1 (proj1 Hsame) K1) as P.
  destruct (push_args E u (length (st_args s)) args s1) as [[fl|] s2|p2 s2|z s2|c|]; cbn in P |- *; auto.
  destruct P as (sc2 & P1 & P2). exists sc2. split; [|exact P1].
  split; [exact (sound_up P2 _ Ho)|]. split; [exact (func_up P2 _ Hf)|reflexivity].
Qed.

Lemma good_ev_call sc sc' k obj g start p s s0 :
  @sound sc' obj -> @sound_func sc' g -> start = length (st_args s0) -> after sc sc' k s0 s ->
  post sc k (@sound) s0 (ev_call E obj g start p s).
Proof.
  intros Ho Hg -> Ha. pose proof Ha as (S1 & A2 & A3 & x & A4).
  pose proof (g_call _ HE sc' obj g (length (st_args s0)) p s Ho Hg S1) as C.
  assert (F : firstn (length (st_args s0)) (st_args s) = st_args s0).
  { rewrite A4, firstn_app, Nat.sub_diag, firstn_all. cbn. apply app_nil_r. }
  assert (L : length (st_args s0) <= length (st_args s)) by (rewrite A4, app_length; lia).
  specialize (C L). destruct (ev_call E obj g (length (st_args s0)) p s) as [v s'|e s'|z s'|c|]; cbn in C |- *; auto.
  - destruct C as (sc2 & C1 & C2 & C3 & C4 & C5). exists sc2. split; [exact C1|]. split; [|congruence]. split; [exact C2|].
    split; [eapply stk_trans; [exact A2|apply stk_weaken, C3]|]. split; [exact (steps_trans _ _ _ _ _ _ A3 C4)|].
    exists []. rewrite app_nil_r. congruence.
  - destruct C as (sc2 & C2 & C3 & C4 & y & C5). exists sc2. split; [exact C2|].
    split; [eapply stk_trans; [exact A2|apply stk_weaken, C3]|]. split; [exact (steps_trans _ _ _ _ _ _ A3 C4)|].
    exists y. congruence.
Qed.

Lemma good_call_expr sc u f args p fn lp k : valid_expr fn lp k f -> each (valid_expr fn lp k) args ->
  good sc k (bind (prepare_call E u f args) (fun r => match r with
          | inr (obj, g, start) => bind (ev_call E obj g start (at_ u p)) (fun v => ret (Reg v))
          | inl f => ret f end)) (flow_ok fn lp).
Proof.
  intros Vf Va s Hs Hk. pose proof (prepare_ok sc u f args fn lp k s Vf Va Hs Hk) as P. unfold bind at 1.
  destruct (prepare_call E u f args s) as [[fl|[[obj g] start]] s1|e s1|z s1|c|]; cbn in P |- *; auto.
  destruct P as (sc1 & (P1 & P2 & P3) & P4). cbn in P1, P2, P3.
  pose proof (good_ev_call sc sc1 k obj g start (at_ u p) s1 s P1 P2 P3 P4) as C. unfold bind.
  destruct (ev_call E obj g start (at_ u p) s1) as [v s2|e s2|z s2|c|]; cbn in C |- *; auto.
Qed.

Lemma arithmetic_sound sc op p l lp r rp v : arithmetic_op op p l lp r rp = inl v -> @sound sc v.
Proof.
  unfold arithmetic_op. destruct l; try discriminate; destruct r; try discriminate.
  - unfold int_op, checked. destruct op;
    repeat match goal with |- context [if ?b then _ else _] => destruct b end; try discriminate; intros [= <-]; exact I.
  - intros [= <-]. exact I.
Qed.
Lemma ord_sound sc op l lp r rp v : ord_op op l lp r rp = inl v -> @sound sc v.
Proof. unfold ord_op. destruct l; try discriminate; destruct r; try discriminate; intros [= <-]; exact I. Qed.
Lemma concat_sound sc l lp r rp v : concat_op l lp r rp = inl v -> @sound sc v.
Proof. unfold concat_op. destruct l; try discriminate; destruct r; try discriminate; intros [= <-]; exact I. Qed.

Lemma good_equal sc k a b (f : bool -> bool) :
  good sc k (bind get (fun s => bind (of_walk (eqv (st_heap s) n false a b)) (fun e => ret (VBool (f e))))) (@sound).
Proof.
  apply good_get. intros s Hs Hk.
  assert (G : good sc k (bind (of_walk (eqv (st_heap s) n false a b)) (fun e => ret (VBool (f e)))) (@sound)).
  { eapply (good_bind sc k _ _ (fun _ _ => True)); [apply good_walk; intros; exact I|]. intros sc' e _ _. apply good_ret. exact I. }
  exact (G s Hs Hk).
Qed.

Lemma good_binary sc u l op r p fn lp k : valid_expr fn lp k l -> valid_expr fn lp k r ->
  good sc k (eval_binary E n u l op r p) (flow_ok fn lp).
Proof.
  intros Vl Vr. unfold eval_binary. eapply good_bind; [apply (g_expr _ HE), Vl|]. intros sc1 [[fl pl] o] _ [Hf _]. cbn [fst snd] in Hf.
  destruct fl as [a|v|]; [|apply good_ret, Hf|apply good_ret, Hf].
  assert (R : forall kk : value -> spos -> M value, (forall sc b q, @sound sc b -> good sc k (kk b q) (@sound)) ->
    good sc1 k (bind (ev_expr E u r) (fun '(fr, rp, _) => match fr with
       | Reg b => bind (kk b rp) (fun v => ret (Reg v)) | f => ret f end)) (flow_ok fn lp)).
  { intros kk Hkk. eapply good_bind; [apply (g_expr _ HE), Vr|]. intros sc2 [[fr pr] o'] _ [Hr _]. cbn [fst snd] in Hr.
    destruct fr as [b|v|]; [|apply good_ret, Hr|apply good_ret, Hr]. eapply good_bind; [apply Hkk, Hr|]. intros sc3 v _ Hv. apply good_ret, Hv. }
  assert (R2 : good sc1 k (bind (ev_expr E u r) (fun '(fr, rp, _) => match fr with
       | Reg b => bind (match b with VBool _ => ret b | _ => throw (PTypeError b (bs "bool") rp) end) (fun v => ret (Reg v))
       | f => ret f end)) (flow_ok fn lp)).
  { apply (R (fun b rp => match b with VBool _ => ret b | _ => throw (PTypeError b (bs "bool") rp) end)). intros sc2 b q Hb.
    destruct b; try apply good_throw. apply good_ret, Hb. }
  assert (RA : good sc1 k (bind (ev_expr E u r) (fun '(fr, rp, _) => match fr with
       | Reg b => bind (of_sum (arithmetic_op op p a pl b rp)) (fun v => ret (Reg v)) | f => ret f end)) (flow_ok fn lp)).
  { apply (R (fun b rp => of_sum (arithmetic_op op p a pl b rp))). intros. apply good_sum. intros v. apply arithmetic_sound. }
  assert (RO : good sc1 k (bind (ev_expr E u r) (fun '(fr, rp, _) => match fr with
       | Reg b => bind (of_sum (ord_op op a pl b rp)) (fun v => ret (Reg v)) | f => ret f end)) (flow_ok fn lp)).
  { apply (R (fun b rp => of_sum (ord_op op a pl b rp))). intros. apply good_sum. intros v. apply ord_sound. }
  destruct op; try exact RA; try exact RO.
  - apply (R (fun b _ => bind get (fun s => bind (of_walk (eqv (st_heap s) n false a b)) (fun e => ret (VBool e))))).
    intros sc2 b q _. apply (good_equal sc2 k a b (fun e => e)).
  - apply (R (fun b _ => bind get (fun s => bind (of_walk (eqv (st_heap s) n false a b)) (fun e => ret (VBool (negb e)))))).
    intros sc2 b q _. apply (good_equal sc2 k a b negb).
  - destruct a as [|[|]| | | | | | | |]; try apply good_throw; [exact R2|apply good_ret; exact I].
  - destruct a as [|[|]| | | | | | | |]; try apply good_throw; [apply good_ret; exact I|exact R2].
  - apply (R (fun b rp => of_sum (concat_op a pl b rp))). intros. apply good_sum. intros v. apply concat_sound.
Qed.

Lemma good_alloc sc k f : (forall h, @sound_heap sc h -> @sound sc (fst (f h)) /\ @sound_heap sc (snd (f h)) /\
    h_iters (snd (f h)) = h_iters h /\ h_cells (snd (f h)) = h_cells h) ->
  good sc k (alloc (W := W) f) (@sound).
Proof.
  intros H s Hs Hk. unfold alloc. destruct (H (st_heap s) (proj1 (proj2 (proj2 Hs)))) as (A & B & C & D).
  destruct (f (st_heap s)) as [v h]. cbn in *. exists sc. split; [exact A|]. apply same_heap; [exact Hs|exact B|].
  apply steps_keeps, keeps_iters; assumption.
Qed.

Lemma good_plain sc u k p fn lp (m : M flow) :
  good sc k m (flow_ok fn lp) -> good sc k (bind m (fun f => ret (f, at_ u p, VNil))) (result_ok fn lp).
Proof. intros H. eapply good_bind; [exact H|]. intros sc' f _ Hf. apply good_ret. split; [exact Hf|exact I]. Qed.

Lemma good_eval_expr sc u e fn lp k : valid_expr fn lp k e -> good sc k (eval_expr X O E n u e) (result_ok fn lp).
Proof.
  destruct e as [ix p|l p|s p|es p|kvs p|params fi b p|op e p|l op r p|c t e p|o f p|f args p|b p];
  cbn [eval_expr valid_expr]; intros V; try apply good_plain.
  - eapply good_bind; [apply good_fetch, V|]. intros sc1 v _ Hv. apply good_ret, Hv.
  - apply good_ret. destruct l; exact I.
  - apply good_ret. exact I.
  - eapply good_bind; [apply good_list, V|]. intros sc1 [f|l] _ Hr; [apply good_ret, Hr|].
    eapply good_bind; [apply good_alloc|intros sc2 v _ Hv; apply good_ret, Hv]. intros h Hh. split; [exact I|]. split; [|split; reflexivity].
    apply sound_new_arr; assumption.
  - eapply good_bind; [apply good_dict; [exact V|constructor]|]. intros sc1 [f|l] _ Hr; [apply good_ret, Hr|].
    eapply good_bind; [apply good_alloc|intros sc2 v _ Hv; apply good_ret, Hv]. intros h Hh. split; [exact I|]. split; [|split; reflexivity].
    apply sound_new_dict; assumption.
  - destruct V as [(V1 & V2 & _ & V4) Vb]. eapply good_bind.
    + apply (good_capture_all sc k _ (fi_slots fi)). eapply Forall_impl; [|exact V2]. intros c [A B]. split; [exact A|]. lia.
    + intros sc1 ctx _ [Hc Hc']. apply good_ret. cbn. repeat split; try assumption.
      eapply Forall_impl; [|exact V4]. cbn. intros; lia.
  - destruct V as [Vt Ve]. eapply good_bind; [apply (g_expr _ HE), Ve|]. intros sc1 [[f q] o] _ [Hf _]. cbn [fst snd] in Hf.
    destruct f as [v|v|]; [|apply good_ret, Hf|apply good_ret, Hf]. apply good_sum. intros g.
    unfold unary_op_value. destruct op; destruct v; try discriminate; intros [= <-]; cbn; auto.
  - destruct V as [Vl Vr]. apply good_binary; assumption.
  - destruct V as (Vc & Vt & Ve). eapply good_bind; [apply (g_expr _ HE), Vc|]. intros sc1 [[f q] o] _ [Hf _]. cbn [fst snd] in Hf.
    destruct f as [v|v|]; [|apply good_ret, Hf|apply good_ret, Hf]. destruct v as [|b| | | | | | | |]; try apply good_throw.
    apply good_block. destruct b; assumption.
  - destruct V as [Vo Vf]. eapply good_bind; [apply (g_expr _ HE), Vo|]. intros sc1 [[fo q] o'] _ [Hf _]. cbn [fst snd] in Hf.
    destruct fo as [v|v|]; [|apply good_ret; split; [exact Hf|exact I]|apply good_ret; split; [exact Hf|exact I]].
    eapply good_bind; [apply (g_expr _ HE), Vf|]. intros sc2 [[ff q'] o''] Hsub [Hff _]. cbn [fst snd] in Hff.
    destruct ff as [w|w|]; [|apply good_ret; split; [exact Hff|exact I]|apply good_ret; split; [exact Hff|exact I]].
    eapply good_bind; [apply good_access, (sound_up Hsub), Hf|]. intros sc3 x Hsub' Hx. apply good_ret. split; [exact Hx|].
    exact (sound_up (sub_trans _ _ _ Hsub Hsub') _ Hf).
  - destruct V as [Vf Va]. apply good_call_expr; assumption.
  - intros s Hs Hk.
    assert (G : good sc k (bind (lift (eval_command_block X O
       (fun ix => option_map (slot_value (st_heap s)) (nth_error (st_stack s) ix)) (u_path u) b (at_ u p)))
       (fun v => ret (Reg v))) (flow_ok fn lp)); [|exact (G s Hs Hk)].
    eapply good_bind; [apply good_lift|intros sc1 v _ Hv; apply good_ret, Hv]. intros sc' Hsub h w Hh.
    eapply command_kept; [|exact V|exact Hh]. intros i Hi.
    destruct (slot_in s i) as [x ->]; [lia|]. eexists. reflexivity.
Qed.

Lemma good_assign sc k obj op f fp v p : @sound sc f -> @sound sc v -> good sc k (assign_field n obj op f fp v p) (fun _ _ => True).
Proof.
  intros Hf Hv. unfold assign_field. apply good_get. intros s Hs Hk.
  assert (Hh : @sound_heap sc (st_heap s)) by apply Hs.
  assert (HP : forall h, @sound_heap sc h -> h_iters h = h_iters (st_heap s) -> h_cells h = h_cells (st_heap s) ->
    post sc k (fun _ _ => True) s (put (set_heap s h) s)).
  { intros h A B C. exists sc. split; [exact I|]. apply same_heap; [exact Hs|exact A|apply steps_keeps, keeps_iters; assumption]. }
  assert (HT : forall e, post sc k (fun _ (_ : unit) => True) s (throw e s)) by (intros e; apply (good_throw sc k e _ s Hs Hk)).
  destruct obj as [| | | | | |l|l| |]; try apply HT.
  - destruct f; try apply HT. destruct (Z.of_nat (length (arr_get (st_heap s) l)) <=? z)%Z; [apply HT|].
    destruct (z <? 0)%Z; [apply HT|]. apply HP; try reflexivity. apply sound_arr_set; [exact Hh|].
    apply Forall_list_set; [apply sound_arr, Hh|exact Hv].
  - unfold dict_put. unfold bind. destruct (hash_walk (st_heap s) n (LockDict l) f) as [[]| |]; cbn; try exact I.
    destruct (put_entry _ f v (dict_entries (st_heap s) l)) as [d| |] eqn:P; cbn; try exact I.
    apply HP; try reflexivity. apply sound_dict_set; [exact Hh|]. eapply put_entry_sound; [apply sound_dict, Hh|exact Hf|exact Hv|exact P].
Qed.

Lemma good_eval_statement sc u st fn lp k : valid_statement fn lp k st -> good sc k (eval_statement E n u st) (flow_ok fn lp).
Proof.
  destruct st as [l r|e| |c b|ix e b|e]; cbn [eval_statement valid_statement]; intros V.
  - destruct V as [Vl Vr]. eapply good_bind; [apply (g_expr _ HE), Vr|]. intros sc1 [[f p] o] _ [Hf _]. cbn [fst snd] in Hf.
    destruct f as [v|v|]; [|apply good_ret, Hf|apply good_ret, Hf]. destruct l as [ix q|oe fe q]; cbn in Vl.
    + eapply good_bind; [apply good_store; [exact Vl|exact Hf]|]. intros sc2 _ _ _. apply good_ret. exact I.
    + destruct Vl as [Vo Vf]. eapply good_bind; [apply (g_expr _ HE), Vo|]. intros sc2 [[fo p'] o'] Hs2 [Hfo _]. cbn [fst snd] in Hfo.
      destruct fo as [vo|vo|]; [|apply good_ret, Hfo|apply good_ret, Hfo].
      eapply good_bind; [apply (g_expr _ HE), Vf|]. intros sc3 [[ff p''] o''] Hs3 [Hff _]. cbn [fst snd] in Hff.
      destruct ff as [vf|vf|]; [|apply good_ret, Hff|apply good_ret, Hff].
      eapply good_bind; [apply good_assign; [exact Hff|exact (sound_up (sub_trans _ _ _ Hs2 Hs3) _ Hf)]|].
      intros sc4 _ _ _. apply good_ret. exact I.
  - destruct V as [Vfn Ve]. eapply good_bind; [apply (g_expr _ HE), Ve|]. intros sc1 [[f p] o] _ [Hf _]. cbn [fst snd] in Hf.
    apply good_ret. destruct f; cbn in *; auto.
  - apply good_ret. exact V.
  - destruct V as [Vc Vb]. eapply good_bind; [apply (g_expr _ HE), Vc|]. intros sc1 [[f p] o] _ [Hf _]. cbn [fst snd] in Hf.
    destruct f as [v|v|]; [|apply good_ret, Hf|apply good_ret, Hf]. destruct v as [|[|]| | | | | | | |]; try apply good_throw; [|apply good_ret; exact I].
    eapply good_bind; [apply (good_block sc1 u b fn true k Vb)|]. intros sc2 [w|w|] _ Hw.
    + apply (g_statement _ HE). split; assumption.
    + apply good_ret, Hw.
    + apply good_ret. exact I.
  - destruct V as (Vi & Ve & Vb). eapply good_bind; [apply (g_expr _ HE), Ve|]. intros sc1 [[f p] o] _ [Hf _]. cbn [fst snd] in Hf.
    destruct f as [v|v|]; [|apply good_ret, Hf|apply good_ret, Hf]. destruct v as [| | | | | | | |g|]; try apply good_throw.
    apply (g_for _ HE); assumption.
  - eapply good_bind; [apply (g_expr _ HE), V|]. intros sc1 [[f p] o] _ [Hf _]. apply good_ret, Hf.
Qed.

Lemma good_eval_for sc u ix g p b fn lp k : ix < k -> @sound_func sc g -> each (valid_statement fn true k) b ->
  good sc k (eval_for E n u ix g p b) (flow_ok fn lp).
Proof.
  intros Hi Hg Vb. unfold eval_for.
  eapply (good_bind sc k (bind get (fun s => ev_call E VNil g (length (st_args s)) p))
    (fun r => match r with
      | VDict l =>
      let field (k : bytes) : M value :=
        bind get (fun s => bind (of_walk (dict_get (st_heap s) n l (VStr k))) (fun r =>
        match r with Some v => ret v | None => throw (PIndexOutOfBounds (VStr k) p) end)) in
      bind (field (bs "finished")) (fun finished =>
      match finished with
      | VBool true => ret (Reg VNil)
      | VBool false =>
          bind (field (bs "value")) (fun v => bind (store ix v) (fun _ => bind (eval_block E u b) (fun f =>
          match f with
          | Reg _ => ev_for E u ix g p b
          | Ret v => ret (Ret v)
          | Brk => ret (Reg VNil)
          end)))
      | v => throw (PTypeError v (bs "bool") p)
      end)
  | v => throw (PTypeError v (bs "dict") p)
  end) (@sound)).
  - apply good_get. intros s Hs Hk. apply (good_ev_call sc sc); try assumption; try exact I; try reflexivity. apply (same_refl sc k s Hs).
  - intros sc1 r Hs1 Hr. destruct r as [| | | | | | |l| |]; try apply good_throw.
    assert (HF : forall sc x, good sc k (bind get (fun s => bind (of_walk (dict_get (st_heap s) n l (VStr x))) (fun r =>
        match r with Some v => ret v | None => throw (PIndexOutOfBounds (VStr x) p) end))) (@sound)).
    { intros sc' x. apply good_get. intros s Hs Hk.
      assert (G : good sc' k (bind (of_walk (dict_get (st_heap s) n l (VStr x))) (fun r =>
        match r with Some v => ret v | None => throw (PIndexOutOfBounds (VStr x) p) end)) (@sound)); [|exact (G s Hs Hk)].
      eapply good_bind; [apply (good_walk sc' k _ (fun sc r => forall v, r = Some v -> @sound sc v))|].
      - intros a Ha v ->. eapply dict_get_sound; [apply Hs|exact Ha].
      - intros sc2 [v|] _ Hv; [apply good_ret, Hv; reflexivity|apply good_throw]. }
    cbv zeta. eapply good_bind; [apply HF|]. intros sc2 fin Hs2 _.
    destruct fin as [|[|]| | | | | | | |]; try apply good_throw; [apply good_ret; exact I|].
    eapply good_bind; [apply HF|]. intros sc3 v Hs3 Hv. eapply good_bind; [apply good_store; assumption|]. intros sc4 _ Hs4 _.
    eapply good_bind; [apply (good_block sc4 u b fn true k Vb)|]. intros sc5 [w|w|] Hs5 Hw.
    + apply (g_for _ HE); try assumption. apply (func_up Hs5), (func_up Hs4), (func_up Hs3), (func_up Hs2), (func_up Hs1), Hg.
    + apply good_ret, Hw.
    + apply good_ret. exact I.
Qed.

(** ** Calls *)

(** Leaving a frame of [k] slots *)
Definition left (sc sc' : scope) (k : nat) (s s' : state W) : Prop :=
  @sound_state sc' W s' /\ steps sc sc' (st_heap s) (st_heap s') /\
  length (st_stack s) <= k + length (st_stack s') /\
  (st_leaked s = true -> st_leaked s' = true) /\
  (st_leaked s' = false -> st_stack s' = skipn k (st_stack s)) /\
  exists extra, st_args s' = st_args s ++ extra.
Definition left_post {A} (sc : scope) (k : nat) (R : scope -> A -> Prop) (s : state W) (o : outcome (state W) A) : Prop :=
  match o with
  | Val a s' => exists sc', R sc' a /\ left sc sc' k s s' /\ st_args s' = st_args s
  | Pan _ s' => exists sc', left sc sc' k s s'
  | Crash c => allowed c
  | _ => True
  end.

Lemma Forall_skipn {A} (P : A -> Prop) j l : Forall P l -> Forall P (skipn j l).
Proof. intros H. rewrite <- (firstn_skipn j l) in H. apply Forall_app in H. apply H. Qed.
Lemma Forall_firstn {A} (P : A -> Prop) j l : Forall P l -> Forall P (firstn j l).
Proof. intros H. rewrite <- (firstn_skipn j l) in H. apply Forall_app in H. apply H. Qed.

Lemma shrink_left sc sc' k s s' : k <= length (st_stack s) -> after sc sc' k s s' -> left sc sc' k s (shrink k s').
Proof.
  intros Hk ((S1 & S2 & S3 & S4) & (A1 & A2 & A3) & K & x). split.
  { repeat split; try assumption; try apply S3. cbn. apply Forall_skipn, S1. }
  split; [exact K|]. split; [cbn; rewrite skipn_length; lia|]. split; [exact A2|]. split; [|exact x].
  cbn. intros L. apply A3, L.
Qed.
Lemma good_finish {A} sc k (m : M A) R s : good sc k m R -> @sound_state sc W s -> k <= length (st_stack s) ->
  left_post sc k R s (finish k m s).
Proof.
  intros H Hs Hk. specialize (H s Hs Hk). unfold finish. destruct (m s) as [a s'|e s'|z s'|c|]; cbn in H |- *; auto.
  - destruct H as (sc' & Ra & [Ha Hargs]). exists sc'. split; [exact Ra|]. split; [apply shrink_left; assumption|exact Hargs].
  - destruct H as (sc' & H). exists sc'. apply shrink_left; assumption.
Qed.

Lemma tail_call_ok sc u k f args p fn lp s : valid_expr fn lp k f -> each (valid_expr fn lp k) args ->
  @sound_state sc W s -> k <= length (st_stack s) ->
  left_post sc k (flow_ok fn lp) s (tail_call E u k f args p s).
Proof.
  intros Vf Va Hs Hk. unfold tail_call. pose proof (prepare_ok sc u f args fn lp k s Vf Va Hs Hk) as P.
  destruct (prepare_call E u f args s) as [[fl|[[obj g] start]] s1|e s1|z s1|c|]; cbn in P |- *; auto.
  - destruct P as (sc1 & P1 & [P2 P3]). exists sc1. split; [exact P1|]. split; [apply shrink_left; assumption|exact P3].
  - destruct P as (sc1 & (P1 & P2 & P3) & P4). cbn in P1, P2, P3. pose proof (shrink_left sc sc1 k s s1 Hk P4) as L.
    destruct L as (L1 & L2 & L3 & L4 & L5 & x & L6).
    assert (F : firstn start (st_args (shrink k s1)) = st_args s).
    { rewrite L6, P3, firstn_app, Nat.sub_diag, firstn_all. cbn. apply app_nil_r. }
    assert (Ls : start <= length (st_args (shrink k s1))) by (rewrite L6, app_length; lia).
    pose proof (g_call _ HE sc1 obj g start (at_ u p) (shrink k s1) P1 P2 L1 Ls) as C. unfold bind.
    assert (J : forall sc' s', @sound_state sc' W s' -> stk 0 (shrink k s1) s' -> steps sc1 sc' (st_heap (shrink k s1)) (st_heap s') ->
      (exists y, st_args s' = firstn start (st_args (shrink k s1)) ++ y) -> left sc sc' k s s').
    { intros sc' s' A1 (B1 & B2 & B3) A3 [y A4]. split; [exact A1|]. split; [exact (steps_trans _ _ _ _ _ _ L2 A3)|]. split; [lia|].
      split; [auto|]. split; [|exists y; congruence].
      intros Lk. destruct (B3 Lk) as [B4 _]. cbn [skipn] in B4. rewrite B4. apply L5.
      destruct (st_leaked (shrink k s1)); [rewrite B2 in Lk; auto|reflexivity]. }
    destruct (ev_call E obj g start (at_ u p) (shrink k s1)) as [v s2|e s2|z s2|c|]; cbn in C |- *; auto.
    + destruct C as (sc2 & C1 & C2 & C3 & C4 & C5). exists sc2. split; [exact C1|]. split; [|rewrite C5; exact F].
      apply J; try assumption. exists []. rewrite app_nil_r. exact C5.
    + destruct C as (sc2 & C2 & C3 & C4 & C5). exists sc2. apply J; assumption.
  - destruct P as (sc1 & P). exists sc1. apply shrink_left; assumption.
Qed.

Lemma body_ok sc u k b s : each (valid_statement true false k) b -> @sound_state sc W s -> k <= length (st_stack s) ->
  left_post sc k (flow_ok true false) s (eval_body tail E u k b s).
Proof.
  revert sc s. induction b as [|st b IH]; intros sc s V Hs Hk.
  - cbn [eval_body]. apply good_finish; try assumption. apply good_ret. exact I.
  - destruct V as [V1 V2]. destruct b as [|st' b].
    + cbn [eval_body].
      assert (D : left_post sc k (flow_ok true false) s (finish k (ev_statement E u st) s)).
      { apply good_finish; try assumption. apply (g_statement _ HE), V1. }
      destruct tail; [|exact D].
      destruct st as [l r|e| |c b|ix e b|e]; try exact D.
      * destruct e as [ix p|l p|x p|es p|kvs p|params fi b p|op e p|l op r p|c t e p|o f p|f args p|b p]; try exact D.
        destruct V1 as [_ [Vf Va]]. pose proof (tail_call_ok sc u k f args p true false s Vf Va Hs Hk) as T. unfold bind.
        destruct (tail_call E u k f args p s) as [f' s1|e s1|z s1|c|]; cbn in T |- *; auto.
        destruct T as (sc1 & T1 & T2). exists sc1. split; [|exact T2]. destruct f'; cbn in *; auto.
      * destruct e as [ix p|l p|x p|es p|kvs p|params fi b p|op e p|l op r p|c t e p|o f p|f args p|b p]; try exact D.
        destruct V1 as [Vf Va]. apply (tail_call_ok sc u k f args p true false s Vf Va Hs Hk).
    + change (eval_body tail E u k (st :: st' :: b) s) with
        (match ev_statement E u st s with
         | Val (Reg _) s1 => eval_body tail E u k (st' :: b) s1
         | Val f s1 => Val f (shrink k s1)
         | Pan p s1 => Pan p (shrink k s1)
         | r => r
         end).
      pose proof (g_statement _ HE sc u st true false k V1 s Hs Hk) as G.
      destruct (ev_statement E u st s) as [f s1|e s1|z s1|c|]; cbn in G; auto.
      * destruct G as (sc1 & Gf & [Ga Gargs]).
        destruct f as [v|v|].
        -- assert (K1 : k <= length (st_stack s1)) by exact (after_frame _ _ _ _ _ Hk Ga).
           pose proof (IH sc1 s1 V2 (proj1 Ga) K1) as B. pose proof Ga as (_ & (A1 & A2 & A3) & A4 & _).
           assert (J : forall sc' s', left sc1 sc' k s1 s' -> left sc sc' k s s').
           { intros sc' s' (B1 & B2 & B3 & B4 & B5 & y & B6). split; [exact B1|]. split; [exact (steps_trans _ _ _ _ _ _ A4 B2)|].
             split; [lia|]. split; [auto|]. split; [|exists y; congruence]. intros L. rewrite (B5 L). apply A3.
             destruct (st_leaked s1); [rewrite B4 in L; auto|reflexivity]. }
           destruct (eval_body tail E u k (st' :: b) s1) as [f s2|e s2|z s2|c|]; cbn in B |- *; auto.
           ++ destruct B as (sc2 & B1 & B2 & B3). exists sc2. split; [exact B1|]. split; [apply J, B2|congruence].
           ++ destruct B as (sc2 & B). exists sc2. apply J, B.
        -- exists sc1. split; [exact Gf|]. split; [apply shrink_left; assumption|exact Gargs].
        -- exists sc1. split; [exact Gf|]. split; [apply shrink_left; assumption|exact Gargs].
      * destruct G as (sc1 & G). exists sc1. apply shrink_left; assumption.
Qed.

(** Filling the slots of a new frame *)
Definition framed (sc sc' : scope) (k : nat) (s s' : state W) : Prop :=
  @sound_state sc' W s' /\ steps sc sc' (st_heap s) (st_heap s') /\ st_args s' = st_args s /\
  length (st_stack s') = k + length (st_stack s) /\ skipn k (st_stack s') = st_stack s /\
  st_leaked s' = st_leaked s.

Lemma map_app_skip {A} (l r : list A) : skipn (length l) (l ++ r) = r.
Proof. induction l; cbn; auto. Qed.
(** The scope with the variables of a new frame *)
Definition with_slots (sc : scope) (h : heap) (k : nat) : scope :=
  mkscope (@sc_iter sc) (fun c => @sc_cell sc c \/ length (h_cells h) <= c < length (h_cells h) + k).
Lemma with_slots_sub sc h k : sub sc (with_slots sc h k).
Proof. split; cbn; auto. Qed.
Lemma extend_ok sc k p s : @sound_state sc W s ->
  match Runtime.extend X eager k p s with
  | Val _ s' => framed sc (with_slots sc (st_heap s) k) k s s'
  | Pan _ s' => s' = s
  | _ => False
  end.
Proof.
  intros Hs. apply (state_up (with_slots_sub sc (st_heap s) k)) in Hs. revert Hs.
  intros (S1 & S2 & (S3 & S5 & S6 & S7) & S4). unfold Runtime.extend. destruct (overflows X _); [reflexivity|].
  assert (L : length (map (new_slot eager) (seq (length (h_cells (st_heap s))) k)) = k)
    by (rewrite map_length, seq_length; reflexivity).
  split.
  { split; [|split; [assumption|split; [split; [|split; [|split]]; assumption || idtac|assumption]]]; cbn.
    - apply Forall_app. split; [|exact S1]. apply Forall_forall. intros x Hx. apply in_map_iff in Hx.
      destruct Hx as (i & <- & Hi). apply in_seq in Hi. unfold new_slot. destruct eager; cbn; [right; lia|split; [right; lia|exact I]].
    - apply Forall_app. split; [exact S3|]. apply Forall_forall. intros x Hx. apply repeat_spec in Hx. subst. exact I. }
  split.
  { split; [|split; [apply with_slots_sub|split; cbn; auto]].
    - split; [auto|]. repeat split; cbn; auto; [|rewrite app_length; lia]. intros c _ Hc. apply nth_error_app1, Hc.
    - intros c. rewrite app_length, repeat_length. auto. }
  split; [reflexivity|]. cbn [st_stack]. split; [rewrite app_length, L; reflexivity|].
  split; [|reflexivity]. rewrite <- L at 1. apply map_app_skip.
Qed.
Lemma framed_same sc sc' k s s1 s2 : framed sc sc' k s s1 -> st_leaked s2 = st_leaked s1 -> length (st_stack s2) = length (st_stack s1) ->
  skipn k (st_stack s2) = skipn k (st_stack s1) -> @sound_state sc' W s2 -> steps sc' sc' (st_heap s1) (st_heap s2) ->
  st_args s2 = st_args s1 -> framed sc sc' k s s2.
Proof.
  intros (A1 & A2 & A3 & A4 & A5 & A6) B1 B2 B3 B4 B5 B6. split; [exact B4|]. split; [exact (steps_trans _ _ _ _ _ _ A2 B5)|].
  repeat split; congruence.
Qed.
Lemma store_framed sc sc' k ix v s s1 : ix < k -> @sound sc' v -> framed sc sc' k s s1 ->
  exists s2, store ix v s1 = Val tt s2 /\ framed sc sc' k s s2.
Proof.
  intros H Hv F. assert (K : k <= length (st_stack s1)) by (destruct F as (_ & _ & _ & L & _); lia).
  pose proof (proj1 F) as Hs. pose proof Hs as (S1 & S2 & S3 & S4). unfold store. destruct (slot_in s1 ix) as [x E']; [lia|].
  rewrite E'. pose proof (slot_sound sc' s1 x ix Hs E') as Sx.
  destruct x as [id v0|c]; eexists; (split; [reflexivity|]).
  - eapply framed_same; [exact F|reflexivity| | | |apply steps_refl|reflexivity]; cbn; rewrite ?length_list_set; try reflexivity;
      [apply skipn_list_set, H|]. repeat split; try assumption; try apply S3. cbn. apply Forall_list_set; [exact S1|].
    split; [apply Sx|exact Hv].
  - eapply framed_same; [exact F|reflexivity|reflexivity|reflexivity| |apply steps_cell_set, Sx|reflexivity].
    repeat split; try assumption; apply sound_cell_set; assumption.
Qed.
Lemma store_all_framed sc sc' k s l : forall ix s1, ix + length l <= k -> Forall (@sound sc') l -> framed sc sc' k s s1 ->
  exists s2, store_all ix l s1 = Val tt s2 /\ framed sc sc' k s s2.
Proof.
  induction l as [|v l IH]; intros ix s1 H Hl F; cbn [store_all].
  - exists s1. split; [reflexivity|exact F].
  - inversion Hl; subst. cbn in H. destruct (store_framed sc sc' k ix v s s1) as (s2 & E2 & F2); [lia|assumption|exact F|].
    unfold bind. rewrite E2. apply IH; [lia|assumption|exact F2].
Qed.
Lemma place_all_framed sc sc' k s l : forall s1, Forall (fun x => snd x < k) l -> Forall (fun x => @sc_cell sc' (fst x)) l ->
  framed sc sc' k s s1 -> exists s2, place_all l s1 = Val tt s2 /\ framed sc sc' k s s2.
Proof.
  induction l as [|[c ix] l IH]; intros s1 Hl Hc F; cbn [place_all].
  - exists s1. split; [reflexivity|exact F].
  - inversion Hl; inversion Hc; subst. cbn in *. unfold bind, place.
    destruct (slot_in s1 ix) as [x E']; [destruct F as (_ & _ & _ & L & _); lia|]. rewrite E'. apply IH; [assumption|assumption|].
    eapply framed_same; [exact F|reflexivity| | | |apply steps_refl|reflexivity]; cbn.
    + apply length_list_set.
    + apply skipn_list_set. assumption.
    + destruct F as ((S1 & S2 & S3 & S4) & _). repeat split; try assumption; try apply S3. cbn. apply Forall_list_set; [exact S1|assumption].
Qed.

Lemma call_hush_ok sc obj unit params fi body ctx fp start p s :
  @sound sc obj -> @sound_func sc (FHush unit params fi body ctx fp) -> @sound_state sc W s -> start <= length (st_args s) ->
  called sc start s (call_hush X tail eager E obj unit params fi body ctx fp start p s).
Proof.
  intros Ho (V1 & V2 & V3 & V4 & V5) Hs Hstart. pose proof Hs as (S1 & S2 & S3 & S4).
  unfold call_hush. cbn [bind get put].
  set (s0 := set_args s (firstn start (st_args s))).
  assert (H0 : @sound_state sc W s0) by (repeat split; try assumption; try apply S3; cbn; apply Forall_firstn, S2).
  destruct (Nat.eqb_spec (length (skipn start (st_args s))) params) as [Lp|].
  2:{ cbn. exists sc. split; [exact H0|]. split; [repeat split; auto|]. split; [apply steps_refl|]. exists []. cbn. rewrite app_nil_r. reflexivity. }
  unfold bind at 1. pose proof (extend_ok sc (fi_slots fi) p s0 H0) as Ex.
  destruct (Runtime.extend X eager (fi_slots fi) p s0) as [t s1|e s1|z s1|c|]; try contradiction.
  2:{ subst s1. cbn. exists sc. split; [exact H0|]. split; [repeat split; auto|]. split; [apply steps_refl|]. exists []. cbn. rewrite app_nil_r. reflexivity. }
  set (sc1 := with_slots sc (st_heap s0) (fi_slots fi)) in Ex.
  assert (Hsub : sub sc sc1) by apply with_slots_sub.
  destruct (store_all_framed sc sc1 (fi_slots fi) s0 (skipn start (st_args s)) 0 s1) as (s2 & E2 & F2);
    [cbn; lia|apply Forall_skipn, (values_up Hsub), S2|exact Ex|]. unfold bind at 1. rewrite E2.
  assert (V6 : Forall (fun x => @sc_cell sc1 (fst x)) ctx) by (eapply Forall_impl; [|exact V5]; intros x; apply Hsub).
  destruct (place_all_framed sc sc1 (fi_slots fi) s0 ctx s2 V2 V6 F2) as (s3 & E3 & F3). unfold bind at 1. rewrite E3.
  assert (F4 : exists s4, match fi_self fi with Some ix => store ix obj | None => ret tt end s3 = Val tt s4 /\ framed sc sc1 (fi_slots fi) s0 s4).
  { destruct (fi_self fi) as [ix|]; [|exists s3; split; [reflexivity|exact F3]]. cbn in V3. inversion V3; subst.
    apply store_framed; try assumption. exact (sound_up Hsub _ Ho). }
  destruct F4 as (s4 & E4 & F4). unfold bind at 1. rewrite E4.
  destruct F4 as (G1 & G2 & G3 & G4 & G5 & G6).
  assert (K : fi_slots fi <= length (st_stack s4)) by lia.
  pose proof (body_ok sc1 (mkuinfo unit (sp_path fp)) (fi_slots fi) body s4 V4 G1 K) as B.
  assert (J : forall sc' s', left sc1 sc' (fi_slots fi) s4 s' -> @sound_state sc' W s' /\ stk 0 s s' /\ steps sc sc' (st_heap s) (st_heap s') /\
      exists extra, st_args s' = firstn start (st_args s) ++ extra).
  { intros sc' s' (B1 & B2 & B3 & B4 & B5 & y & B6). split; [exact B1|]. split.
    - split; [cbn in G4; lia|]. split; [intros L; apply B4; rewrite G6; exact L|]. intros L. rewrite (B5 L), G5.
      cbn. split; reflexivity.
    - split; [exact (steps_trans _ _ _ _ _ _ G2 B2)|]. exists y. rewrite B6, G3. reflexivity. }
  unfold bind. destruct (eval_body tail E _ (fi_slots fi) body s4) as [f s5|e s5|z s5|c|]; cbn in B |- *; auto.
  - destruct B as (sc2 & B1 & B2 & B3). destruct (J sc2 s5 B2) as (J1 & J2 & J3 & _).
    destruct f as [v|v|]; cbn in B1 |- *; [| |discriminate]; exists sc2.
    + split; [exact B1|]. split; [exact J1|]. split; [exact J2|]. split; [exact J3|]. rewrite B3, G3. reflexivity.
    + destruct B1 as [_ B1]. split; [exact B1|]. split; [exact J1|]. split; [exact J2|]. split; [exact J3|]. rewrite B3, G3. reflexivity.
  - destruct B as (sc2 & B). exists sc2. apply J, B.
Qed.

Lemma left_stk sc sc1 sc2 k s0 s s' : framed sc sc1 k s0 s -> left sc1 sc2 k s s' -> stk 0 s0 s'.
Proof.
  intros (G1 & G2 & G3 & G4 & G5 & G6) (B1 & B2 & B3 & B4 & B5 & _). split; [lia|]. split; [intros L; apply B4; congruence|].
  intros L. rewrite (B5 L), G5. cbn. auto.
Qed.

(** A program: leaves its slots behind when it panics *)
Definition ran_program (sc : scope) (s : state W) (o : outcome (state W) value) : Prop :=
  match o with
  | Val v s' => exists sc', @sound sc' v /\ @sound_state sc' W s' /\ stk 0 s s' /\ steps sc sc' (st_heap s) (st_heap s') /\ st_args s' = st_args s
  | Pan _ s' => exists sc', @sound_state sc' W s' /\ stk 0 s s' /\ steps sc sc' (st_heap s) (st_heap s') /\ exists x, st_args s' = st_args s ++ x
  | Crash c => allowed c
  | _ => True
  end.
Definition ran_main (sc : scope) (s : state W) (o : outcome (state W) value) : Prop :=
  match o with
  | Val v s' => exists sc', @sound sc' v /\ @sound_state sc' W s' /\ stk 0 s s' /\ steps sc sc' (st_heap s) (st_heap s') /\ st_args s' = st_args s
  | Pan _ s' => exists sc', @sound_state sc' W s' /\ (length (st_stack s) <= length (st_stack s') /\ (st_leaked s = true -> st_leaked s' = true)) /\
      steps sc sc' (st_heap s) (st_heap s') /\ exists x, st_args s' = st_args s ++ x
  | Crash c => allowed c
  | _ => True
  end.
Lemma program_ok sc u prog s : valid_program prog -> @sound_state sc W s -> ran_main sc s (eval_program X eager E u prog s).
Proof.
  intros [V1 V2] Hs. unfold eval_program. unfold bind at 1. pose proof (extend_ok sc (pr_root_slots prog) (at_ u (mkpos 0 0)) s Hs) as Ex.
  destruct (Runtime.extend X eager _ _ s) as [t s1|e s1|z s1|c|]; try contradiction.
  2:{ subst s1. cbn. exists sc. split; [exact Hs|]. split; [auto|]. split; [apply steps_refl|]. exists []. rewrite app_nil_r. reflexivity. }
  set (sc1 := with_slots sc (st_heap s) (pr_root_slots prog)) in Ex.
  destruct (store_framed sc sc1 (pr_root_slots prog) 0 std_value s s1) as (s2 & E2 & F2); [exact V1|exact I|exact Ex|].
  unfold bind at 1. rewrite E2. pose proof F2 as (G1 & G2 & G3 & G4 & G5 & G6).
  assert (K : pr_root_slots prog <= length (st_stack s2)) by lia.
  pose proof (good_block sc1 u (pr_statements prog) false false (pr_root_slots prog) V2 s2 G1 K) as B.
  destruct (eval_block E u (pr_statements prog) s2) as [f s3|e s3|z s3|c|]; cbn in B |- *; auto.
  - destruct B as (sc2 & B1 & [B2 B3]). destruct f as [v|v|]; cbn in B1; [|destruct B1; discriminate|discriminate].
    pose proof (shrink_left _ _ _ _ _ K B2) as L. cbn. exists sc2. split; [exact B1|]. split; [apply L|].
    split; [exact (left_stk _ _ _ _ _ _ _ F2 L)|]. split; [exact (steps_trans _ _ _ _ _ _ G2 (proj1 (proj2 L)))|]. cbn. congruence.
  - destruct B as (sc2 & (S1 & S2 & S3 & S4) & (A1 & A2 & A3) & A4 & x & A5). exists sc2. split; [repeat split; try assumption; apply S3|].
    split; [split; [cbn; lia|intros L; apply A2; congruence]|]. split; [exact (steps_trans _ _ _ _ _ _ G2 A4)|].
    exists x. cbn. congruence.
Qed.

Lemma load_ok sc path p s : @sound_state sc W s -> ran_program sc s (load X eager E path p s).
Proof.
  intros Hs. unfold load. cbn [bind get].
  assert (HT : forall e, ran_program sc s (throw e s)).
  { intros e. cbn. exists sc. split; [exact Hs|]. split; [apply stk_refl|]. split; [apply steps_refl|]. exists []. rewrite app_nil_r. reflexivity. }
  destruct (x_file X path (st_world s)) as [e|text]; [apply HT|].
  destruct (analyze text) as [b les pes| |] eqn:A; [|exact I|exact I].
  destruct les as [|]; [|apply HT]. destruct pes as [|]; [|apply HT].
  destruct (sema b) as [prog|es|] eqn:S; [|apply HT|exfalso; exact (sema_no_crash b S)].
  - pose proof (text_valid _ _ _ _ A S) as V. unfold bind at 1, put.
    match goal with |- ran_program _ _ (_ ?x) => set (s1 := x) end.
    assert (H1 : @sound_state sc W s1) by exact Hs.
    pose proof (program_ok sc (mkuinfo (st_units s) path) prog s1 V H1) as R. unfold leaking.
    destruct (eval_program X eager E (mkuinfo (st_units s) path) prog s1) as [v s2|e s2|z s2|c|]; try exact R.
    destruct R as (sc' & (T1 & T2 & T3 & T4) & [R1 R2] & R3 & R4). exists sc'. split; [repeat split; try assumption; apply T3|].
    split; [split; [exact R1|split; [reflexivity|discriminate]]|]. split; [exact R3|exact R4].
Qed.

Lemma module_sound sc path l v : Forall (fun m : bytes * value => @sound sc (snd m)) l -> module_get path l = Some v -> @sound sc v.
Proof.
  induction 1 as [|[k x] l Hx Hl IH]; cbn; [discriminate|]. destruct (bytes_eqb path k); [intros [= <-]; exact Hx|exact IH].
Qed.

Lemma import_ok sc t p s : @sound_state sc W s -> ran_program sc s (import X eager E t p s).
Proof.
  intros Hs. unfold import. cbn [bind get].
  assert (HT : forall e, ran_program sc s (throw e s)).
  { intros e. cbn. exists sc. split; [exact Hs|]. split; [apply stk_refl|]. split; [apply steps_refl|]. exists []. rewrite app_nil_r. reflexivity. }
  destruct (x_resolve X t (sp_path p) (st_world s)) as [e|path]; [apply HT|].
  destruct (module_get path (st_modules s)) as [v|] eqn:M.
  - cbn. exists sc. split; [eapply module_sound; [apply Hs|exact M]|]. split; [exact Hs|]. split; [apply stk_refl|]. split; [apply steps_refl|reflexivity].
  - unfold bind at 1. pose proof (load_ok sc path p s Hs) as L.
    destruct (load X eager E path p s) as [v s1|e s1|z s1|c|]; cbn in L |- *; auto.
    destruct L as (sc1 & L1 & (S1 & S2 & S3 & S4) & L3 & L4 & L5). exists sc1. split; [exact L1|].
    split; [repeat split; try assumption; try apply S3; cbn; constructor; assumption|]. split; [exact L3|]. split; assumption.
Qed.

(** A native call before its arguments are dropped *)
Definition native_post (sc : scope) (start : nat) (s : state W) (o : outcome (state W) value) : Prop :=
  match o with
  | Val v s' => exists sc', @sound sc' v /\ @sound_state sc' W s' /\ stk 0 s s' /\ steps sc sc' (st_heap s) (st_heap s') /\
      firstn start (st_args s') = firstn start (st_args s)
  | Pan _ s' => exists sc', @sound_state sc' W s' /\ stk 0 s s' /\ steps sc sc' (st_heap s) (st_heap s') /\
      firstn start (st_args s') = firstn start (st_args s)
  | Crash c => allowed c
  | _ => True
  end.
Lemma firstn_prefix {A} j (l x : list A) : j <= length l -> firstn j (l ++ x) = firstn j l.
Proof. intros H. rewrite firstn_app. replace (j - length l) with 0 by lia. cbn. apply app_nil_r. Qed.

Lemma native_ok sc g start p s : @sound_native sc g -> @sound_state sc W s -> start <= length (st_args s) ->
  native_post sc start s (native_body X eager E n g (skipn start (st_args s)) start p s).
Proof.
  intros Hg Hs Hst. pose proof Hs as (S1 & S2 & S3 & S4).
  assert (SA : Forall (@sound sc) (skipn start (st_args s))) by (apply Forall_skipn, S2).
  assert (HT : forall e, native_post sc start s (throw e s)).
  { intros e. cbn. exists sc. split; [exact Hs|]. split; [apply stk_refl|]. split; [apply steps_refl|reflexivity]. }
  assert (HK : forall obj f start', @sound sc obj -> @sound_func sc f -> start <= start' <= length (st_args s) ->
    native_post sc start s (ev_call E obj f start' p s)).
  { intros obj f start' Ho Hf [HL HL']. pose proof (g_call _ HE sc obj f start' p s Ho Hf Hs HL') as C.
    destruct (ev_call E obj f start' p s) as [v s'|e s'|z s'|c|]; cbn in C |- *; auto.
    - destruct C as (sc1 & C1 & C2 & C3 & C4 & C5). exists sc1. repeat (split; [assumption|]).
      rewrite C5, firstn_firstn. f_equal. lia.
    - destruct C as (sc1 & C2 & C3 & C4 & y & C5). exists sc1. repeat (split; [assumption|]).
      rewrite C5, firstn_prefix, firstn_firstn by (rewrite firstn_length; lia). f_equal. lia. }
  assert (HL : native_post sc start s (lift (native_call X n args_value g (skipn start (st_args s)) p) s)).
  { assert (G : good sc 0 (lift (native_call X n args_value g (skipn start (st_args s)) p)) (@sound)).
    { apply good_lift. intros sc' Hsub h w Hh. apply native_call_kept; try assumption;
        [exact (native_up Hsub _ Hg)|exact (values_up Hsub _ SA)|exact I]. }
    specialize (G s Hs (Nat.le_0_l _)). destruct (lift _ s) as [v s'|e s'|z s'|c|]; cbn in G |- *; auto.
    - destruct G as (sc1 & G1 & [(G2 & G3 & G4 & _) G5]). exists sc1. repeat (split; [assumption|]). congruence.
    - destruct G as (sc1 & G2 & G3 & G4 & y & G5). exists sc1. repeat (split; [assumption|]).
      rewrite G5. apply firstn_prefix, Hst. }
  destruct g as [f|o f|a st|t st|st|st to step|st to step|f pt|st]; try exact HL.
  - destruct f; try exact HL; unfold native_body.
    + destruct (skipn start (st_args s)) as [|a [|a' l]] eqn:EA; [apply HT| |destruct a; apply HT].
      destruct a as [| | | | | | | |g|]; try apply HT. unfold catch.
      assert (LA : length (st_args s) = start + 1).
      { rewrite <- (firstn_skipn start (st_args s)), EA, app_length, firstn_length. cbn. lia. }
      inversion SA as [|? ? Sg _]; subst. cbn in Sg.
      pose proof (HK VNil g (start + 1) I Sg ltac:(lia)) as C.
      destruct (ev_call E VNil g (start + 1) p s) as [v s'|e s'|z s'|c|]; cbn in C |- *; auto.
      pose proof (ShowProofs.panic_text_not_busy X n (st_heap s') e) as NB. destruct (panic_text X n (st_heap s') e); [|congruence|exact Logic.I].
      destruct C as (sc1 & C). exists sc1. split; [exact I|exact C].
    + destruct (skipn start (st_args s)) as [|a [|a' l]] eqn:EA; [apply HT| |destruct a; apply HT].
      destruct a as [| | | | |t| | | |]; try apply HT.
      pose proof (import_ok sc t p s Hs) as R. destruct (import X eager E t p s) as [v s'|e s'|z s'|c|]; cbn in R |- *; auto.
      * destruct R as (sc1 & C1 & C2 & C3 & C4 & C5). exists sc1. repeat (split; [assumption|]). congruence.
      * destruct R as (sc1 & C2 & C3 & C4 & y & C5). exists sc1. repeat (split; [assumption|]).
        rewrite C5. apply firstn_prefix, Hst.
  - destruct Hg as [Ho Hf]. apply (HK o f start Ho Hf). lia.
Qed.

Lemma call_ok sc obj f start p s : @sound sc obj -> @sound_func sc f -> @sound_state sc W s -> start <= length (st_args s) ->
  called sc start s (call X tail eager E n obj f start p s).
Proof.
  intros Ho Hf Hs Hst. destruct f as [unit params fi body ctx fp|g]; cbn [call].
  - apply call_hush_ok; assumption.
  - cbn [bind get]. unfold truncated. pose proof (native_ok sc g start p s Hf Hs Hst) as N.
    destruct (native_body X eager E n g (skipn start (st_args s)) start p s) as [v s'|e s'|z s'|c|]; cbn in N |- *; auto.
    + destruct N as (sc1 & C1 & (T1 & T2 & T3 & T4) & C3 & C4 & C5). exists sc1. split; [exact C1|].
      split; [repeat split; try assumption; try apply T3; cbn; apply Forall_firstn, T2|].
      split; [exact C3|]. split; [exact C4|exact C5].
    + destruct N as (sc1 & (T1 & T2 & T3 & T4) & C3 & C4 & C5). exists sc1.
      split; [repeat split; try assumption; try apply T3; cbn; apply Forall_firstn, T2|]. split; [exact C3|]. split; [exact C4|].
      exists []. rewrite app_nil_r. exact C5.
Qed.
End Step.

Lemma good_no_fuel : good_evals no_fuel.
Proof. split; intros; try (intros s Hs Hk); exact I. Qed.
Lemma good_step E n : good_evals E -> good_evals (step X O tail eager E n).
Proof.
  intros HE. split; cbn [step ev_expr ev_statement ev_call ev_for].
  - intros. apply good_eval_expr; assumption.
  - intros. apply good_eval_statement; assumption.
  - intros. apply call_ok; assumption.
  - intros. apply good_eval_for; assumption.
Qed.
Theorem good_run n : good_evals (run X O tail eager n).
Proof. induction n as [|n IH]; cbn [run]; [apply good_no_fuel|apply good_step, IH]. Qed.
End Sound.
