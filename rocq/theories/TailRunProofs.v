(** Proofs about calls in tail position: C23. *)
From Verif Require Import Base Lexer Ast Parser Program Sema Value Text StdLib Exec Runtime SpecLexer SpecParser SpecSema SpecProgram SpecRun SpecRuntime
  SpecTail SoundLibProofs SemaTextProofs SoundRunProofs ShareRunProofs FuelProofs TailProofs.
#[local] Existing Instance anything.

Section Run.
Context {W : Type}.
Variable X : ext W.
Variable O : os W.

(** ** Programs *)
Lemma set_stack_same (s : state W) l : st_stack s = l -> set_stack s l = s.
Proof. intros <-. destruct s. reflexivity. Qed.
Lemma rel_out_alike {A} kv kp r (R : A -> Prop) (o1 o2 : outcome (state W) A) : rel_out kv kp r r R o1 o2 -> clean_end o1 -> ends_alike o1 o2.
Proof.
  destruct o1 as [a t|p t|z t|c|]; cbn [clean_end rel_out]; try contradiction; intros H L.
  - destruct (H L) as (_ & fr & (P1 & _) & ->). rewrite (set_stack_same t _ P1). cbn. auto.
  - destruct (H L) as (fr & (P1 & _) & ->). rewrite (set_stack_same t _ P1). cbn. auto.
  - destruct (H L) as (st & ->). cbn. eauto.
Qed.

Theorem same_result : honest X -> x_stack_size X = None ->
  forall src b les pr path args w, analyze src = Analysis b les [] -> sema b = SemaOk pr ->
  (forall n, clean_end (run_program X O true false n path pr args w) ->
     exists m, ends_alike (run_program X O true false n path pr args w) (run_program X O false false m path pr args w)) /\
  (forall n, clean_end (run_program X O false false n path pr args w) ->
     exists m, ends_alike (run_program X O false false n path pr args w) (run_program X O true false m path pr args w)).
Proof.
  intros HX NX src b les pr path args w A S. pose proof (text_valid _ _ _ _ A S) as V.
  assert (F : fits X [] []) by (left; exact NX). split; intros n C.
  - exists (3 * n). eapply rel_out_alike; [|exact C].
    exact (mix_program X false _ _ (tail_plain X O false HX n NX) (kls_run X O true false n) (mkuinfo 0 path) pr NX V [] [] [] (initial args w) F (pre_initial args w)).
  - exists n. eapply rel_out_alike; [|exact C].
    exact (mix_program X false _ _ (plain_tail X O false HX n NX) (kls_run X O false false n) (mkuinfo 0 path) pr NX V [] [] [] (initial args w) F (pre_initial args w)).
Qed.

Theorem same_call : honest X -> x_stack_size X = None ->
  forall obj f start p (s : state W), sound obj -> sound_func f -> sound_state s ->
  (forall n, clean_end (ev_call (run X O true false n) obj f start p s) ->
     exists m, ends_alike (ev_call (run X O true false n) obj f start p s) (ev_call (run X O false false m) obj f start p s)) /\
  (forall n, clean_end (ev_call (run X O false false n) obj f start p s) ->
     exists m, ends_alike (ev_call (run X O false false n) obj f start p s) (ev_call (run X O true false m) obj f start p s)).
Proof.
  intros HX NX obj f start p s Ho Hf (S1 & S2). assert (F : fits X (st_stack s) (st_stack s)) by (left; exact NX).
  assert (P : pre 0 (st_stack s) [] s) by (split; [reflexivity|split; [reflexivity|split; [constructor|exact S2]]]).
  assert (Q : forall t l, l = st_stack t -> set_stack (W := W) t l = t) by (intros t l ->; destruct t; reflexivity).
  split; intros n C.
  - exists (3 * n). eapply rel_out_alike; [|exact C].
    pose proof (r_call _ _ _ (tail_plain X O false HX n NX) obj f start p Ho Hf _ _ _ s F P) as H. cbn [app] in H. rewrite (Q s _ eq_refl) in H. exact H.
  - exists n. eapply rel_out_alike; [|exact C].
    pose proof (r_call _ _ _ (plain_tail X O false HX n NX) obj f start p Ho Hf _ _ _ s F P) as H. cbn [app] in H. rewrite (Q s _ eq_refl) in H. exact H.
Qed.

(** ** The outcome of a chain *)
Lemma ole_val {S A} (o o' : outcome S A) a s : ole o o' -> o = Val a s -> o' = Val a s.
Proof. intros [-> | ->]; [discriminate|auto]. Qed.
Lemma completes_body n m u k body last s s' : n <= m -> completes X O n u body s s' ->
  eval_body true (interp X O m) u k (body ++ [last]) s = eval_body true (interp X O m) u k [last] s'.
Proof.
  intros L H. induction H as [s|st b s v s1 s2 H H0 IH]; [reflexivity|].
  rewrite <- IH. pose proof (ole_val _ _ _ _ (el_statement _ _ (run_le X O true false n m L) u st s) H) as E.
  destruct b as [|st' b]; cbn [app eval_body]; fold (interp X O m) in E; unfold interp in E |- *; rewrite E; reflexivity.
Qed.
Lemma pushes_args n m u es start s s' : n <= m -> pushes X O n u es s s' -> push_args (interp X O m) u start es s = Val None s'.
Proof.
  intros L H. induction H as [s|e es s v s1 s2 (q & o & H) H0 IH]; [reflexivity|].
  pose proof (ole_val _ _ _ _ (el_expr _ _ (run_le X O true false n m L) u e s) H) as E.
  cbn [push_args]. unfold bind, get, put. unfold interp in *. rewrite E. exact IH.
Qed.
Theorem tail_outcome n m x y : hands_over X O n x y -> n <= m -> makes X O (S m) (fst x) (snd x) = makes X O m (fst y) (snd y).
Proof.
  intros H L. destruct H as [obj unit params fi body last ctx fp start p s s1 s2 f args q g fq obj' s3 s4 c u B C EC EF P].
  unfold makes, interp. subst c. cbn [fst snd pd_object pd_function pd_start pd_pos run step ev_call call]. fold (interp X O m).
  unfold begins in B. cbn [pd_object pd_function pd_start pd_pos] in B. destruct B as [B1 B2].
  unfold call_hush, get, put. unfold bind in B2 |- *. rewrite B1, Nat.eqb_refl. fold (interp X O m).
  destruct (Runtime.extend X false (fi_slots fi) p _) as [[] t1| | | |]; try discriminate.
  destruct (store_all 0 _ t1) as [[] t2| | | |]; try discriminate.
  destruct (place_all ctx t2) as [[] t3| | | |]; try discriminate.
  rewrite B2. fold u.
  rewrite (completes_body n m u (fi_slots fi) body last s1 s2 L C).
  assert (T : tail_call (interp X O m) u (fi_slots fi) f args q s2 =
    bind (ev_call (interp X O m) obj' g (length (st_args s3)) (at_ u q)) (fun v => ret (Reg v)) (shrink (fi_slots fi) s4)).
  { unfold tail_call, prepare_call. pose proof (ole_val _ _ _ _ (el_expr _ _ (run_le X O true false n m L) u f s2) EF) as E.
    unfold bind, get, ret in *. unfold interp in *. rewrite E. pose proof (pushes_args n m u args (length (st_args s3)) s3 s4 L P) as Q. unfold interp in Q. rewrite Q. reflexivity. }
  destruct EC as [f args q|f args q]; cbn [eval_body]; unfold bind in *; rewrite T; unfold ret; fold (shrink (fi_slots fi) s4);
    destruct (ev_call (interp X O m) obj' g (length (st_args s3)) (at_ u q) (shrink (fi_slots fi) s4)); reflexivity.
Qed.
Theorem chain_outcome n k x y : chain X O n k x y -> forall m, n <= m -> makes X O (k + m) (fst x) (snd x) = makes X O m (fst y) (snd y).
Proof.
  intros H. induction H as [x|k x y z H H0 IH]; intros m L; [reflexivity|]. rewrite <- (IH m L). cbn [Nat.add]. apply (tail_outcome n); [exact H|lia].
Qed.

(** ** The stack of a chain *)
Hypothesis HX : honest X.
Lemma kl_back {A} (m : M (W := W) A) s (a : A) t : kl m -> m s = Val a t -> st_leaked t = false -> st_leaked s = false.
Proof. intros K E L. destruct (st_leaked s) eqn:Q; [|reflexivity]. specialize (K s Q). rewrite E in K. cbn in K. congruence. Qed.
Lemma mix_val {A} k kv kp (m : M (W := W) A) (R : A -> Prop) r fr s a t : mix X k kv kp m m R -> pre k r fr s -> m s = Val a t -> st_leaked t = false ->
  R a /\ exists fr', pre kv r fr' t.
Proof.
  intros H P E L. specialize (H r r fr s (or_intror eq_refl) P). rewrite E in H. destruct (H L) as (Ha & fr' & P' & _). eauto.
Qed.
Definition set_up (c : pending) (fi : frame_info) ctx (args : list value) : M (W := W) unit :=
  bind (Runtime.extend X false (fi_slots fi) (pd_pos c)) (fun _ =>
  bind (store_all 0 args) (fun _ =>
  bind (place_all ctx) (fun _ =>
  match fi_self fi with Some ix => store ix (pd_object c) | None => ret tt end))).
Lemma kl_set_up c fi ctx args : kl (set_up c fi ctx args).
Proof.
  assert (KS : kl (W := W) (A := unit) (match fi_self fi with Some ix => store ix (pd_object c) | None => ret tt end)) by (destruct (fi_self fi); [apply kl_store|apply kl_ret]).
  apply kl_bind; [apply kl_extend|]. intros _. apply kl_bind; [apply kl_store_all|]. intros _. apply kl_bind; [apply kl_place_all|]. intros _. exact KS.
Qed.
Lemma mix_set_up c un params fi body ctx fp args : sound (pd_object c) -> sound_func (FHush un params fi body ctx fp) -> Forall sound args -> length args = params ->
  mix X 0 (fi_slots fi) 0 (set_up c fi ctx args) (set_up c fi ctx args) (fun _ => True).
Proof.
  intros Ho (V1 & V2 & V3 & V4 & V5) Ha La.
  assert (KS : kl (W := W) (A := unit) (match fi_self fi with Some ix => store ix (pd_object c) | None => ret tt end)) by (destruct (fi_self fi); [apply kl_store|apply kl_ret]).
  eapply mix_bind; [apply (mix_extend X false (fi_slots fi))| |].
  2:{ intros _. apply kl_bind; [apply kl_store_all|]. intros _. apply kl_bind; [apply kl_place_all|]. intros _. exact KS. }
  intros _ _. eapply mix_bind; [apply mix_store_all; [lia|exact Ha]| |].
  2:{ intros _. apply kl_bind; [apply kl_place_all|]. intros _. exact KS. }
  intros _ _. eapply mix_bind; [apply mix_place_all; exact V2| |intros _; exact KS].
  intros _ _. destruct (fi_self fi) as [ix|]; [apply mix_store; [inversion V3; assumption|exact Ho]|apply mix_ret; exact I].
Qed.

Lemma begins_stack c (s s1 : state W) : sound_pending c -> sound_state s -> begins X c s s1 -> st_leaked s1 = false ->
  st_leaked s = false /\ exists fr, pre (needs c) (st_stack s) fr s1.
Proof.
  intros [Ho Hf] (S1 & S2 & S3 & S4) B L. unfold begins, needs in *. destruct c as [obj f start p]. cbn [pd_object pd_function pd_start pd_pos] in *.
  destruct f as [un params fi body ctx fp|g]; [|contradiction]. destruct B as [B1 B2].
  split; [exact (kl_back _ _ _ _ (kl_set_up (mkpending obj (FHush un params fi body ctx fp) start p) fi ctx _) B2 L)|].
  assert (P : pre 0 (st_stack s) [] (set_args s (firstn start (st_args s)))).
  { split; [reflexivity|]. split; [reflexivity|]. split; [constructor|]. split; [apply Forall_firstn, S2|split; assumption]. }
  exact (proj2 (mix_val _ _ _ _ _ _ _ _ _ _ (mix_set_up (mkpending obj (FHush un params fi body ctx fp) start p) un params fi body ctx fp _ Ho Hf ltac:(apply Forall_skipn, S2) B1) P B2 L)).
Qed.
Lemma completes_stack n u body fn lp k r s s' : completes X O n u body s s' -> each (valid_statement fn lp k) body ->
  st_leaked s' = false -> st_leaked s = false /\ (forall fr, pre k r fr s -> exists fr', pre k r fr' s').
Proof.
  intros H. induction H as [s|st b s v s1 s2 H H0 IH]; intros V L; [split; eauto|].
  destruct V as [V1 V2]. destruct (IH V2 L) as [L1 K]. split; [exact (kl_back _ _ _ _ (kl_statement _ (kls_run X O true false n) u st) H L1)|].
  intros fr P. destruct (mix_val _ _ _ _ _ _ _ _ _ _ (r_statement _ _ _ (run_local X O false HX true n) u st fn lp k V1) P H L1) as (_ & fr' & P').
  exact (K fr' P').
Qed.
Lemma pushes_stack n u es fn lp k r s s' : pushes X O n u es s s' -> each (valid_expr fn lp k) es ->
  st_leaked s' = false -> st_leaked s = false /\ (forall fr, pre k r fr s -> exists fr', pre k r fr' s').
Proof.
  intros H. induction H as [s|e es s v s1 s2 (q & o & H) H0 IH]; intros V L; [split; eauto|].
  destruct V as [V1 V2]. destruct (IH V2 L) as [L1 K]. cbn in L1. split; [exact (kl_back _ _ _ _ (kl_expr _ (kls_run X O true false n) u e) H L1)|].
  intros fr P. destruct (mix_val _ _ _ _ _ _ _ _ _ _ (r_expr _ _ _ (run_local X O false HX true n) u e fn lp k V1) P H L1) as ([Hv _] & fr' & P').
  apply (K fr'). apply pre_args; [exact P'|]. apply Forall_app. split; [apply P'|repeat constructor; exact Hv].
Qed.
Lemma each_app {A} (P : A -> Prop) l l' : each P (l ++ l') -> each P l /\ each P l'.
Proof. induction l as [|x l IH]; cbn; [auto|]. intros [H K]. destruct (IH K). auto. Qed.

Theorem tail_stack n x y : hands_over X O n x y -> sound_pending (fst x) -> sound_state (snd x) -> st_leaked (snd y) = false ->
  st_leaked (snd x) = false /\ st_stack (snd y) = st_stack (snd x) /\ sound_pending (fst y) /\ sound_state (snd y).
Proof.
  intros H Hc Hs L. destruct H as [obj unit params fi body last ctx fp start p s s1 s2 f args q g fq obj' s3 s4 c u B C EC EF P]. cbn [fst snd] in *.
  cbn [set_stack st_leaked] in L. pose proof Hc as [Ho Hf]. cbn [c pd_object pd_function] in Ho, Hf. pose proof Hf as (V1 & V2 & V3 & V4 & V5).
  apply each_app in V4. destruct V4 as [V4 [VL _]].
  assert (VC : valid_expr true false (fi_slots fi) f /\ each (valid_expr true false (fi_slots fi)) args).
  { destruct EC; cbn in VL; [apply VL|exact VL]. }
  destruct VC as [Vf Va].
  destruct (pushes_stack n u args true false (fi_slots fi) (st_stack s) s3 s4 P Va L) as [L3 K4].
  pose proof (kl_back _ _ _ _ (kl_expr _ (kls_run X O true false n) u f) EF L3) as L2.
  destruct (completes_stack n u body true false (fi_slots fi) (st_stack s) s1 s2 C V4 L2) as [L1 K2].
  destruct (begins_stack c s s1 Hc Hs B L1) as [L0 (fr & P1)]. split; [exact L0|].
  destruct (K2 fr P1) as (fr2 & P2).
  destruct (mix_val _ _ _ _ _ _ _ _ _ _ (r_expr _ _ _ (run_local X O false HX true n) u f true false (fi_slots fi) Vf) P2 EF L3) as ([Hv Ho'] & fr3 & P3).
  destruct (K4 fr3 P3) as (fr4 & P4). cbn [fst snd flow_r] in Hv, Ho'.
  assert (Q : skipn (fi_slots fi) (st_stack s4) = st_stack s).
  { destruct P4 as (-> & E4 & _). apply skipn_app_length, E4. }
  cbn [set_stack st_stack]. split; [exact Q|]. split; [split; assumption|].
  destruct P4 as (_ & _ & _ & C4). destruct Hs as [S1 S2]. split; [cbn [set_stack st_stack]; rewrite Q; exact S1|exact C4].
Qed.
Theorem chain_stack n k x y : chain X O n k x y -> sound_pending (fst x) -> sound_state (snd x) -> st_leaked (snd y) = false ->
  st_leaked (snd x) = false /\ st_stack (snd y) = st_stack (snd x) /\ sound_pending (fst y) /\ sound_state (snd y).
Proof.
  intros H. induction H as [x|k x y z H H0 IH]; intros Hc Hs L; [repeat split; try assumption; try apply Hc; apply Hs|].
  assert (Ly : st_leaked (snd y) = false).
  { clear - H0 L. assert (G : forall k (x y : pending * state W), chain X O n k x y -> st_leaked (snd y) = false -> st_leaked (snd x) = false); [|eapply G; eassumption].
    clear. intros k x y H. induction H as [x|k x y z H H0 IH]; intros L; [exact L|]. specialize (IH L). clear H0 L.
    destruct H as [obj unit params fi body last ctx fp start p s s1 s2 f args q g fq obj' s3 s4 c u B C EC EF P]. cbn [fst snd set_stack st_leaked] in *.
    assert (L3 : st_leaked s3 = false).
    { revert IH. clear - P. induction P as [s|e es s v s1 s2 (q & o & H) H0 IH]; intros L; [exact L|].
      exact (kl_back _ _ _ _ (kl_expr _ (kls_run X O true false n) u e) H (IH L)). }
    pose proof (kl_back _ _ _ _ (kl_expr _ (kls_run X O true false n) u f) EF L3) as L2.
    assert (L1 : st_leaked s1 = false).
    { revert L2. clear - C. induction C as [s|st b s v s1 s2 H H0 IH]; intros L; [exact L|].
      exact (kl_back _ _ _ _ (kl_statement _ (kls_run X O true false n) u st) H (IH L)). }
    unfold begins in B. cbn [c pd_function] in B. destruct B as [B1 B2].
    exact (kl_back _ _ _ _ (kl_set_up c fi ctx _) B2 L1). }
  destruct (tail_stack n x y H Hc Hs Ly) as (A1 & A2 & A3 & A4). destruct (IH A3 A4 L) as (B1 & B2 & B3 & B4).
  split; [exact A1|]. split; [congruence|]. auto.
Qed.

(** ** Overflow *)
Lemma store_done ix v (s : state W) : ix < length (st_stack s) -> exists s', store ix v s = Val tt s' /\ length (st_stack s') = length (st_stack s).
Proof.
  intros L. unfold store. destruct (nth_error (st_stack s) ix) as [[id x|c]|] eqn:E.
  - eexists. split; [reflexivity|]. cbn [set_stack st_stack]. apply length_list_set.
  - eexists. split; reflexivity.
  - apply nth_error_None in E. lia.
Qed.
Lemma store_all_done l : forall ix (s : state W), ix + length l <= length (st_stack s) -> exists s', store_all ix l s = Val tt s' /\ length (st_stack s') = length (st_stack s).
Proof.
  induction l as [|v l IH]; intros ix s L; cbn [store_all]; [exists s; split; reflexivity|]. cbn [length] in L.
  destruct (store_done ix v s ltac:(lia)) as (s1 & E1 & L1). destruct (IH (S ix) s1 ltac:(lia)) as (s2 & E2 & L2).
  exists s2. unfold bind. rewrite E1. split; [exact E2|congruence].
Qed.
Lemma place_all_done l : forall (s : state W), Forall (fun x => snd x < length (st_stack s)) l -> exists s', place_all l s = Val tt s' /\ length (st_stack s') = length (st_stack s).
Proof.
  induction l as [|[c ix] l IH]; intros s L; cbn [place_all]; [exists s; split; reflexivity|]. inversion L as [|? ? L1 L2]; subst. cbn [snd] in L1.
  unfold bind, place. destruct (nth_error (st_stack s) ix) eqn:E; [|apply nth_error_None in E; lia].
  destruct (IH (set_stack s (list_set (st_stack s) ix (Closed c)))) as (s2 & E2 & Q).
  { cbn [set_stack st_stack]. rewrite length_list_set. exact L2. }
  exists s2. split; [exact E2|]. rewrite Q. cbn [set_stack st_stack]. apply length_list_set.
Qed.
Theorem overflow_exactly n c (s : state W) un params fi body ctx fp : pd_function c = FHush un params fi body ctx fp -> sound_pending c ->
  length (skipn (pd_start c) (st_args s)) = params ->
  if overflows X (length (st_stack s) + needs c)
  then makes X O (S n) c s = Pan (PStackOverflow (pd_pos c)) (set_args s (firstn (pd_start c) (st_args s)))
  else exists s1, begins X c s s1.
Proof.
  intros Ef [_ Hf] La. unfold needs, begins, makes, interp. cbn [run step ev_call]. rewrite Ef in *. destruct Hf as (V1 & V2 & V3 & V4 & V5).
  destruct (overflows X (length (st_stack s) + fi_slots fi)) eqn:Ov.
  - cbn [call]. unfold call_hush, bind, get, put. rewrite La, Nat.eqb_refl. unfold Runtime.extend. cbn [set_args st_stack]. rewrite Ov. reflexivity.
  - assert (E : exists s1, Runtime.extend X false (fi_slots fi) (pd_pos c) (set_args s (firstn (pd_start c) (st_args s))) = Val tt s1 /\ length (st_stack s1) = fi_slots fi + length (st_stack s)).
    { unfold Runtime.extend. cbn [set_args st_stack]. rewrite Ov. eexists. split; [reflexivity|]. cbn [st_stack]. rewrite app_length, map_length, seq_length. reflexivity. }
    destruct E as (s1 & E1 & L1). destruct (store_all_done (skipn (pd_start c) (st_args s)) 0 s1 ltac:(lia)) as (s2 & E2 & L2).
    destruct (place_all_done ctx s2) as (s3 & E3 & L3). { eapply Forall_impl; [|exact V2]. cbn. intros. unfold slot, loc in *. lia. }
    assert (E : exists s4, match fi_self fi with Some ix => store ix (pd_object c) | None => ret tt end s3 = Val tt s4).
    { destruct (fi_self fi) as [ix|]; [|exists s3; reflexivity]. inversion V3; subst. destruct (store_done ix (pd_object c) s3) as (s4 & E4 & _); [unfold slot, loc in *; lia|eauto]. }
    destruct E as (s4 & E4). exists s4. split; [exact La|]. unfold bind. rewrite E1, E2, E3. exact E4.
Qed.
Theorem chain_needs n k x y s1 : chain X O n k x y -> sound_pending (fst x) -> sound_state (snd x) -> begins X (fst y) (snd y) s1 -> st_leaked s1 = false ->
  exists fr, st_stack s1 = fr ++ st_stack (snd x) /\ length fr = needs (fst y).
Proof.
  intros H Hc Hs B L. assert (Ly : st_leaked (snd y) = false).
  { unfold begins in B. destruct (pd_function (fst y)); [|contradiction]. exact (kl_back _ _ _ _ (kl_set_up (fst y) _ _ _) (proj2 B) L). }
  destruct (chain_stack n k x y H Hc Hs Ly) as (A1 & A2 & A3 & A4). destruct (begins_stack _ _ _ A3 A4 B L) as (_ & fr & (P1 & P2 & _)).
  exists fr. rewrite <- A2. auto.
Qed.
End Run.
