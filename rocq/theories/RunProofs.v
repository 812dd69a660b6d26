(** Consequences of the soundness of evaluation. *)
From Coq Require Import Strings.String Sorting.Permutation Lia.
From Verif Require Import Base Lexer Ast Parser Program Sema Value Text StdLib Exec Runtime SpecLexer SpecParser SpecSema SpecProgram
  SpecRun SpecRuntime SoundLibProofs SoundRunProofs SemaTextProofs LibProofs.

#[local] Existing Instance anything.
Lemma std_dicts_sound : Forall (Forall sound_entry) std_dicts.
Proof.
  unfold std_dicts. repeat constructor.
Qed.
Lemma initial_sound {W} args (w : W) : sound_state (initial args w).
Proof.
  split; [constructor|]. split; [constructor|]. split; [|constructor].
  split; [constructor|]. split; [|split; [apply std_dicts_sound|constructor]].
  repeat constructor. apply Forall_forall. intros v Hv. apply in_map_iff in Hv. destruct Hv as (x & <- & _). exact I.
Qed.

Lemma run_allowed {W} (X : ext W) (O : os W) src b les p n path args w c :
  honest X -> analyze src = Analysis b les [] -> sema b = SemaOk p ->
  run_program X O true false n path p args w = Crash c -> allowed c.
Proof.
  intros HX A S R. pose proof (text_valid _ _ _ _ A S) as V.
  pose proof (program_ok X false (run X O true false n) (good_run X O true false HX n) anything
    (mkuinfo 0 path) p (initial args w) V (initial_sound args w)) as G.
  unfold run_program in R. rewrite R in G. exact G.
Qed.

Lemma no_invalid_flow {W} (X : ext W) (O : os W) src b les p n path args w :
  honest X -> analyze src = Analysis b les [] -> sema b = SemaOk p ->
  run_program X O true false n path p args w <> Crash CFlow.
Proof. intros HX A S R. apply (run_allowed X O src b les p n path args w CFlow HX A S R). Qed.
Lemma no_missing_slot {W} (X : ext W) (O : os W) src b les p n path args w :
  honest X -> analyze src = Analysis b les [] -> sema b = SemaOk p ->
  run_program X O true false n path p args w <> Crash CSlot.
Proof. intros HX A S R. apply (run_allowed X O src b les p n path args w CSlot HX A S R). Qed.

Lemma call_restores {W} (X : ext W) (O : os W) n obj f start p s s' o :
  honest X -> sound_state s -> sound obj -> sound_func f -> start <= length (st_args s) ->
  ev_call (interp X O n) obj f start p s = o -> finishes o s' -> st_leaked s' = false ->
  st_stack s' = st_stack s /\
  exists extra, st_args s' = firstn start (st_args s) ++ extra /\
    ((exists v, o = Val v s') \/ (exists g, f = FRust g) -> extra = []).
Proof.
  intros HX Hs Ho Hf Hst Hr Hfin Hl.
  pose proof (g_call _ (good_run X O true false HX n) anything obj f start p s Ho Hf Hs Hst) as G.
  unfold interp in Hr. rewrite Hr in G. destruct Hfin as [v s'|e s']; cbn in G.
  - destruct G as (sc' & _ & _ & (_ & _ & A) & _ & B). destruct (A Hl) as [A' _]. split; [exact A'|]. exists [].
    rewrite app_nil_r. auto.
  - destruct G as (sc' & _ & (_ & _ & A) & _ & x & B). destruct (A Hl) as [A' _]. split; [exact A'|]. exists x. split; [exact B|].
    intros [[v E]|[g ->]]; [discriminate|]. destruct n as [|n]; [discriminate|]. cbn in Hr. unfold bind, get, truncated in Hr.
    destruct (native_body X false _ n g _ start p s) as [v t|e' t|z t|c|]; try discriminate. injection Hr as -> <-. cbn in B.
    assert (length x = 0); [|destruct x; [reflexivity|discriminate]].
    apply (f_equal (@length _)) in B. rewrite app_length, !firstn_length in B. lia.
Qed.

Lemma caught {W} (X : ext W) (O : os W) n obj start p s v s' :
  honest X -> sound_state s -> sound obj -> start <= length (st_args s) ->
  ev_call (interp X O n) obj (FRust (NStd SCatch)) start p s = Val v s' -> st_leaked s' = false ->
  st_stack s' = st_stack s /\ st_args s' = firstn start (st_args s).
Proof.
  intros HX Hs Ho Hst Hr Hl.
  destruct (call_restores X O n obj (FRust (NStd SCatch)) start p s s' _ HX Hs Ho I Hst Hr (fin_value _ _) Hl) as (A & x & B & C).
  split; [exact A|]. rewrite B, C; [apply app_nil_r|]. right. eauto.
Qed.

(** Imports that fail before the module is run *)
Lemma import_untouched {W} (X : ext W) (O : os W) n obj t start p (s : state W) :
  skipn start (st_args s) = [VStr t] ->
  match x_resolve X t (sp_path p) (st_world s) with
  | inl _ => True
  | inr path =>
      module_get path (st_modules s) = None /\
      match x_file X path (st_world s) with
      | inl _ => True
      | inr text => exists b les pes, analyze text = Analysis b les pes /\
          (les <> [] \/ pes <> [] \/ exists es, sema b = SemaErrors es)
      end
  end ->
  exists e, ev_call (interp X O (S n)) obj (FRust (NStd SImport)) start p s =
    Pan e (set_args s (firstn start (st_args s))).
Proof.
  intros Ha H. unfold interp. cbn [run step ev_call call]. unfold bind at 1, get. unfold truncated. rewrite Ha.
  unfold native_body, import, bind at 1, get.
  destruct (x_resolve X t (sp_path p) (st_world s)) as [e|path]; [eexists; reflexivity|]. destruct H as [-> H].
  unfold bind at 1, load, bind at 1, get.
  destruct (x_file X path (st_world s)) as [e|text]; [eexists; reflexivity|].
  destruct H as (b & les & pes & -> & H). destruct les as [|l les]; [|eexists; reflexivity].
  destruct pes as [|q pes]; [|eexists; reflexivity]. destruct H as [H|[H|[es ->]]]; try contradiction. eexists; reflexivity.
Qed.

(** Marks of joined blocks *)
Lemma later_keeps {W} (X : ext W) (O : os W) s s' :
  honest X -> later X O s s' -> sound_state s -> sound_state s' /\ keeps (st_heap s) (st_heap s').
Proof.
  intros HX L. induction L as [s|n u st fn lp k s s1 s2 V K F L IH|n obj f start p s s1 s2 So Sf St F L IH]; intros Hs.
  - split; [exact Hs|apply keeps_refl].
  - assert (H : sound_state s1 /\ keeps (st_heap s) (st_heap s1)).
    { pose proof (g_statement _ (good_run X O true false HX n) anything u st fn lp k V s Hs K) as G.
      destruct F as [a t|e t]; cbn in G.
      - destruct G as (sc' & _ & [(A & _ & [B _] & _) _]). split; [exact (state_up (sub_anything sc') _ A)|exact B].
      - destruct G as (sc' & A & _ & [B _] & _). split; [exact (state_up (sub_anything sc') _ A)|exact B]. }
    destruct H as [H1 H2]. destruct (IH H1) as [H3 H4]. split; [exact H3|]. eapply keeps_trans; eassumption.
  - assert (H : sound_state s1 /\ keeps (st_heap s) (st_heap s1)).
    { pose proof (g_call _ (good_run X O true false HX n) anything obj f start p s So Sf Hs St) as G.
      destruct F as [a t|e t]; cbn in G.
      - destruct G as (sc' & _ & A & _ & [B _] & _). split; [exact (state_up (sub_anything sc') _ A)|exact B].
      - destruct G as (sc' & A & _ & [B _] & _). split; [exact (state_up (sub_anything sc') _ A)|exact B]. }
    destruct H as [H1 H2]. destruct (IH H1) as [H3 H4]. split; [exact H3|]. eapply keeps_trans; eassumption.
Qed.

Lemma joined_once {W} (X : ext W) (O : os W) n obj st start p s handle o s1 :
  honest X -> sound_state s -> sound obj -> start <= length (st_args s) ->
  nth_error (h_iters (st_heap s)) st = Some (ISJoin (Some handle)) ->
  ev_call (interp X O (S n)) obj (FRust (NJoin st)) start p s = o -> finishes o s1 ->
  (exists h1 w1, x_join X handle (iter_set (st_heap s) st (ISJoin None)) (st_world s) =
     (match o with Val v _ => inl (v, h1) | Pan e _ => inr e | _ => inr (PInvalidJoin p) end, w1)) /\
  forall s2, later X O s1 s2 -> forall m obj' start' p', 
    ev_call (interp X O (S m)) obj' (FRust (NJoin st)) start' p' s2 =
      Pan (PInvalidJoin p') (set_args s2 (firstn start' (st_args s2))).
Proof.
  intros HX Hs Ho Hst Hi Hr Hfin.
  pose proof (g_call _ (good_run X O true false HX (S n)) anything obj (FRust (NJoin st)) start p s Ho I Hs Hst) as G.
  unfold interp in Hr. rewrite Hr in G.
  assert (S1 : sound_state s1) by (destruct Hfin; cbn in G; destruct G as (sc' & G); apply (state_up (sub_anything sc')), G).
  cbn [run step ev_call call] in Hr. unfold bind, get, truncated in Hr. cbn [native_body] in Hr. unfold lift in Hr.
  cbn [native_call] in Hr. unfold join_call in Hr.
  assert (Ig : iter_get (st_heap s) st = ISJoin (Some handle)) by (apply nth_error_nth; exact Hi).
  rewrite Ig in Hr. set (h0 := iter_set (st_heap s) st (ISJoin None)) in *.
  assert (J0 : joined h0 st).
  { unfold joined, h0. cbn. rewrite SoundLibProofs.nth_error_list_set, Nat.eqb_refl, Hi. reflexivity. }
  destruct (x_join X handle h0 (st_world s)) as [[[v h1]|e] w1] eqn:EJ; cbn in Hr.
  - subst o. inversion Hfin; subst. split; [exists h1, w1; reflexivity|].
    apply (hn_join _ HX) in EJ. destruct EJ as (da & dd & -> & _). intros s2 L m obj' start' p'.
    destruct (later_keeps X O _ _ HX L S1) as [_ [K _]]. specialize (K st J0).
    unfold interp. cbn [run step ev_call call]. unfold bind, get, truncated. cbn [native_body]. unfold lift. cbn [native_call].
    unfold join_call. assert (Ij : iter_get (st_heap s2) st = ISJoin None) by (apply nth_error_nth; exact K). rewrite Ij. cbn.
    destruct s2; reflexivity.
  - subst o. inversion Hfin; subst. split; [exists h0, w1; reflexivity|]. intros s2 L m obj' start' p'.
    destruct (later_keeps X O _ _ HX L S1) as [_ [K _]]. specialize (K st J0).
    unfold interp. cbn [run step ev_call call]. unfold bind, get, truncated. cbn [native_body]. unfold lift. cbn [native_call].
    unfold join_call. assert (Ij : iter_get (st_heap s2) st = ISJoin None) by (apply nth_error_nth; exact K). rewrite Ij. cbn.
    destruct s2; reflexivity.
Qed.

(** The states that are reached are sound. *)
Lemma reached_sound {W} (X : ext W) (O : os W) : honest X ->
  (forall args (w : W), sound_state (initial args w)) /\
  (forall s s' : state W, later X O s s' -> sound_state s -> sound_state s') /\
  (forall src b les p n path args w (s' : state W), analyze src = Analysis b les [] -> sema b = SemaOk p ->
     finishes (run_program X O true false n path p args w) s' -> sound_state s').
Proof.
  intros HX. split; [exact initial_sound|]. split; [intros s s' L Hs; apply (later_keeps X O s s' HX L Hs)|].
  intros src b les p n path args w s' A S F. pose proof (text_valid _ _ _ _ A S) as V.
  pose proof (program_ok X false (run X O true false n) (good_run X O true false HX n) anything
    (mkuinfo 0 path) p (initial args w) V (initial_sound args w)) as G.
  unfold run_program in F. destruct F as [v t|e t]; cbn in G; destruct G as (sc' & G); apply (state_up (sub_anything sc')), G.
Qed.
