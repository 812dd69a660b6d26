(** Code without loops and calls ends: C111. *)
From Coq Require Import Strings.String List Lia.
From Verif Require Import Base Lexer Ast Program Value StdLib Exec Runtime SpecSema SpecProgram SpecRuntime SpecEnds FuelProofs.
Import ListNotations.

Definition flat (v : value) : Prop := match v with VArr _ | VDict _ | VErr _ _ | VFun _ => False | _ => True end.
Definition known {A} (w : walk A) : Prop := match w with Known _ => True | _ => False end.

Lemma eqv_flat_l h n b v w : flat v -> known (eqv h (S n) b v w).
Proof. destruct v; cbn; try contradiction; intros _; destruct w; exact I. Qed.
Lemma eqv_flat_r h n b v w : flat w -> known (eqv h (S n) b v w).
Proof. destruct v as [| | | | | | | |f|]; destruct w; cbn; try contradiction; try exact (fun _ => I); destruct f; exact (fun _ => I). Qed.
Lemma hash_flat h n k v : flat v -> hash_walk h (S n) k v = Known tt.
Proof. destruct v; cbn; try contradiction; reflexivity. Qed.
Lemma find_flat h n b v d : flat v -> known (find_entry (eqv h (S n) b) v d).
Proof.
  intros F. induction d as [|[x w] d IH]; [exact I|]. cbn [find_entry]. pose proof (eqv_flat_l h n b v x F) as K.
  destruct (eqv h (S n) b v x) as [[|]| |]; cbn in *; try contradiction; auto.
Qed.
Lemma put_flat h n b v w d : flat v -> known (put_entry (eqv h (S n) b) v w d).
Proof.
  intros F. induction d as [|[x y] d IH]; [exact I|].
  change (known (wbind (eqv h (S n) b v x) (fun r => if r then Known ((x, w) :: d) else wbind (put_entry (eqv h (S n) b) v w d) (fun d'' => Known ((x, y) :: d''))))).
  pose proof (eqv_flat_l h n b v x F) as K. destruct (eqv h (S n) b v x) as [[|]| |]; try contradiction; [exact I|].
  cbv beta iota delta [wbind]. destruct (put_entry (eqv h (S n) b) v w d); [exact I|contradiction..].
Qed.
Lemma get_flat h n l v : flat v -> known (dict_get h (S n) l v).
Proof. intros F. unfold dict_get. rewrite (hash_flat h n _ v F). cbn [wbind]. apply find_flat, F. Qed.
Lemma dput_flat h n l v w : flat v -> known (dict_put h (S n) l v w).
Proof. intros F. unfold dict_put. rewrite (hash_flat h n _ v F). cbn [wbind]. apply put_flat, F. Qed.

(** What such code leaves as it is: the lengths of the arrays, and the iterators *)
Definition keeps (h h' : heap) : Prop :=
  (forall l, l < length (h_arrs h) -> l < length (h_arrs h') /\ length (arr_get h' l) = length (arr_get h l)) /\
  (forall i, i < length (h_iters h) -> i < length (h_iters h') /\ iter_get h' i = iter_get h i).
Lemma keeps_refl h : keeps h h.
Proof. split; auto. Qed.
Lemma keeps_trans a b c : keeps a b -> keeps b c -> keeps a c.
Proof.
  intros [A1 A2] [B1 B2]. split; intros l H.
  - destruct (A1 l H) as [H1 E1]. destruct (B1 l H1) as [H2 E2]. split; [exact H2|congruence].
  - destruct (A2 l H) as [H1 E1]. destruct (B2 l H1) as [H2 E2]. split; [exact H2|congruence].
Qed.
Lemma keeps_grow h cs arrs ds iters : keeps h (mkheap cs (h_arrs h ++ arrs) ds (h_iters h ++ iters)).
Proof.
  split; intros l H; unfold arr_get, iter_get; cbn [h_arrs h_iters]; rewrite app_length, app_nth1 by exact H; split; auto; lia.
Qed.
Lemma keeps_same h cs ds : keeps h (mkheap cs (h_arrs h) ds (h_iters h)).
Proof. pose proof (keeps_grow h cs [] ds []) as K. rewrite !app_nil_r in K. exact K. Qed.
Lemma list_set_length {A} (l : list A) i x : length (list_set l i x) = length l.
Proof. revert i. induction l as [|y l IH]; intros [|i]; cbn; auto. Qed.
Lemma nth_list_set {A} (l : list A) i j x d : nth j (list_set l i x) d = if (Nat.eqb i j && Nat.ltb i (length l))%bool then x else nth j l d.
Proof.
  revert i j. induction l as [|y l IH]; intros [|i] [|j]; cbn; auto; try (destruct (Nat.eqb _ _); reflexivity).
  rewrite IH. reflexivity.
Qed.
Lemma keeps_arr h l a : length a = length (arr_get h l) -> keeps h (arr_set h l a).
Proof.
  intros L. split; [|auto]. intros j H. unfold arr_get, arr_set in *. cbn [h_arrs]. rewrite list_set_length, nth_list_set. split; [exact H|].
  destruct (Nat.eqb l j) eqn:E; [apply Nat.eqb_eq in E; subst j|reflexivity]. destruct (Nat.ltb _ _); [exact L|reflexivity].
Qed.

Section Ends.
Context {W : Type}.
Variable X : ext W.
Variable O : os W.
Notation M := (@M W).

Definition does_at {A} (P : A -> Prop) (m : M A) (s : state W) : Prop :=
  match m s with Val a t => P a /\ keeps (st_heap s) (st_heap t) | Fuel => False | _ => True end.
Definition does {A} (P : A -> Prop) (m : M A) : Prop := forall s, does_at P m s.
Lemma does_ret {A} (P : A -> Prop) a : P a -> does P (ret a).
Proof. intros H s. split; [exact H|apply keeps_refl]. Qed.
Lemma does_throw {A} (P : A -> Prop) p : does P (throw p).
Proof. intros s. exact I. Qed.
Lemma does_crash {A} (P : A -> Prop) c : does P (crash_with c).
Proof. intros s. exact I. Qed.
Lemma does_bind {A B} (P : A -> Prop) (Q : B -> Prop) m f : does P m -> (forall a, P a -> does Q (f a)) -> does Q (bind m f).
Proof.
  intros H K s. specialize (H s). unfold does_at, bind in *. destruct (m s) as [a t|p t|z t|c|]; auto. destruct H as [H1 H2].
  specialize (K a H1 t). unfold does_at in K. destruct (f a t); auto. destruct K. split; [assumption|eapply keeps_trans; eassumption].
Qed.
Lemma does_get {A} (P : A -> Prop) f : (forall s, does_at P (f s) s) -> does P (bind get f).
Proof. intros H s. exact (H s). Qed.
Lemma does_sum {A} (P : A -> Prop) x : (forall a, x = inl a -> P a) -> does P (of_sum x).
Proof. intros H. destruct x; [apply does_ret, H; reflexivity|apply does_throw]. Qed.
Lemma does_walk {A} (x : walk A) : known x -> does (fun _ => True) (of_walk x).
Proof. destruct x; try contradiction. intros _. apply does_ret. exact I. Qed.
Lemma does_more {A} (P Q : A -> Prop) m : (forall a, P a -> Q a) -> does P m -> does Q m.
Proof. intros H K s. specialize (K s). unfold does_at in *. destruct (m s); auto. destruct K. auto. Qed.

Definition flat_flow (f : flow) : Prop := match f with Reg v => flat v | _ => True end.
Definition any {A} (a : A) : Prop := True.
Lemma keeps_any {A} (a : A) h h' : keeps h h' -> any a /\ keeps h h'.
Proof. split; [exact I|assumption]. Qed.

Lemma does_fetch ix : does any (fetch (W := W) ix).
Proof. intros s. unfold does_at, fetch. destruct (nth_error _ _); [apply keeps_any, keeps_refl|exact I]. Qed.
Lemma does_store ix v : does any (store (W := W) ix v).
Proof. intros s. unfold does_at, store. destruct (nth_error _ _) as [[]|]; [apply keeps_any..|exact I]; [apply keeps_refl|apply keeps_same]. Qed.
Lemma does_capture ix : does any (Runtime.capture (W := W) ix).
Proof. intros s. unfold does_at, Runtime.capture. destruct (nth_error _ _) as [[]|]; [apply keeps_any..|exact I]; [apply keeps_same|apply keeps_refl]. Qed.
Lemma does_capture_all l : does any (capture_all (W := W) l).
Proof.
  induction l as [|c l IH]; [apply does_ret; exact I|]. cbn [capture_all].
  apply (does_bind any); [apply does_capture|]. intros x _. apply (does_bind any); [exact IH|]. intros r _. apply does_ret. exact I.
Qed.
Lemma does_new_arr a : does any (alloc (W := W) (fun h => new_arr h a)).
Proof. intros s. unfold does_at, alloc. cbn. apply keeps_any. pose proof (keeps_grow (st_heap s) (h_cells (st_heap s)) [a] (h_dicts (st_heap s)) []) as K. rewrite app_nil_r in K. exact K. Qed.
Lemma does_new_dict d : does any (alloc (W := W) (fun h => new_dict h d)).
Proof. intros s. unfold does_at, alloc. cbn. apply keeps_any, keeps_same. Qed.
Lemma does_extend n p : does any (Runtime.extend X false n p).
Proof. intros s. unfold does_at, Runtime.extend. destruct (overflows _ _); [exact I|apply keeps_any, keeps_same]. Qed.
Definition mild (f : heap -> value * heap) : Prop := forall h, keeps h (snd (f h)).
Lemma mild_values {A} (f : A -> heap -> value * heap) l : (forall x, mild (f x)) -> forall h, keeps h (snd (values_of f l h)).
Proof.
  intros H. induction l as [|x l IH]; intros h; [apply keeps_refl|]. cbn [values_of]. specialize (H x h). destruct (f x h) as [v h1]. specialize (IH h1).
  destruct (values_of f l h1) as [vs h2]. eapply keeps_trans; eassumption.
Qed.
Lemma mild_many {A} (f : A -> heap -> value * heap) m l : (forall x, mild (f x)) -> mild (many_value f m l).
Proof.
  intros H h. destruct l as [|x [|y l]]; [apply keeps_refl|apply H|]. cbn [many_value]. pose proof (mild_values f (x :: y :: l) H h) as K.
  destruct (values_of f (x :: y :: l) h) as [vs h1]. cbn [snd] in *. eapply keeps_trans; [exact K|].
  pose proof (keeps_grow h1 (h_cells h1) [vs] (h_dicts h1) []) as G. rewrite app_nil_r in G. exact G.
Qed.
Lemma mild_block es : mild (block_value X es).
Proof. apply mild_many. intros x. apply mild_many. intros e h. unfold status_value. cbn. apply keeps_same. Qed.
Lemma does_command (f : slot -> option value) path b p h w :
  match eval_command_block X O f path b p h w with Fuel => False | Val _ x => keeps h (fst x) | _ => True end.
Proof.
  unfold eval_command_block. cbv zeta. destruct (build_command_block X f h w path b); try exact I. destruct (xc_kind b).
  - destruct (block_exec _ _ _ _ _ _) as [es s|e q s|e s|c s|c]; try exact I. pose proof (mild_block es h) as K. destruct (block_value X es h). exact K.
  - destruct (o_async O _ w) as [handle w1]. cbn. match goal with |- keeps _ (mkheap ?cs _ ?ds (_ ++ ?is)) => pose proof (keeps_grow h cs [] ds is) as K end.
    rewrite app_nil_r in K. exact K.
  - destruct (o_pipe O w) as [[e|] w1]; try exact I. destruct (block_exec _ _ _ _ _ _) as [es s|e q s|e s|c s|c]; try exact I. pose proof (mild_block es h) as K.
    destruct (block_value X es h) as [v h1]. cbn [snd] in K. destruct (o_captured O _) as [[e|[out err]] w2]; try exact I.
    destruct v; cbn [new_dict fst]; (eapply keeps_trans; [exact K|apply keeps_same]).
Qed.
Lemma does_access n obj op field fp : flat field -> does any (access (W := W) (S n) obj op field fp).
Proof.
  intros F. unfold access. apply does_get. intros s.
  assert (B : forall r : option value, does any (match r with Some v => ret v | None => throw (PIndexOutOfBounds field fp) end : M value)).
  { intros [v|]; [apply does_ret; exact I|apply does_throw]. }
  destruct obj; try apply does_throw; try (destruct field; try apply does_throw; apply B).
  - apply (does_bind any); [apply does_walk, get_flat, F|]. intros r _. apply B.
Qed.
Lemma does_assign n obj op field fp v p : flat field -> does any (assign_field (W := W) (S n) obj op field fp v p).
Proof.
  intros F. unfold assign_field. apply does_get. intros s.
  destruct obj; try apply does_throw.
  - destruct field; try apply does_throw. destruct (_ <=? _)%Z; [apply does_throw|]. destruct (_ <? _)%Z; [apply does_throw|].
    unfold does_at. cbn. apply keeps_any, keeps_arr, list_set_length.
  - unfold does_at, bind. pose proof (dput_flat (st_heap s) n l field v F) as K. destruct (dict_put _ _ _ _ _); try contradiction. cbn.
    apply keeps_any, keeps_same.
Qed.

Lemma checked_flat e z v : checked e z = inl v -> flat v.
Proof. unfold checked. destruct (in_i64 z); [intros [= <-]; exact I|discriminate]. Qed.
Lemma arithmetic_flat op p a lp b rp v : arithmetic_op op p a lp b rp = inl v -> flat v.
Proof.
  unfold arithmetic_op. destruct a; try discriminate; destruct b; try discriminate.
  - unfold int_op. destruct op; try apply checked_flat; destruct (_ =? 0)%Z; try discriminate; try apply checked_flat;
      destruct (in_i64 _); try discriminate; intros [= <-]; exact I.
  - intros [= <-]. exact I.
Qed.
Lemma ord_flat op a lp b rp v : ord_op op a lp b rp = inl v -> flat v.
Proof. unfold ord_op. destruct a; try discriminate; destruct b; try discriminate; intros [= <-]; exact I. Qed.
Lemma concat_flat a lp b rp v : concat_op a lp b rp = inl v -> flat v.
Proof. unfold concat_op. destruct a; try discriminate; destruct b; try discriminate; intros [= <-]; exact I. Qed.
Lemma unary_flat op a p f : unary_op_value op a p = inl f -> op <> UTry -> flat_flow f.
Proof. unfold unary_op_value. destruct op; destruct a; try discriminate; try congruence; intros [= <-] _; exact I. Qed.

Definition fits_expr (e : xexpr) (r : flow * spos * value) : Prop := settled e -> flat_flow (fst (fst r)).
Section Step.
Variable E : @evals W.
Variables n k : nat.
Hypothesis Hk : k <= n.
Hypothesis HE : forall u e, straight_expr k e -> does (fits_expr e) (ev_expr E u e).
Hypothesis HS : forall u st, straight_statement k st -> does any (ev_statement E u st).

Lemma k_pos_expr e : straight_expr k e -> exists m, n = S m.
Proof. destruct k as [|k']; [intros []|]. intros _. destruct n as [|m]; [lia|eauto]. Qed.
Lemma does_block u b : each (straight_statement k) b -> does any (eval_block E u b).
Proof.
  induction b as [|st b IH]; [intros _; apply does_ret; exact I|]. intros [H K]. cbn [eval_block]. destruct b as [|st' b]; [apply HS, H|].
  apply (does_bind any); [apply HS, H|]. intros [v|v|] _; [apply IH, K|apply does_ret; exact I..].
Qed.
Lemma does_list u es : each (straight_expr k) es -> does any (eval_list E u es).
Proof.
  induction es as [|e es IH]; [intros _; apply does_ret; exact I|]. intros [H K]. cbn [eval_list].
  eapply does_bind; [apply HE, H|]. intros [[f p] o] _. destruct f; try (apply does_ret; exact I).
  apply (does_bind any); [apply IH, K|]. intros r _. apply does_ret. exact I.
Qed.
Lemma does_dict u kvs d : each (fun kv => straight_expr k (snd kv)) kvs -> does any (eval_dict E u kvs d).
Proof.
  revert d. induction kvs as [|[s e] kvs IH]; intros d; [intros _; apply does_ret; exact I|]. intros [H K]. cbn [eval_dict].
  eapply does_bind; [apply HE, H|]. intros [[f p] o] _. destruct f; try (apply does_ret; exact I). apply IH, K.
Qed.
Lemma does_binary u l op r p : straight_expr k l -> straight_expr k r -> (op = BEquals \/ op = BNotEquals -> settled l \/ settled r) ->
  does flat_flow (eval_binary E n u l op r p).
Proof.
  intros Hl Hr Hs. destruct (k_pos_expr l Hl) as [m Em]. unfold eval_binary.
  eapply does_bind; [apply HE, Hl|]. intros [[f lp] o] Fl. destruct f as [a|a|]; try (apply does_ret; exact I).
  assert (R : forall K : value -> spos -> M value, (forall b rp, (settled r -> flat b) -> does flat (K b rp)) ->
    does flat_flow (bind (ev_expr E u r) (fun '(fr, rp, _) =>
      match fr with Reg b => bind (K b rp) (fun v => ret (Reg v)) | f => ret f end))).
  { intros K HK. eapply does_bind; [apply HE, Hr|]. intros [[fr rp] o'] Fr. destruct fr as [b|b|]; try (apply does_ret; exact I).
    eapply does_bind; [apply HK; exact Fr|]. intros v Hv. apply does_ret. exact Hv. }
  assert (Q : forall (g : bool -> bool), settled l \/ settled r -> forall b (s : state W), (settled r -> flat b) ->
    does flat (bind (of_walk (eqv (st_heap s) n false a b)) (fun e => ret (VBool (g e))))).
  { intros g Hg b s Hb. apply (does_bind any).
    - apply does_walk. rewrite Em. destruct Hg as [Hg|Hg]; [apply eqv_flat_l; exact (Fl Hg)|apply eqv_flat_r; exact (Hb Hg)].
    - intros e _. apply does_ret. exact I. }
  destruct op; cbv zeta; try (apply R; intros b rp Hb; apply does_sum; intros v; first [apply arithmetic_flat|apply ord_flat|apply concat_flat]).
  - apply R. intros b rp Hb. apply does_get. intros s. apply (Q (fun e => e)); auto.
  - apply R. intros b rp Hb. apply does_get. intros s. apply (Q negb); auto.
  - destruct a as [|[|]| | | | | | | |]; try apply does_throw; [|apply does_ret; exact I].
    apply R. intros b rp Hb. destruct b; try apply does_throw. apply does_ret. exact I.
  - destruct a as [|[|]| | | | | | | |]; try apply does_throw; [apply does_ret; exact I|].
    apply R. intros b rp Hb. destruct b; try apply does_throw. apply does_ret. exact I.
Qed.
Lemma does_plain e u p (m : M flow) : does (fun f => settled e -> flat_flow f) m -> does (fits_expr e) (bind m (fun f => ret (f, at_ u p, VNil))).
Proof. intros H. eapply does_bind; [exact H|]. intros f Hf. apply does_ret. exact Hf. Qed.

Lemma step_expr u e : straight_expr (S k) e -> does (fits_expr e) (eval_expr X O E n u e).
Proof.
  intros H. destruct e as [ix p|l p|x p|es p|kvs p|params fi bb p|op e p|l op r p|c t e p|o f p|f args p|bb p]; cbn [straight_expr] in H; unfold eval_expr; cbv zeta.
  - apply does_plain. apply (does_bind any); [apply does_fetch|]. intros v _. apply does_ret. intros [].
  - apply does_plain. apply does_ret. intros _. destruct l; exact I.
  - apply does_plain. apply does_ret. intros _. exact I.
  - apply does_plain. apply (does_bind any); [apply does_list, H|]. intros [fl|vs] _; [apply does_ret; intros []|].
    apply (does_bind any); [apply does_new_arr|]. intros v _. apply does_ret. intros [].
  - apply does_plain. apply (does_bind any); [apply does_dict, H|]. intros [fl|d] _; [apply does_ret; intros []|].
    apply (does_bind any); [apply does_new_dict|]. intros v _. apply does_ret. intros [].
  - apply does_plain. apply (does_bind any); [apply does_capture_all|]. intros c _. apply does_ret. intros [].
  - apply does_plain. eapply does_bind; [apply HE, H|]. intros [[fl ep] o] _. destruct fl; try (apply does_ret; intros _; exact I).
    apply does_sum. intros f Ef Hs. exact (unary_flat _ _ _ _ Ef Hs).
  - apply does_plain. destruct H as (H1 & H2 & H3). eapply does_more; [|apply does_binary; eassumption]. auto.
  - apply does_plain. destruct H as (H1 & H2 & H3). eapply does_bind; [apply HE, H1|]. intros [[fl cp] o] _.
    destruct fl as [v|v|]; try (apply does_ret; intros []). destruct v as [|b| | | | | | | |]; try apply does_throw.
    eapply does_more; [|apply does_block; destruct b; assumption]. intros f _ [].
  - destruct H as (H1 & H2 & H3). destruct (k_pos_expr o H1) as [m Em]. eapply does_bind; [apply HE, H1|]. intros [[fo op] oo] _.
    destruct fo as [obj|v|]; try (apply does_ret; intros []). eapply does_bind; [apply HE, H2|]. intros [[ff fp] of] Ff.
    destruct ff as [field|v|]; try (apply does_ret; intros []). rewrite Em.
    apply (does_bind any); [apply does_access; exact (Ff H3)|]. intros v _. apply does_ret. intros [].
  - destruct H.
  - apply does_plain. intros s.
    pose proof (does_command (fun ix => option_map (slot_value (st_heap s)) (nth_error (st_stack s) ix)) (u_path u) bb (at_ u p) (st_heap s) (st_world s)) as C.
    unfold does_at, bind, lift. destruct (eval_command_block _ _ _ _ _ _ _ _) as [v x|e x|z x|c|]; cbn; auto. split; [intros []|exact C].
Qed.
Lemma step_statement u st : straight_statement (S k) st -> does any (eval_statement E n u st).
Proof.
  intros H. destruct st as [l r|e| |c bb|ix e bb|e]; cbn [straight_statement] in H; unfold eval_statement.
  - destruct l as [ix p|o fe p].
    + eapply does_bind; [apply HE, H|]. intros [[f p'] o'] _. destruct f; try (apply does_ret; exact I).
      apply (does_bind any); [apply does_store|]. intros _ _. apply does_ret. exact I.
    + destruct H as (H1 & H2 & H3 & H4). destruct (k_pos_expr o H1) as [m Em]. eapply does_bind; [apply HE, H4|]. intros [[f p'] o'] _.
      destruct f as [v|v|]; try (apply does_ret; exact I). eapply does_bind; [apply HE, H1|]. intros [[fo op] oo] _.
      destruct fo as [obj|w|]; try (apply does_ret; exact I). eapply does_bind; [apply HE, H2|]. intros [[ff fp] of] Ff.
      destruct ff as [field|w|]; try (apply does_ret; exact I). rewrite Em.
      apply (does_bind any); [apply does_assign; exact (Ff H3)|]. intros _ _. apply does_ret. exact I.
  - eapply does_bind; [apply HE, H|]. intros [[f p'] o'] _. apply does_ret. exact I.
  - apply does_ret. exact I.
  - destruct H.
  - destruct H.
  - eapply does_bind; [apply HE, H|]. intros [[f p'] o'] _. apply does_ret. exact I.
Qed.
End Step.

Lemma run_does n : forall k, k <= n ->
  (forall u e, straight_expr k e -> does (fits_expr e) (ev_expr (interp X O n) u e)) /\
  (forall u st, straight_statement k st -> does any (ev_statement (interp X O n) u st)).
Proof.
  induction n as [|n IH]; intros [|k] L; try lia; [split; intros ? ? []..|].
  destruct (IH k ltac:(lia)) as [A B]. split; intros u x H; cbn.
  - apply (step_expr _ n k); auto. lia.
  - apply (step_statement _ n k); auto. lia.
Qed.
Lemma does_ended {A} (P : A -> Prop) m s : does P m -> ended (m s).
Proof. intros H. specialize (H s). unfold does_at in H. destruct (m s); cbn; auto. Qed.
Theorem statement_ends k u st : straight_statement k st -> forall n (s : state W), k <= n -> ended (ev_statement (interp X O n) u st s).
Proof. intros H n s L. eapply does_ended. apply (run_does n k L), H. Qed.
Theorem expr_ends k u e : straight_expr k e -> forall n (s : state W), k <= n -> ended (ev_expr (interp X O n) u e s).
Proof. intros H n s L. eapply does_ended. apply (run_does n k L), H. Qed.
Lemma does_store_all ix l : does any (store_all (W := W) ix l).
Proof.
  revert ix. induction l as [|v l IH]; intros ix; [apply does_ret; exact I|]. cbn [store_all].
  apply (does_bind any); [apply does_store|]. intros _ _. apply IH.
Qed.
Lemma does_place_all l : does any (place_all (W := W) l).
Proof.
  induction l as [|[c ix] l IH]; [apply does_ret; exact I|]. cbn [place_all].
  apply (does_bind any); [|intros _ _; exact IH]. intros s. unfold does_at, place. destruct (nth_error _ _); [apply keeps_any, keeps_refl|exact I].
Qed.
Lemma does_finish {A} k (m : M A) : does any m -> does any (finish k m).
Proof. intros H s. specialize (H s). unfold does_at, finish in *. destruct (m s); auto. Qed.
Lemma does_body n k u slots b : k <= n -> each (straight_statement k) b -> does any (eval_body true (interp X O n) u slots b).
Proof.
  intros L. destruct (run_does n k L) as [_ HS]. induction b as [|st b IH]; intros H.
  - apply does_finish, does_ret. exact I.
  - destruct H as [H K]. cbn [eval_body]. destruct b as [|st' b].
    + assert (D : does any (finish slots (ev_statement (interp X O n) u st))) by (apply does_finish, HS, H).
      destruct k as [|k]; [destruct H|]. destruct st as [l r|e| |c bb|ix e bb|e]; try exact D;
        destruct e; try exact D; destruct k; destruct H.
    + intros s. pose proof (HS u st H s) as D. unfold does_at in *. destruct (ev_statement _ u st s) as [[v|v|] t|p t|z t|c|]; auto.
      specialize (IH K t). unfold does_at in IH. destruct D as [_ D]. destruct (eval_body _ _ _ _ _ t); auto. split; [exact I|]. eapply keeps_trans; [exact D|apply IH].
Qed.
Theorem call_ends k obj unit params fi body context fp start p : each (straight_statement k) body ->
  forall n (s : state W), k < n -> ended (ev_call (interp X O n) obj (FHush unit params fi body context fp) start p s).
Proof.
  intros H n s L. destruct n as [|n]; [lia|]. apply (does_ended any). cbn [interp run step ev_call call]. unfold call_hush.
  apply does_get. intros s0. cbv zeta. unfold does_at, bind at 1. cbn [put].
  match goal with |- match ?m ?t with _ => _ end => change (does_at any m t); generalize t; fold (does any m) end.
  destruct (Nat.eqb _ _); [|apply does_throw].
  apply (does_bind any); [apply does_extend|]. intros _ _. apply (does_bind any); [apply does_store_all|]. intros _ _.
  apply (does_bind any); [apply does_place_all|]. intros _ _.
  apply (does_bind any); [destruct (fi_self fi); [apply does_store|apply does_ret; exact I]|]. intros _ _.
  apply (does_bind any); [apply (does_body n k); [lia|exact H]|]. intros [v|v|] _; [apply does_ret; exact I..|apply does_crash].
Qed.
Theorem program_ends k prog path args (w : W) : each (straight_statement k) (pr_statements prog) ->
  forall n, k <= n -> ended (run_program X O true false n path prog args w).
Proof.
  intros H n L. unfold run_program. apply (does_ended any). unfold eval_program.
  apply (does_bind any); [apply does_extend|]. intros _ _. apply (does_bind any); [apply does_store|]. intros _ _ s.
  pose proof (does_block _ k (proj2 (run_does n k L)) (mkuinfo 0 path) _ H s) as D.
  unfold interp, does_at in *. destruct (eval_block _ _ _ s) as [[v|v|] t|p t|z t|c|]; auto; exact I.
Qed.

(** ** Loops over what has an end *)
Lemma keeps_turns h h' g : keeps h h' -> finite h g -> finite h' g /\ turns h' g = turns h g.
Proof.
  intros [K1 K2]. destruct g; cbn; try contradiction.
  - intros [A B]. destruct (K1 _ A) as [A1 A2]. destruct (K2 _ B) as [B1 B2]. rewrite B2, A2. auto.
  - intros B. destruct (K2 _ B) as [B1 B2]. rewrite B2. auto.
  - intros B. destruct (K2 _ B) as [B1 B2]. rewrite B2. auto.
  - intros [B C]. destruct (K2 _ B) as [B1 B2]. rewrite B2. auto.
Qed.
Lemma wraps z : (i64_min <= z <= i64_max)%Z -> wrap64 z = z.
Proof.
  intros H. unfold wrap64, i64_min, i64_max in *. rewrite Z.mod_small; lia.
Qed.
Lemma nth_z_some {A} (l : list A) z x : nth_z l z = Some x -> (0 <= z)%Z /\ Z.to_nat z < length l.
Proof.
  unfold nth_z. destruct (z <? 0)%Z eqn:E; [discriminate|]. intros H. split; [lia|]. apply nth_error_Some. congruence.
Qed.
Lemma set_there h i st : i < length (h_iters h) -> iter_get (iter_set h i st) i = st.
Proof.
  intros L. unfold iter_get, iter_set. cbn [h_iters]. rewrite nth_list_set, Nat.eqb_refl. cbn [andb]. apply Nat.ltb_lt in L. rewrite L. reflexivity.
Qed.
(** A turn of an iterator: it is over, or there is less left. *)
Lemma turn h (w : W) g : finite h g -> exists l h', iter_call g h w = Val (VDict l) (h', w) /\ finite h' g /\
  ((exists r, dict_entries h' l = (VStr (bs "finished"%string), VBool true) :: r) \/
   (exists v, dict_entries h' l = [(VStr (bs "finished"%string), VBool false); (VStr (bs "value"%string), v)]) /\ turns h' g < turns h g).
Proof.
  assert (D : forall ds d, nth (length ds) (ds ++ [d]) [] = d :> list (value * value)).
  { intros ds d. rewrite app_nth2, Nat.sub_diag by lia. reflexivity. }
  assert (N : finite h g -> exists l h', iteration (W := W) None h w = Val (VDict l) (h', w) /\ finite h' g /\
    (exists r, dict_entries h' l = (VStr (bs "finished"%string), VBool true) :: r)).
  { intros F. eexists _, _. split; [reflexivity|]. split; [destruct g; exact F|]. eexists. unfold dict_entries. cbn [h_dicts]. rewrite D. reflexivity. }
  assert (S : forall h0 v, finite h0 g -> turns h0 g < turns h g -> exists l h', iteration (W := W) (Some v) h0 w = Val (VDict l) (h', w) /\ finite h' g /\
    (exists v, dict_entries h' l = [(VStr (bs "finished"%string), VBool false); (VStr (bs "value"%string), v)]) /\ turns h' g < turns h g).
  { intros h0 v F T. eexists _, _. split; [reflexivity|]. split; [destruct g; exact F|]. split; [|destruct g; exact T].
    eexists. unfold dict_entries. cbn [h_dicts]. rewrite D. reflexivity. }
  intros F. pose proof (N F) as (l0 & h0 & N1 & N2 & N3). clear N.
  destruct g as [f|obj f|a i|t i|i|i to step|i to step|f pat|i]; cbn [finite] in F; try contradiction; cbn [iter_call].
  - destruct (iter_get h i) as [z|z|es|o] eqn:E; try solve [exists l0, h0; auto]. destruct (nth_z (arr_get h a) z) as [v|] eqn:Z; [|exists l0, h0; auto].
    destruct (nth_z_some _ _ _ Z) as [Z1 Z2]. destruct (S (iter_set h i (ISInt (z + 1))) v) as (l & h' & A & B & C); [|cbn [turns]|exists l, h'; auto].
    + cbn. rewrite list_set_length. exact F.
    + rewrite E, set_there by apply F. change (arr_get (iter_set h i (ISInt (z + 1))) a) with (arr_get h a). lia.
  - destruct (iter_get h i) as [z|z|es|o] eqn:E; try solve [exists l0, h0; auto]. destruct (nth_z t z) as [v|] eqn:Z; [|exists l0, h0; auto].
    destruct (nth_z_some _ _ _ Z) as [Z1 Z2]. destruct (S (iter_set h i (ISInt (z + 1))) (VByte v)) as (l & h' & A & B & C); [|cbn [turns]|exists l, h'; auto].
    + cbn. rewrite list_set_length. exact F.
    + rewrite E, set_there by apply F. lia.
  - destruct (iter_get h i) as [z|z|es|o] eqn:E; try solve [exists l0, h0; auto]. destruct (rev es) as [|[k v] r] eqn:R; [exists l0, h0; auto|].
    cbn [new_dict]. match goal with |- context [iteration (Some ?d) ?hh w] => destruct (S hh d) as (l & h' & A & B & C) end; [|cbn [turns]|exists l, h'; auto].
    + cbn. rewrite list_set_length. exact F.
    + rewrite E. match goal with |- context [iter_get ?hh i] => change (iter_get hh i) with (iter_get (iter_set h i (ISEntries (rev r))) i) end.
      rewrite set_there by apply F. assert (L : length (rev es) = length ((k, v) :: r)) by (rewrite R; reflexivity). rewrite rev_length in *. cbn in L. lia.
  - destruct F as (F & F0 & F1). destruct (iter_get h i) as [z|z|es|o] eqn:E; try solve [exists l0, h0; auto].
    destruct (if (0 <? step)%Z then (to <=? z)%Z else (z <=? to)%Z) eqn:B; [exists l0, h0; auto|].
    assert (Z : (i64_min <= z + step <= i64_max)%Z) by (destruct (0 <? step)%Z eqn:P; lia). rewrite (wraps _ Z).
    destruct (S (iter_set h i (ISInt (z + step))) (VInt z)) as (l & h' & A & D' & C); [| |exists l, h'; auto].
    + cbn [finite]. rewrite set_there by apply F. cbn [iter_set h_iters]. rewrite list_set_length. repeat split; try assumption; try apply F1; lia.
    + cbn [turns]. rewrite E, set_there by apply F. destruct (0 <? step)%Z eqn:P; lia.
Qed.
Theorem loop_ends k u ix b : each (straight_statement k) b ->
  forall c g p (s : state W), finite (st_heap s) g -> turns (st_heap s) g <= c ->
  forall n, k + c + 2 <= n -> ended (ev_for (interp X O n) u ix (FRust g) p b s).
Proof.
  intros Hb. induction c as [c IH] using (well_founded_induction Wf_nat.lt_wf). intros g p s F T n L.
  destruct n as [|[|n]]; [lia..|]. change (ended (eval_for (run X O true false (S n)) (S n) u ix (FRust g) p b s)). unfold eval_for. unfold bind at 1. cbn [get].
  assert (EC : exists l s', ev_call (run X O true false (S n)) VNil (FRust g) (length (st_args s)) p s = Val (VDict l) s' /\ finite (st_heap s') g /\
    ((exists r, dict_entries (st_heap s') l = (VStr (bs "finished"%string), VBool true) :: r) \/
     (exists v, dict_entries (st_heap s') l = [(VStr (bs "finished"%string), VBool false); (VStr (bs "value"%string), v)]) /\ turns (st_heap s') g < turns (st_heap s) g)).
  { destruct (turn (st_heap s) (st_world s) g F) as (l & h' & E & F' & D). exists l.
    cbn [run step ev_call call]. unfold bind, get. rewrite skipn_all. unfold truncated.
    assert (NB : native_body X false (run X O true false n) n g [] (length (st_args s)) p s = Val (VDict l) (set_world (set_heap s h') (st_world s))).
    { destruct g; cbn in F; try contradiction; unfold native_body, lift, native_call; rewrite E; reflexivity. }
    eexists. split; [rewrite NB; reflexivity|]. split; [exact F'|exact D]. }
  destruct EC as (l & s' & EC & F' & D). unfold bind at 1. rewrite EC. clear EC.
  set (E := run X O true false (S n)) in *. destruct D as [(r & D)|((v & D) & T')].
  - unfold bind, get, dict_get. cbn [hash_walk wbind]. rewrite D. exact I.
  - assert (G1 : dict_get (st_heap s') (S n) l (VStr (bs "finished"%string)) = Known (Some (VBool false))).
    { unfold dict_get. cbn [hash_walk wbind]. rewrite D. reflexivity. }
    assert (G2 : dict_get (st_heap s') (S n) l (VStr (bs "value"%string)) = Known (Some v)).
    { unfold dict_get. cbn [hash_walk wbind]. rewrite D. reflexivity. }
    unfold bind at 1 2 3, get at 1. rewrite G1. cbn [of_walk ret]. unfold bind at 1 2 3, get. rewrite G2. cbn [of_walk ret].
    unfold bind at 1. pose proof (does_store ix v s') as DS. unfold does_at in DS. destruct (store ix v s') as [a s2|q s2|z s2|e|]; try exact I; [|contradiction].
    destruct DS as [_ DS]. unfold bind at 1.
    pose proof (does_block _ k (proj2 (run_does (S n) k ltac:(lia))) u b Hb s2) as DB. unfold does_at, interp in DB. fold E in DB.
    destruct (eval_block _ u b s2) as [[w|w|] s3|q s3|z s3|e|]; try exact I; [|contradiction].
    destruct DB as [_ DB]. destruct (keeps_turns _ _ g (keeps_trans _ _ _ DS DB) F') as [F3 T3].
    apply (IH (turns (st_heap s3) g)); [lia|exact F3|lia|lia].
Qed.
Theorem for_ends k u ix b e n g q o (s s1 : state W) : each (straight_statement k) b ->
  ev_expr (interp X O n) u e s = Val (Reg (VFun (FRust g)), q, o) s1 -> finite (st_heap s1) g ->
  forall m, n + k + turns (st_heap s1) g + 3 <= m -> ended (ev_statement (interp X O m) u (XFor ix e b) s).
Proof.
  intros Hb H F [|m] L; [lia|]. change (ended (eval_statement (run X O true false m) m u (XFor ix e b) s)). unfold eval_statement, bind.
  destruct (el_expr _ _ (run_le X O true false n m ltac:(lia)) u e s) as [E|E]; unfold interp in H; rewrite H in E; [discriminate|]. rewrite <- E.
  apply (loop_ends k u ix b Hb (turns (st_heap s1) g)); [exact F|lia|lia].
Qed.
End Ends.
