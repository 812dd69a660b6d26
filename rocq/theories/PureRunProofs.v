(** Code that mentions neither the library nor commands depends on nothing outside, and changes nothing there. *)
From Coq Require Import Strings.String Lia.
From Verif Require Import Base Lexer Ast Parser Program Sema Value Text StdLib Exec Runtime SpecLexer SpecParser SpecSema SpecProgram
  SpecPure SoundLibProofs SemaTextProofs PureSemaProofs.

(** ** Values without native functions, and without the dicts of the library *)

Definition quiet_func (f : func) : Prop :=
  match f with
  | FHush _ params fi body ctx _ =>
      params <= fi_slots fi /\ Forall (fun x => snd x < fi_slots fi) ctx /\
      Forall (fun ix => ix < fi_slots fi) (option_list (fi_self fi)) /\
      each (valid_statement true false (fi_slots fi)) body /\ each (silent_statement false) body
  | FRust _ => False
  end.
Fixpoint quiet (v : value) : Prop :=
  match v with
  | VArr l => 1 <= l
  | VDict l => 4 <= l
  | VFun f => quiet_func f
  | VErr _ c => quiet c
  | _ => True
  end.
Definition quiet_entry (e : value * value) : Prop := quiet (fst e) /\ quiet (snd e).
Definition quiet_slot (x : vslot) : Prop := match x with Regular _ v => quiet v | Closed _ => True end.
Definition quiet_flow (f : flow) : Prop := match f with Reg v | Ret v => quiet v | Brk => True end.
Record quiet_heap (h : heap) : Prop := mkquiet {
  qh_cells : Forall quiet (h_cells h);
  qh_arrs : forall l, 1 <= l -> Forall quiet (arr_get h l);
  qh_own : 1 <= length (h_arrs h);
  qh_dicts : forall l, 4 <= l -> Forall quiet_entry (dict_entries h l);
  qh_std : 4 <= length (h_dicts h) }.

(** The library is at slot [d], if anywhere. *)
Record Q {W} (d : nat) (s : state W) : Prop := mkQ {
  q_stack : forall ix x, nth_error (st_stack s) ix = Some x -> ix <> d -> quiet_slot x;
  q_args : Forall quiet (st_args s);
  q_heap : quiet_heap (st_heap s) }.

(** Code of the frame on top does not reach slot [d]. *)
Definition apart (rt : bool) (k d : nat) : Prop := if rt then d = 0 else k <= d.
Lemma apart_slot rt k d ix : apart rt k d -> free rt ix -> ix < k -> ix <> d.
Proof. destruct rt; cbn; [intros -> H _; now apply H|lia]. Qed.

Lemma nth_list_set {A} (l : list A) n m x d : nth m (list_set l n x) d = x \/ nth m (list_set l n x) d = nth m l d.
Proof.
  revert n m. induction l as [|y l IH]; intros [|n] [|m]; cbn; auto.
Qed.
Lemma quiet_cell h l : quiet_heap h -> quiet (cell_get h l).
Proof. intros H. unfold cell_get. apply Forall_nth_default; [apply H|exact I]. Qed.
Lemma quiet_cell_set h l v : quiet_heap h -> quiet v -> quiet_heap (cell_set h l v).
Proof. intros [A B B' C D] Hv. constructor; cbn; auto. now apply Forall_list_set. Qed.
Lemma quiet_arr_set h l a : quiet_heap h -> Forall quiet a -> quiet_heap (arr_set h l a).
Proof.
  intros [A B B' C D] Hv. constructor; cbn; auto; [|now rewrite length_list_set].
  intros m Hm. unfold arr_get. cbn. destruct (nth_list_set (h_arrs h) l m a []) as [-> | ->]; [exact Hv|now apply B].
Qed.
Lemma quiet_dict_set h l a : quiet_heap h -> Forall quiet_entry a -> quiet_heap (dict_set h l a).
Proof.
  intros [A B B' C D] Hv. constructor; cbn; auto; [|now rewrite length_list_set].
  intros m Hm. unfold dict_entries. cbn. destruct (nth_list_set (h_dicts h) l m a []) as [-> | ->]; [exact Hv|now apply C].
Qed.
Lemma quiet_new_arr h a : quiet_heap h -> Forall quiet a -> quiet_heap (snd (new_arr h a)) /\ quiet (fst (new_arr h a)).
Proof.
  intros [A B B' C D] Hv. split; [|exact B']. constructor; cbn; auto; [|rewrite app_length; lia].
  intros m Hm. unfold arr_get. cbn. destruct (Nat.lt_ge_cases m (length (h_arrs h))) as [L|L].
  - rewrite app_nth1 by exact L. now apply B.
  - rewrite app_nth2 by exact L. destruct (m - length (h_arrs h)) as [|[|]]; cbn; auto.
Qed.
Lemma quiet_new_dict h a : quiet_heap h -> Forall quiet_entry a -> quiet_heap (snd (new_dict h a)) /\ quiet (fst (new_dict h a)).
Proof.
  intros [A B B' C D] Hv. split; [|exact D]. constructor; cbn; auto; [|rewrite app_length; lia].
  intros m Hm. unfold dict_entries. cbn. destruct (Nat.lt_ge_cases m (length (h_dicts h))) as [L|L].
  - rewrite app_nth1 by exact L. now apply C.
  - rewrite app_nth2 by exact L. destruct (m - length (h_dicts h)) as [|[|]]; cbn; auto.
Qed.
Lemma quiet_find eq k d v : Forall quiet_entry d -> find_entry eq k d = Known (Some v) -> quiet v.
Proof.
  induction 1 as [|[x y] d [Hx Hy] Hd IH]; cbn; [discriminate|].
  destruct (eq k x) as [[|]| |]; cbn; try discriminate; [|exact IH]. intros [= <-]. exact Hy.
Qed.
Lemma quiet_put eq k v d d' :
  Forall quiet_entry d -> quiet k -> quiet v -> put_entry eq k v d = Known d' -> Forall quiet_entry d'.
Proof.
  intros H Hk Hv. revert d'. induction H as [|[x y] d [Hx Hy] Hd IH]; intros d'; cbn.
  - intros [= <-]. repeat constructor; assumption.
  - destruct (eq k x) as [[|]| |]; cbn; try discriminate.
    + intros [= <-]. constructor; [split; assumption|exact Hd].
    + destruct (put_entry eq k v d) as [d''| |]; cbn; try discriminate. intros [= <-].
      constructor; [split; assumption|apply IH; reflexivity].
Qed.
Lemma quiet_symbol k v d : quiet v -> Forall quiet_entry d -> Forall quiet_entry (symbol_put k v d).
Proof.
  intros Hv Hd. unfold symbol_put. destruct (put_entry _ (VStr k) v d) as [d'| |] eqn:P; try exact Hd.
  eapply quiet_put; [exact Hd| |exact Hv|exact P]. exact I.
Qed.
Lemma quiet_nth h l z v : quiet_heap h -> 1 <= l -> nth_z (arr_get h l) z = Some v -> quiet v.
Proof.
  intros Hh Hl. unfold nth_z. destruct (z <? 0)%Z; [discriminate|]. intros N. apply nth_error_In in N.
  pose proof (qh_arrs _ Hh l Hl) as F. rewrite Forall_forall in F. exact (F _ N).
Qed.
Lemma quiet_dict_get n h l f v : quiet_heap h -> 4 <= l -> dict_get h n l f = Known (Some v) -> quiet v.
Proof.
  intros Hh Hl. unfold dict_get. destruct (hash_walk h n LockNone f) as [[]| |]; cbn; try discriminate.
  apply quiet_find, Hh, Hl.
Qed.

(** ** Heaps that differ in array 0 *)

Section Other.
Variable args' : list bytes.
Definition other (h : heap) : heap := mkheap (h_cells h) (map VStr args' :: List.tl (h_arrs h)) (h_dicts h) (h_iters h).
Lemma other_arr h l : 1 <= l -> arr_get (other h) l = arr_get h l.
Proof. intros Hl. destruct l as [|l]; [lia|]. unfold arr_get. cbn. destruct (h_arrs h); [destruct l|]; reflexivity. Qed.
Lemma other_arr_set h l a : 1 <= l -> arr_set (other h) l a = other (arr_set h l a).
Proof. intros Hl. destruct l as [|l]; [lia|]. unfold arr_set, other. cbn. destruct (h_arrs h); reflexivity. Qed.
Lemma other_new_arr h a : 1 <= length (h_arrs h) -> new_arr (other h) a = (fst (new_arr h a), other (snd (new_arr h a))).
Proof. intros Hl. unfold new_arr, other. cbn. destruct (h_arrs h); [cbn in Hl; lia|reflexivity]. Qed.

Lemma all2_same {A} (f g : A -> A -> walk bool) (P : A -> Prop) a : Forall P a -> forall b, Forall P b ->
  (forall x y, P x -> P y -> f x y = g x y) -> all2 f a b = all2 g a b.
Proof.
  induction 1 as [|x a Hx _ IH]; intros b Hb H; [destruct Hb; reflexivity|]. destruct Hb as [|y b Hy Hb]; [reflexivity|].
  cbn. rewrite (H x y Hx Hy). destruct (g x y) as [[|]| |]; cbn; try reflexivity. now apply IH.
Qed.
Lemma find_same f g k d : Forall quiet_entry d -> (forall y, quiet y -> f k y = g k y) -> find_entry f k d = find_entry g k d.
Proof.
  intros Hd H. induction Hd as [|[x y] d [Hx _] _ IH]; [reflexivity|]. cbn. rewrite (H x Hx). destruct (g k x) as [[|]| |]; cbn; auto.
Qed.
Lemma put_same f g k v d : Forall quiet_entry d -> (forall y, quiet y -> f k y = g k y) -> put_entry f k v d = put_entry g k v d.
Proof.
  intros Hd H. induction Hd as [|[x y] d [Hx _] _ IH]; [reflexivity|]. cbn. rewrite (H x Hx). destruct (g k x) as [[|]| |]; cbn; auto.
  rewrite IH. reflexivity.
Qed.
Lemma fold_same {A} (f g : A -> walk unit) (P : A -> Prop) l : Forall P l -> (forall x, P x -> f x = g x) ->
  forall a, fold_left (fun acc x => wbind acc (fun _ => f x)) l a = fold_left (fun acc x => wbind acc (fun _ => g x)) l a.
Proof. intros Hl H. induction Hl as [|x l Hx _ IH]; intros a; [reflexivity|]. cbn. rewrite (H x Hx). apply IH. Qed.

Section Heap.
Variable h : heap.
Hypothesis Hh : quiet_heap h.
Lemma eqv_other n : forall bits a b, quiet a -> quiet b -> eqv (other h) n bits a b = eqv h n bits a b.
Proof.
  induction n as [|n IH]; intros bits a b Ha Hb; [reflexivity|]. destruct a, b; try reflexivity.
  - cbn [eqv]. cbn [quiet] in Ha, Hb. rewrite (other_arr h l Ha), (other_arr h l0 Hb). destruct (Nat.eqb _ _); [|reflexivity].
    apply (all2_same _ _ quiet); [now apply Hh|now apply Hh|]. intros x y. apply IH.
  - cbn [eqv]. cbn [quiet] in Ha, Hb. change (dict_entries (other h) l) with (dict_entries h l). change (dict_entries (other h) l0) with (dict_entries h l0).
    destruct (Nat.eqb _ _); [|reflexivity]. pose proof (qh_dicts _ Hh l Ha) as Hd.
    induction Hd as [|[x y] d [Hx Hy] _ IHd]; [reflexivity|]. cbn in Hx, Hy.
    rewrite (find_same (eqv (other h) n true) (eqv h n true) x _ (qh_dicts _ Hh l0 Hb)) by (intros z Hz; now apply IH).
    destruct (find_entry (eqv h n true) x (dict_entries h l0)) as [[w|]| |] eqn:Ef; try reflexivity. cbn [wbind].
    rewrite IH; [|exact Hy|]. 2: { eapply quiet_find; [apply (qh_dicts _ Hh l0 Hb)|exact Ef]. }
    destruct (eqv h n bits y w) as [[|]| |]; try reflexivity. exact IHd.
  - destruct f as [? ? ? ? c p|], f0 as [? ? ? ? c0 p0|]; try reflexivity. cbn [eqv]. destruct (_ && _); [|reflexivity].
    apply (all2_same _ _ (fun _ => True)); [now apply Forall_forall|now apply Forall_forall|]. intros x y _ _.
    change (cell_get (other h)) with (cell_get h). rewrite IH; [reflexivity| |]; now apply quiet_cell.
  - cbn [eqv]. destruct (bytes_eqb _ _); [|reflexivity]. now apply IH.
Qed.
Lemma hash_other n k : forall v, quiet v -> hash_walk (other h) n k v = hash_walk h n k v.
Proof.
  induction n as [|n IH]; intros v Hv; [reflexivity|]. destruct v; try reflexivity; cbn [quiet] in Hv; cbn [hash_walk].
  - rewrite (other_arr h l Hv). destruct (arr_locked k l); [reflexivity|]. apply (fold_same _ _ quiet); [now apply Hh|exact IH].
  - change (dict_entries (other h) l) with (dict_entries h l). destruct (dict_locked k l); [reflexivity|].
    apply (fold_same (fun e : value * value => wbind (hash_walk (other h) n k (fst e)) (fun _ => hash_walk (other h) n k (snd e)))
      (fun e : value * value => wbind (hash_walk h n k (fst e)) (fun _ => hash_walk h n k (snd e))) quiet_entry); [now apply Hh|].
    intros x [H1 H2]. rewrite (IH _ H1), (IH _ H2). reflexivity.
  - apply IH, Hv.
Qed.
Lemma get_other n l key : 4 <= l -> quiet key -> dict_get (other h) n l key = dict_get h n l key.
Proof.
  intros Hl Hk. unfold dict_get. rewrite hash_other by exact Hk. destruct (hash_walk h n LockNone key); cbn [wbind]; auto.
  apply find_same; [apply Hh, Hl|]. intros y Hy. now apply eqv_other.
Qed.
Lemma put_other n l key v : 4 <= l -> quiet key -> dict_put (other h) n l key v = dict_put h n l key v.
Proof.
  intros Hl Hk. unfold dict_put. rewrite hash_other by exact Hk. destruct (hash_walk h n (LockDict l) key); cbn [wbind]; auto.
  apply put_same; [apply Hh, Hl|]. intros y Hy. now apply eqv_other.
Qed.
End Heap.
End Other.

(** ** Pairs of runs *)

Section Pure.
Context {W W' : Type} (X : ext W) (X' : ext W') (O : os W) (O' : os W').
Variable tail : bool.
Variable args' : list bytes.
Notation outside := (SpecPure.outside args').
Notation other := (other args').
Hypothesis floats : forall t, x_parse_float X t = x_parse_float X' t.
Hypothesis sizes : x_stack_size X = x_stack_size X'.

Definition post {A} (d : nat) (w : W) (w' : W') (R : A -> Prop) (o : outcome (state W) A) (o' : outcome (state W') A) : Prop :=
  match o with
  | Val a s => o' = Val a (outside s w') /\ st_world s = w /\ Q d s /\ R a
  | Pan p s => o' = Pan p (outside s w') /\ st_world s = w
  | Exit _ _ => False
  | Crash c => o' = Crash c
  | Fuel => o' = Fuel
  end.
Definition qm {A} (d d' : nat) (m : state W -> outcome (state W) A) (m' : state W' -> outcome (state W') A) (R : A -> Prop) : Prop :=
  forall s w', Q d s -> post d' (st_world s) w' R (m s) (m' (outside s w')).

Lemma qm_ret {A} d (a : A) (R : A -> Prop) : R a -> qm d d (ret a) (ret a) R.
Proof. intros H s w' Hs. cbn. auto. Qed.
Lemma qm_throw {A} d d' p (R : A -> Prop) : qm d d' (throw p) (throw p) R.
Proof. intros s w' Hs. cbn. auto. Qed.
Lemma qm_fuel {A} d d' (R : A -> Prop) : qm d d' (fun _ => Fuel) (fun _ => Fuel) R.
Proof. intros s w' Hs. cbn. auto. Qed.
Lemma qm_sum {A} d (r : A + panic) (R : A -> Prop) : (forall a, r = inl a -> R a) -> qm d d (of_sum r) (of_sum r) R.
Proof. intros H. destruct r as [a|p]; [apply qm_ret; auto|apply qm_throw]. Qed.
Lemma qm_walk {A} d (r : walk A) (R : A -> Prop) : (forall a, r = Known a -> R a) -> qm d d (of_walk r) (of_walk r) R.
Proof. intros H. destruct r as [a| |]; [apply qm_ret; auto| |]; intros s w' Hs; reflexivity. Qed.
Lemma post_bind {A B} d d' w w' (m : outcome (state W) A) m' (k : A -> state W -> outcome (state W) B) k' R R' :
  post d w w' R m m' -> (forall a, R a -> qm d d' (k a) (k' a) R') ->
  post d' w w' R' (match m with Val a s => k a s | Pan p s => Pan p s | Exit c s => Exit c s | Crash c => Crash c | Fuel => Fuel end)
    (match m' with Val a s => k' a s | Pan p s => Pan p s | Exit c s => Exit c s | Crash c => Crash c | Fuel => Fuel end).
Proof.
  intros Hm Hk. destruct m as [a s|p s|c s|c|]; cbn in Hm.
  - destruct Hm as (-> & <- & Hs & Ha). apply Hk; assumption.
  - destruct Hm as (-> & <-). cbn. auto.
  - contradiction.
  - subst. reflexivity.
  - subst. reflexivity.
Qed.
Lemma qm_bind {A B} d d1 d' (m : state W -> outcome (state W) A) m' (k : A -> state W -> outcome (state W) B) k' R R' :
  qm d d1 m m' R -> (forall a, R a -> qm d1 d' (k a) (k' a) R') -> qm d d' (bind m k) (bind m' k') R'.
Proof. intros Hm Hk s w' Hs. apply (post_bind d1 d' _ _ _ _ _ _ R); [apply Hm, Hs|exact Hk]. Qed.
Lemma qm_get {A} d d' (k : state W -> state W -> outcome (state W) A) k' (R : A -> Prop) :
  (forall s w', Q d s -> post d' (st_world s) w' R (k s s) (k' (outside s w') (outside s w'))) -> qm d d' (bind get k) (bind get k') R.
Proof. intros H s w' Hs. exact (H s w' Hs). Qed.
Lemma qm_weak {A} d d' (m : state W -> outcome (state W) A) m' (R R' : A -> Prop) : qm d d' m m' R -> (forall a, R a -> R' a) -> qm d d' m m' R'.
Proof.
  intros Hm H s w' Hs. specialize (Hm s w' Hs). unfold post in *. destruct (m s); auto. destruct Hm as (A1 & A2 & A3 & A4). auto.
Qed.

Lemma qm_fetch d ix : ix <> d -> qm d d (fetch ix) (fetch ix) quiet.
Proof.
  intros Hix s w' Hs. unfold fetch. cbn [SpecPure.outside st_stack st_heap]. destruct (nth_error (st_stack s) ix) as [x|] eqn:E; [|reflexivity].
  cbn. repeat split; try apply Hs. pose proof (q_stack _ _ Hs _ _ E Hix) as Hx. destruct x; cbn in *; [exact Hx|]. apply quiet_cell, Hs.
Qed.
Lemma Q_set_stack d (s : state W) ix x : Q d s -> quiet_slot x -> Q d (set_stack s (list_set (st_stack s) ix x)).
Proof.
  intros [A B C] Hx. constructor; cbn; auto. intros j y. rewrite nth_error_list_set. destruct (Nat.eqb_spec ix j) as [->|].
  - destruct (nth_error (st_stack s) j); [|discriminate]. intros [= <-] _. exact Hx.
  - apply A.
Qed.
Lemma Q_set_heap d (s : state W) h : Q d s -> quiet_heap h -> Q d (set_heap s h).
Proof. intros [A B C] Hh. constructor; cbn; auto. Qed.
Lemma Q_set_args d (s : state W) l : Q d s -> Forall quiet l -> Q d (set_args s l).
Proof. intros [A B C] Hh. constructor; cbn; auto. Qed.

Lemma qm_store d ix v : quiet v -> qm d d (store ix v) (store ix v) (fun _ => True).
Proof.
  intros Hv s w' Hs. unfold store. cbn [SpecPure.outside st_stack st_heap]. destruct (nth_error (st_stack s) ix) as [[id x|c]|] eqn:E; [| |reflexivity].
  - cbn. repeat split; try apply (Q_set_stack d s ix (Regular id v) Hs Hv).
  - cbn. repeat split; try apply (Q_set_heap d s (cell_set (st_heap s) c v) Hs); apply quiet_cell_set; try apply Hs; exact Hv.
Qed.
Lemma qm_place d ix c : qm d d (place ix c) (place ix c) (fun _ => True).
Proof.
  intros s w' Hs. unfold place. cbn [SpecPure.outside st_stack st_heap]. destruct (nth_error (st_stack s) ix) as [x|] eqn:E; [|reflexivity].
  cbn. repeat split; try apply (Q_set_stack d s ix (Closed c) Hs I).
Qed.
Lemma qm_capture d ix : ix <> d -> qm d d (capture ix) (capture ix) (fun _ => True).
Proof.
  intros Hix s w' Hs. unfold capture. cbn [SpecPure.outside st_stack st_heap].
  destruct (nth_error (st_stack s) ix) as [[id v|c]|] eqn:E; [| |reflexivity]; [|cbn; auto].
  pose proof (q_stack _ _ Hs _ _ E Hix) as Hv. cbn in Hv. split; [reflexivity|]. split; [reflexivity|]. split; [|exact I].
  apply Q_set_heap; [apply (Q_set_stack d s ix (Closed id) Hs I)|]. apply quiet_cell_set; [apply Hs|exact Hv].
Qed.
Lemma qm_capture_all d l : Forall (fun c => cap_from c <> d) l ->
  qm d d (capture_all l) (capture_all l) (fun r => map snd r = map cap_to l).
Proof.
  induction 1 as [|c l Hc _ IH]; [now apply qm_ret|]. cbn [capture_all]. eapply qm_bind; [apply qm_capture, Hc|]. intros x _.
  eapply qm_bind; [exact IH|]. intros r Hr. apply qm_ret. cbn. congruence.
Qed.
Lemma qm_extend d k p : qm d (d + k) (Runtime.extend X false k p) (Runtime.extend X' false k p) (fun _ => True).
Proof.
  intros s w' Hs. unfold Runtime.extend, overflows. cbn [SpecPure.outside st_stack]. rewrite <- sizes.
  match goal with |- context [if ?c then _ else _] => destruct c end; [cbn; auto|]. cbn. split; [reflexivity|]. split; [reflexivity|]. split; [|exact I].
  set (new := map (new_slot false) (seq (length (h_cells (st_heap s))) k)).
  assert (Hn : Forall quiet_slot new) by (apply Forall_forall; intros x Hx; apply in_map_iff in Hx; destruct Hx as (i & <- & _); exact I).
  assert (Hk : length new = k) by (unfold new; rewrite map_length, seq_length; reflexivity).
  destruct Hs as [A B C]. constructor; cbn.
  - intros ix x E Hd. destruct (Nat.lt_ge_cases ix k) as [L|L].
    + rewrite nth_error_app1 in E by lia. apply nth_error_In in E. rewrite Forall_forall in Hn. apply Hn, E.
    + rewrite nth_error_app2 in E by lia. apply (A _ _ E). lia.
  - exact B.
  - destruct C as [C1 C2 C3 C4]. constructor; cbn; auto. apply Forall_app. split; [exact C1|].
    apply Forall_forall. intros x Hx. apply repeat_spec in Hx. rewrite Hx. exact I.
Qed.
Lemma Q_shrink d k (s : state W) : Q (d + k) s -> Q d (shrink k s).
Proof.
  intros [A B C]. constructor; cbn; auto. intros ix x E Hix. apply (A (k + ix)); [|lia].
  rewrite <- (firstn_skipn k (st_stack s)).
  destruct (Nat.le_gt_cases k (length (st_stack s))) as [L|L].
  - rewrite nth_error_app2; rewrite firstn_length; [|lia]. replace (k + ix - Nat.min k (length (st_stack s))) with ix by lia.
    exact E.
  - rewrite skipn_all2 in E by lia. destruct ix; discriminate.
Qed.
Lemma qm_store_all d l : Forall quiet l -> forall ix, qm d d (store_all ix l) (store_all ix l) (fun _ => True).
Proof.
  induction 1 as [|v l Hv _ IH]; intros ix; [now apply qm_ret|]. cbn [store_all]. eapply qm_bind; [now apply qm_store|]. intros _ _. apply IH.
Qed.
Lemma qm_place_all d l : qm d d (place_all l) (place_all l) (fun _ => True).
Proof.
  induction l as [|[c ix] l IH]; [now apply qm_ret|]. cbn [place_all]. eapply qm_bind; [apply qm_place|]. intros _ _. apply IH.
Qed.

(** ** The evaluator *)

Definition qres (r : flow * spos * value) : Prop := quiet_flow (fst (fst r)) /\ quiet (snd r).
Record quiet_evals (E : evals) (E' : evals) : Prop := mkqe {
  qe_expr : forall u e fn lp k rt d, valid_expr fn lp k e -> silent rt e -> apart rt k d -> qm d d (ev_expr E u e) (ev_expr (W := W') E' u e) qres;
  qe_statement : forall u st fn lp k rt d, valid_statement fn lp k st -> silent_statement rt st -> apart rt k d ->
    qm d d (ev_statement (W := W) E u st) (ev_statement E' u st) quiet_flow;
  qe_call : forall obj f start p d, quiet obj -> quiet_func f -> qm d d (ev_call E obj f start p) (ev_call E' obj f start p) quiet;
  qe_for : forall u ix g p b fn k rt d, ix < k -> free rt ix -> quiet_func g -> each (valid_statement fn true k) b -> each (silent_statement rt) b ->
    apart rt k d -> qm d d (ev_for E u ix g p b) (ev_for E' u ix g p b) quiet_flow }.

Section Step.
Variables (E : evals (W := W)) (E' : evals (W := W')) (n : nat).
Hypothesis HE : quiet_evals E E'.

Lemma q_block u b fn lp k rt d : each (valid_statement fn lp k) b -> each (silent_statement rt) b -> apart rt k d ->
  qm d d (eval_block E u b) (eval_block E' u b) quiet_flow.
Proof.
  intros V S Ha. revert V S. induction b as [|s [|s1 b] IH]; intros V S.
  - now apply qm_ret.
  - eapply qe_statement; eauto; [apply V|apply S].
  - change (eval_block E u (s :: s1 :: b)) with (bind (ev_statement E u s) (fun f => match f with Reg _ => eval_block E u (s1 :: b) | f => ret f end)).
    change (eval_block E' u (s :: s1 :: b)) with (bind (ev_statement E' u s) (fun f => match f with Reg _ => eval_block E' u (s1 :: b) | f => ret f end)).
    eapply qm_bind; [eapply qe_statement; eauto; [apply V|apply S]|]. intros [v|v|] Hf; [|now apply qm_ret|now apply qm_ret].
    apply IH; [apply V|apply S].
Qed.
Lemma q_list u es fn lp k rt d : each (valid_expr fn lp k) es -> each (silent rt) es -> apart rt k d ->
  qm d d (eval_list E u es) (eval_list E' u es) (fun r => match r with inl f => quiet_flow f | inr l => Forall quiet l end).
Proof.
  intros V S Ha. revert V S. induction es as [|e es IH]; intros V S; [now apply qm_ret|]. cbn [eval_list].
  eapply qm_bind; [eapply qe_expr; eauto; [apply V|apply S]|]. intros [[[v|v|] ep] ov] [Hf _]; cbn in Hf; [|now apply qm_ret|now apply qm_ret].
  eapply qm_bind; [apply IH; [apply V|apply S]|]. intros [f|l] Hr; apply qm_ret; auto.
Qed.
Lemma q_dict u kvs fn lp k rt d : each (fun kv => valid_expr fn lp k (snd kv)) kvs -> each (fun kv => silent rt (snd kv)) kvs -> apart rt k d ->
  forall l, Forall quiet_entry l ->
  qm d d (eval_dict E u kvs l) (eval_dict E' u kvs l) (fun r => match r with inl f => quiet_flow f | inr l => Forall quiet_entry l end).
Proof.
  intros V S Ha. revert V S. induction kvs as [|[x e] kvs IH]; intros V S l Hl; [now apply qm_ret|]. cbn [eval_dict].
  eapply qm_bind; [eapply qe_expr; eauto; [apply V|apply S]|]. intros [[[v|v|] ep] ov] [Hf _]; cbn in Hf; [|now apply qm_ret|now apply qm_ret].
  apply IH; [apply V|apply S|]. now apply quiet_symbol.
Qed.
Lemma q_access d obj op f fp : quiet obj -> quiet f -> qm d d (access n obj op f fp) (access n obj op f fp) quiet.
Proof.
  intros Ho Hff. apply qm_get. intros s w' Hs. cbv beta zeta. change (st_heap (outside s w')) with (other (st_heap s)).
  assert (B : forall r : option value, (forall v, r = Some v -> quiet v) ->
    qm d d (match r with Some v => ret v | None => throw (PIndexOutOfBounds f fp) end)
           (match r with Some v => ret v | None => throw (PIndexOutOfBounds f fp) end) quiet).
  { intros [v|] H; [apply qm_ret; auto|apply qm_throw]. }
  destruct obj; try (split; reflexivity).
  - destruct f; try (split; reflexivity). apply B; [|exact Hs]. intros v. destruct (nth_z s0 z); cbn; [|discriminate]. intros [= <-]. exact I.
  - destruct f; try (split; reflexivity). rewrite other_arr by exact Ho. apply B; [|exact Hs]. intros v. apply quiet_nth; [apply Hs|exact Ho].
  - rewrite get_other; [|apply Hs|exact Ho|exact Hff].
    refine (qm_bind d d d _ _ _ _ (fun r => forall v, r = Some v -> quiet v) _ _ _ s w' Hs); [|exact B].
    apply qm_walk. intros r Hr v ->. eapply quiet_dict_get; [apply Hs|exact Ho|exact Hr].
  - apply B; [|exact Hs]. intros v. destruct f; cbn; try discriminate. destruct (bytes_eqb _ _); [intros [= <-]; exact I|].
    destruct (bytes_eqb _ _); [intros [= <-]; exact Ho|discriminate].
Qed.
Lemma q_push u start es fn lp k rt d : each (valid_expr fn lp k) es -> each (silent rt) es -> apart rt k d ->
  qm d d (push_args E u start es) (push_args E' u start es) (fun r => match r with Some f => quiet_flow f | None => True end).
Proof.
  intros V S Ha. revert V S. induction es as [|e es IH]; intros V S; [now apply qm_ret|]. cbn [push_args].
  eapply qm_bind; [eapply qe_expr; eauto; [apply V|apply S]|]. intros [[f ep] ov] [Hf _]; cbn in Hf.
  assert (St : forall f, quiet_flow f -> qm d d
    (bind get (fun s => bind (put (set_args s (firstn start (st_args s)))) (fun _ => ret (Some f))))
    (bind get (fun s => bind (put (set_args s (firstn start (st_args s)))) (fun _ => ret (Some f))))
    (fun r => match r with Some f => quiet_flow f | None => True end)).
  { intros g Hg. apply qm_get. intros s w' Hs. split; [reflexivity|]. split; [reflexivity|]. split; [|exact Hg].
    apply Q_set_args; [exact Hs|]. destruct Hs as [_ Hs _]. rewrite <- (firstn_skipn start (st_args s)) in Hs. apply Forall_app in Hs. apply Hs. }
  destruct f as [v|v|]; [|apply (St _ Hf)|apply (St _ Hf)]. apply qm_get. intros s w' Hs.
  apply (IH (proj2 V) (proj2 S) (set_args s (st_args s ++ [v])) w'). apply Q_set_args; [exact Hs|]. apply Forall_app. split; [apply Hs|]. now constructor.
Qed.
Lemma q_prepare u f args fn lp k rt d : valid_expr fn lp k f -> each (valid_expr fn lp k) args -> silent rt f -> each (silent rt) args -> apart rt k d ->
  qm d d (prepare_call E u f args) (prepare_call E' u f args)
    (fun r => match r with inl f => quiet_flow f | inr (obj, g, _) => quiet obj /\ quiet_func g end).
Proof.
  intros V1 V2 S1 S2 Ha. unfold prepare_call. eapply qm_bind; [eapply qe_expr; eauto|]. intros [[[v|v|] fp] obj] [Hf Ho]; cbn in Hf, Ho.
  - destruct v; try apply qm_throw. apply qm_get. intros s w' Hs.
    refine (qm_bind d d d _ _ _ _ _ _ (q_push u _ args fn lp k rt d V2 S2 Ha) _ s w' Hs). intros [g|] Hr; apply qm_ret; [exact Hr|]. split; assumption.
  - now apply qm_ret.
  - now apply qm_ret.
Qed.

Lemma q_arithmetic op p l lp r rp v : arithmetic_op op p l lp r rp = inl v -> quiet v.
Proof.
  unfold arithmetic_op. destruct l; try discriminate; destruct r; try discriminate.
  - unfold int_op, checked. destruct op; repeat match goal with |- context [if ?c then _ else _] => destruct c end; try discriminate; intros [= <-]; exact I.
  - intros [= <-]. exact I.
Qed.
Lemma q_ord op l lp r rp v : ord_op op l lp r rp = inl v -> quiet v.
Proof. unfold ord_op. destruct l; try discriminate; destruct r; try discriminate; intros [= <-]; exact I. Qed.
Lemma q_concat l lp r rp v : concat_op l lp r rp = inl v -> quiet v.
Proof. unfold concat_op. destruct l; try discriminate; destruct r; try discriminate; intros [= <-]; exact I. Qed.
Lemma q_equal d a b (g : bool -> bool) : quiet a -> quiet b ->
  qm d d (bind get (fun s => bind (of_walk (eqv (st_heap s) n false a b)) (fun e => ret (VBool (g e)))))
         (bind get (fun s => bind (of_walk (eqv (st_heap s) n false a b)) (fun e => ret (VBool (g e))))) quiet.
Proof.
  intros Ha Hb. apply qm_get. intros s w' Hs. cbv beta zeta. change (st_heap (outside s w')) with (other (st_heap s)). rewrite eqv_other; [|apply Hs|exact Ha|exact Hb].
  refine (qm_bind d d d _ _ _ _ (fun _ => True) _ _ _ s w' Hs); [now apply qm_walk|].
  intros e _. now apply qm_ret.
Qed.

Lemma q_binary u l op r p fn lp k rt d : valid_expr fn lp k l -> valid_expr fn lp k r -> silent rt l -> silent rt r -> apart rt k d ->
  qm d d (eval_binary E n u l op r p) (eval_binary E' n u l op r p) quiet_flow.
Proof.
  intros V1 V2 S1 S2 Ha. unfold eval_binary. eapply qm_bind; [eapply qe_expr; eauto|]. intros [[[a|a|] fp] obj] [Hf _]; cbn in Hf; [|now apply qm_ret|now apply qm_ret].
  assert (Right : forall (m : value -> spos -> state W -> outcome (state W) value) m',
    (forall b rp, quiet b -> qm d d (m b rp) (m' b rp) quiet) ->
    qm d d (bind (ev_expr E u r) (fun '(fr, rp, _) => match fr with Reg b => bind (m b rp) (fun v => ret (Reg v)) | f => ret f end))
           (bind (ev_expr E' u r) (fun '(fr, rp, _) => match fr with Reg b => bind (m' b rp) (fun v => ret (Reg v)) | f => ret f end)) quiet_flow).
  { intros m m' Hm. eapply qm_bind; [eapply qe_expr; eauto|]. intros [[[b|b|] rp] ov] [Hb _]; cbn in Hb; [|now apply qm_ret|now apply qm_ret].
    eapply qm_bind; [apply Hm, Hb|]. intros v Hv. now apply qm_ret. }
  assert (Bool : forall b rp, qm d d (match b with VBool _ => ret b | _ => throw (PTypeError b (bs "bool") rp) end)
                                     (match b with VBool _ => ret b | _ => throw (PTypeError b (bs "bool") rp) end) quiet).
  { intros b rp. destruct b; try apply qm_throw. now apply qm_ret. }
  destruct op; try (apply Right; intros b rp Hb; apply qm_sum; intros v; apply q_arithmetic);
    try (apply Right; intros b rp Hb; apply qm_sum; intros v; apply q_ord).
  - apply Right. intros b rp Hb. now apply (q_equal d a b (fun e => e)).
  - apply Right. intros b rp Hb. now apply (q_equal d a b negb).
  - destruct a as [|[|]| | | | | | | |]; try apply qm_throw; [|now apply qm_ret]. apply Right. intros b rp _. apply Bool.
  - destruct a as [|[|]| | | | | | | |]; try apply qm_throw; [now apply qm_ret|]. apply Right. intros b rp _. apply Bool.
  - apply Right. intros b rp Hb. apply qm_sum. intros v. apply q_concat.
Qed.

Lemma q_unary op v p f : quiet v -> unary_op_value op v p = inl f -> quiet_flow f.
Proof. intros Hv. destruct op; cbn; destruct v; try discriminate; intros [= <-]; try exact I; exact Hv. Qed.

Lemma q_plain d u p (m : state W -> outcome (state W) flow) m' : qm d d m m' quiet_flow ->
  qm d d (bind m (fun f => ret (f, at_ u p, VNil))) (bind m' (fun f => ret (f, at_ u p, VNil))) qres.
Proof. intros H. eapply qm_bind; [exact H|]. intros f Hf. apply qm_ret. split; [exact Hf|exact I]. Qed.

Lemma q_expr u e fn lp k rt d : valid_expr fn lp k e -> silent rt e -> apart rt k d ->
  qm d d (eval_expr X O E n u e) (eval_expr X' O' E' n u e) qres.
Proof.
  intros V S Ha. destruct e; cbn [valid_expr silent] in V, S; cbn [eval_expr]; try apply q_plain.
  - eapply qm_bind; [apply qm_fetch; eapply apart_slot; eauto|]. intros v Hv. now apply qm_ret.
  - replace (lit_value X' l) with (lit_value X l) by (destruct l; cbn; rewrite ?floats; reflexivity). apply qm_ret. destruct l; exact I.
  - now apply qm_ret.
  - eapply qm_bind; [eapply q_list; eauto|]. intros [f|l] Hr; [now apply qm_ret|].
    apply (qm_bind d d d _ _ _ _ quiet); [|intros v Hv; now apply qm_ret].
    intros s w' Hs. destruct (quiet_new_arr (st_heap s) l) as [H1 H2]; [apply Hs|exact Hr|]. unfold alloc.
    change (st_heap (outside s w')) with (other (st_heap s)). rewrite other_new_arr by apply Hs.
    split; [reflexivity|]. split; [reflexivity|]. split; [|exact H2]. exact (Q_set_heap d s _ Hs H1).
  - eapply qm_bind; [eapply q_dict; eauto|]. intros [f|l] Hr; [now apply qm_ret|].
    apply (qm_bind d d d _ _ _ _ quiet); [|intros v Hv; now apply qm_ret].
    intros s w' Hs. destruct (quiet_new_dict (st_heap s) l) as [H1 H2]; [apply Hs|exact Hr|].
    split; [reflexivity|]. split; [reflexivity|]. split; [|exact H2]. exact (Q_set_heap d s _ Hs H1).
  - destruct V as [(V1 & V2 & V3 & V4) V5], S as [S1 S2]. eapply qm_bind; [apply (qm_capture_all d)|].
    + apply Forall_forall. intros c Hc. rewrite Forall_forall in V2, S1. eapply apart_slot; [exact Ha|now apply S1|]. now apply V2.
    + intros ctx Hctx. apply qm_ret. cbn. repeat split; auto.
      * assert (H : Forall (fun x => x < fi_slots fi) (map cap_to (fi_captures fi))) by
          (apply Forall_map; eapply Forall_impl; [|exact V2]; cbn; intros c; lia).
        rewrite <- Hctx in H. apply Forall_map in H. exact H.
      * eapply Forall_impl; [|exact V4]. cbn. intros c. lia.
  - destruct V as [_ V]. eapply qm_bind; [eapply qe_expr; eauto|]. intros [[[v|v|] ep] ov] [Hf _]; cbn in Hf; [|now apply qm_ret|now apply qm_ret].
    apply qm_sum. intros f. now apply q_unary.
  - destruct V, S. eapply q_binary; eauto.
  - destruct V as (V1 & V2 & V3), S as (S1 & S2 & S3). eapply qm_bind; [eapply qe_expr; eauto|].
    intros [[[v|v|] ep] ov] [Hf _]; cbn in Hf; [|now apply qm_ret|now apply qm_ret]. destruct v; try apply qm_throw. destruct b; eapply q_block; eauto.
  - destruct V as [V1 V2], S as [S1 S2]. eapply qm_bind; [eapply qe_expr; eauto|].
    intros [[[v|v|] ep] ov] [Hf _]; cbn in Hf; [|apply qm_ret; split; [exact Hf|exact I]|apply qm_ret; split; exact I].
    eapply qm_bind; [eapply qe_expr; eauto|]. intros [[[w|w|] ep'] ov'] [Hw _]; cbn in Hw; [|apply qm_ret; split; [exact Hw|exact I]|apply qm_ret; split; exact I].
    eapply qm_bind; [now apply q_access|]. intros x Hx. apply qm_ret. split; assumption.
  - destruct V as [V1 V2], S as [S1 S2]. eapply qm_bind; [eapply q_prepare; eauto|]. intros [f|[[obj g] start]] Hr; [now apply qm_ret|].
    destruct Hr as [H1 H2]. eapply qm_bind; [apply (qe_call _ _ HE); assumption|]. intros v Hv. now apply qm_ret.
  - contradiction.
Qed.

Lemma q_assign d obj op f fp v p : quiet f -> quiet v -> quiet obj ->
  qm d d (assign_field n obj op f fp v p) (assign_field n obj op f fp v p) (fun _ => True).
Proof.
  intros Hf Hv Ho. apply qm_get. intros s w' Hs. cbv beta zeta. change (st_heap (outside s w')) with (other (st_heap s)). destruct obj; try (split; reflexivity).
  - destruct f; try (split; reflexivity). rewrite (other_arr _ _ l Ho), (other_arr_set _ _ l _ Ho).
    destruct (Z.of_nat _ <=? z)%Z; [split; reflexivity|]. destruct (z <? 0)%Z; [split; reflexivity|]. split; [reflexivity|]. split; [reflexivity|]. split; [|exact I]. apply Q_set_heap; [exact Hs|]. apply quiet_arr_set; [apply Hs|].
    apply Forall_list_set; [|exact Hv]. apply Hs, Ho.
  - rewrite put_other; [|apply Hs|exact Ho|exact Hf]. unfold bind, of_walk. destruct (dict_put (st_heap s) n l f v) as [e| |] eqn:Ep; [|reflexivity|reflexivity].
    split; [reflexivity|]. split; [reflexivity|]. split; [|exact I]. apply Q_set_heap; [exact Hs|]. apply quiet_dict_set; [apply Hs|].
    unfold dict_put in Ep. destruct (hash_walk _ _ _ _); try discriminate. cbn [wbind] in Ep. eapply quiet_put; [|exact Hf|exact Hv|exact Ep]. apply Hs, Ho.
Qed.

Lemma q_statement u st fn lp k rt d : valid_statement fn lp k st -> silent_statement rt st -> apart rt k d ->
  qm d d (eval_statement E n u st) (eval_statement E' n u st) quiet_flow.
Proof.
  intros V S Ha. destruct st as [l r|e| |c b|ix e b|e]; cbn [valid_statement silent_statement] in V, S; cbn [eval_statement].
  - destruct V as [V1 V2], S as [S1 S2]. eapply qm_bind; [eapply qe_expr; eauto|].
    intros [[[v|v|] ep] ov] [Hf _]; cbn in Hf; [|now apply qm_ret|now apply qm_ret]. destruct l as [ix p|o f p].
    + eapply qm_bind; [now apply qm_store|]. intros _ _. now apply qm_ret.
    + destruct V1 as [V3 V4], S1 as [S3 S4]. eapply qm_bind; [eapply qe_expr; eauto|].
      intros [[[w|w|] op] ov'] [Hw _]; cbn in Hw; [|now apply qm_ret|now apply qm_ret].
      eapply qm_bind; [eapply qe_expr; eauto|]. intros [[[x|x|] fp] ov''] [Hx _]; cbn in Hx; [|now apply qm_ret|now apply qm_ret].
      eapply qm_bind; [now apply q_assign|]. intros _ _. now apply qm_ret.
  - destruct V as [_ V]. eapply qm_bind; [eapply qe_expr; eauto|]. intros [[[v|v|] ep] ov] [Hf _]; cbn in Hf; now apply qm_ret.
  - now apply qm_ret.
  - destruct V as [V1 V2], S as [S1 S2]. eapply qm_bind; [eapply qe_expr; eauto|].
    intros [[[v|v|] ep] ov] [Hf _]; cbn in Hf; [|now apply qm_ret|now apply qm_ret]. destruct v; try apply qm_throw. destruct b0; [|now apply qm_ret].
    eapply qm_bind; [eapply q_block; eauto|]. intros [v|v|] Hv; [|now apply qm_ret|now apply qm_ret].
    eapply (qe_statement _ _ HE u (XWhile c b) fn lp); eauto; split; assumption.
  - destruct V as (V1 & V2 & V3), S as (S1 & S2 & S3). eapply qm_bind; [eapply qe_expr; eauto|].
    intros [[[v|v|] ep] ov] [Hf _]; cbn in Hf; [|now apply qm_ret|now apply qm_ret]. destruct v; try apply qm_throw.
    eapply qe_for; eauto.
  - eapply qm_bind; [eapply qe_expr; eauto|]. intros [[f ep] ov] [Hf _]; cbn in Hf; now apply qm_ret.
Qed.

Lemma q_for u ix g p b fn k rt d : ix < k -> free rt ix -> quiet_func g -> each (valid_statement fn true k) b -> each (silent_statement rt) b ->
  apart rt k d -> qm d d (eval_for E n u ix g p b) (eval_for E' n u ix g p b) quiet_flow.
Proof.
  intros Hix Hfr Hg V S Ha. apply qm_get. intros s w' Hs.
  refine (qm_bind d d d _ _ _ _ quiet _ _ _ s w' Hs); [now apply (qe_call _ _ HE)|]. clear s w' Hs.
  intros r Hr. destruct r; try apply qm_throw.
  assert (Fd : forall x, qm d d
    (bind get (fun s => bind (of_walk (dict_get (st_heap s) n l (VStr x))) (fun r => match r with Some v => ret v | None => throw (PIndexOutOfBounds (VStr x) p) end)))
    (bind get (fun s => bind (of_walk (dict_get (st_heap s) n l (VStr x))) (fun r => match r with Some v => ret v | None => throw (PIndexOutOfBounds (VStr x) p) end)))
    quiet).
  { intros x. apply qm_get. intros s w' Hs. cbv beta zeta. change (st_heap (outside s w')) with (other (st_heap s)).
    rewrite get_other; [|apply Hs|exact Hr|exact I]. refine (qm_bind d d d _ _ _ _ (fun r => forall v, r = Some v -> quiet v) _ _ _ s w' Hs).
    - apply qm_walk. intros r E1 v ->. eapply quiet_dict_get; [apply Hs|exact Hr|exact E1].
    - intros [v|] Hv; [apply qm_ret; auto|apply qm_throw]. }
  eapply qm_bind; [apply Fd|]. intros fin _. destruct fin; try apply qm_throw. destruct b0; [now apply qm_ret|].
  eapply qm_bind; [apply Fd|]. intros v Hv. eapply qm_bind; [now apply qm_store|]. intros _ _.
  eapply qm_bind; [eapply q_block; eauto|]. intros [x|x|] Hx; [|now apply qm_ret|now apply qm_ret]. eapply qe_for; eauto.
Qed.

Lemma q_finish {A} d k (m : state W -> outcome (state W) A) m' R : qm (d + k) (d + k) m m' R -> qm (d + k) d (finish k m) (finish k m') R.
Proof.
  intros H s w' Hs. specialize (H s w' Hs). unfold finish. destruct (m s) as [a s1|q s1|c s1|c|]; cbn in H.
  - destruct H as (-> & <- & H1 & H2). cbn. repeat split; auto; apply (Q_shrink d k s1 H1).
  - destruct H as (-> & <-). cbn. auto.
  - contradiction.
  - rewrite H. reflexivity.
  - rewrite H. reflexivity.
Qed.
Lemma q_tail_call u f args p fn lp k d : valid_expr fn lp k f -> each (valid_expr fn lp k) args -> silent false f -> each (silent false) args ->
  qm (d + k) d (tail_call E u k f args p) (tail_call E' u k f args p) quiet_flow.
Proof.
  intros V1 V2 S1 S2 s w' Hs.
  assert (Ha : apart false k (d + k)) by (cbn; lia).
  pose proof (q_prepare u f args fn lp k false (d + k) V1 V2 S1 S2 Ha s w' Hs) as H. unfold tail_call.
  destruct (prepare_call E u f args s) as [[g|[[obj g] start]] s1|q s1|c s1|c|]; cbn in H.
  - destruct H as (-> & <- & H1 & H2). cbn. repeat split; auto; apply (Q_shrink d k s1 H1).
  - destruct H as (-> & <- & H1 & H2 & H3).
    refine (qm_bind d d d _ _ _ _ quiet _ _ _ (shrink k s1) w' (Q_shrink d k s1 H1)); [now apply (qe_call _ _ HE)|]. intros v Hv. now apply qm_ret.
  - destruct H as (-> & <-). cbn. auto.
  - contradiction.
  - rewrite H. reflexivity.
  - rewrite H. reflexivity.
Qed.
Lemma q_body u b k d : each (valid_statement true false k) b -> each (silent_statement false) b ->
  qm (d + k) d (eval_body tail E u k b) (eval_body tail E' u k b) quiet_flow.
Proof.
  assert (Ha : apart false k (d + k)) by (cbn; lia).
  induction b as [|st [|st1 b] IH]; intros V S.
  - cbn [eval_body]. apply q_finish. now apply qm_ret.
  - destruct V as [V _], S as [S _].
    assert (F : qm (d + k) d (finish k (ev_statement E u st)) (finish k (ev_statement E' u st)) quiet_flow).
    { apply q_finish. eapply qe_statement; eauto. }
    cbn [eval_body]. destruct tail; [|exact F]. destruct st as [| [] | | | |[]]; try exact F.
    + destruct V as [_ [V1 V2]], S as [S1 S2]. eapply qm_bind; [eapply q_tail_call; eauto|]. intros [v|v|] Hv; now apply qm_ret.
    + destruct V as [V1 V2], S as [S1 S2]. eapply q_tail_call; eauto.
  - destruct V as [V1 V2], S as [S1 S2]. intros s w' Hs.
    pose proof (qe_statement _ _ HE u st true false k false (d + k) V1 S1 Ha s w' Hs) as H.
    change (post d (st_world s) w' quiet_flow
      (match ev_statement E u st s with Val (Reg _) s => eval_body tail E u k (st1 :: b) s | Val f s => Val f (shrink k s) | Pan p s => Pan p (shrink k s) | r => r end)
      (match ev_statement E' u st (outside s w') with Val (Reg _) s => eval_body tail E' u k (st1 :: b) s | Val f s => Val f (shrink k s) | Pan p s => Pan p (shrink k s) | r => r end)).
    destruct (ev_statement E u st s) as [[v|v|] s1|q s1|c s1|c|]; cbn in H.
    + destruct H as (-> & <- & H1 & H2). apply (IH V2 S2). exact H1.
    + destruct H as (-> & <- & H1 & H2). cbn. repeat split; auto; apply (Q_shrink d k s1 H1).
    + destruct H as (-> & <- & H1 & H2). cbn. repeat split; auto; apply (Q_shrink d k s1 H1).
    + destruct H as (-> & <-). cbn. auto.
    + contradiction.
    + rewrite H. reflexivity.
    + rewrite H. reflexivity.
Qed.

Lemma q_call obj f start p d : quiet obj -> quiet_func f -> qm d d (call X tail false E n obj f start p) (call X' tail false E' n obj f start p) quiet.
Proof.
  intros Ho Hf. destruct f as [un params fi body ctx fp|]; [|contradiction]. destruct Hf as (H1 & H2 & H3 & H4 & H5). cbn [call]. apply qm_get.
  intros s w' Hs. cbn [SpecPure.outside st_args].
  assert (Hargs : Forall quiet (firstn start (st_args s)) /\ Forall quiet (skipn start (st_args s))).
  { destruct Hs as [_ Hs _]. rewrite <- (firstn_skipn start (st_args s)) in Hs. now apply Forall_app in Hs. }
  destruct Hargs as [Ha1 Ha2].
  assert (Hs1 : Q d (set_args s (firstn start (st_args s)))) by now apply Q_set_args.
  revert Hs1. generalize (skipn start (st_args s)) (firstn start (st_args s)) Ha2. intros args rest Ha Hs1. unfold bind at 1. unfold put. unfold bind at 5. cbv beta iota.
  enough (H : qm d d
    (if Nat.eqb (length args) params then
      bind (Runtime.extend X false (fi_slots fi) p) (fun _ => bind (store_all 0 args) (fun _ => bind (place_all ctx) (fun _ =>
      bind (match fi_self fi with Some ix => store ix obj | None => ret tt end) (fun _ =>
      bind (eval_body tail E (mkuinfo un (sp_path fp)) (fi_slots fi) body) (fun f => match f with Reg v | Ret v => ret v | Brk => crash_with CFlow end)))))
     else throw (PInvalidArgs (length args) params p))
    (if Nat.eqb (length args) params then
      bind (Runtime.extend X' false (fi_slots fi) p) (fun _ => bind (store_all 0 args) (fun _ => bind (place_all ctx) (fun _ =>
      bind (match fi_self fi with Some ix => store ix obj | None => ret tt end) (fun _ =>
      bind (eval_body tail E' (mkuinfo un (sp_path fp)) (fi_slots fi) body) (fun f => match f with Reg v | Ret v => ret v | Brk => crash_with CFlow end)))))
     else throw (PInvalidArgs (length args) params p)) quiet) by (exact (H (set_args s rest) w' Hs1)).
  destruct (Nat.eqb (length args) params); [|apply qm_throw].
  eapply qm_bind; [apply qm_extend|]. intros _ _. eapply qm_bind; [now apply qm_store_all|]. intros _ _. eapply qm_bind; [apply qm_place_all|]. intros _ _.
  eapply (qm_bind _ (d + fi_slots fi) _ _ _ _ _ (fun _ => True)).
  { destruct (fi_self fi); [now apply qm_store|now apply qm_ret]. }
  intros _ _. eapply qm_bind; [now apply q_body|]. intros [v|v|] Hv; [now apply qm_ret|now apply qm_ret|]. intros ? ? ?. reflexivity.
Qed.
Lemma q_step : quiet_evals (Runtime.step X O tail false E n) (Runtime.step X' O' tail false E' n).
Proof. constructor; cbn [Runtime.step ev_expr ev_statement ev_call ev_for]; intros; [eapply q_expr|eapply q_statement|eapply q_call|eapply q_for]; eauto. Qed.
End Step.

Lemma q_run n : quiet_evals (run X O tail false n) (run X' O' tail false n).
Proof.
  induction n as [|n IH]; [constructor; intros; intros s w' Hs; reflexivity|]. apply q_step, IH.
Qed.

Lemma undisturbed_program n u p s w' : valid_program p -> each (silent_statement true) (pr_statements p) ->
  quiet_heap (st_heap s) -> st_stack s = [] -> st_args s = [] ->
  undisturbed (st_world s) args' w' (eval_program X false (run X O tail false n) u p s) (eval_program X' false (run X' O' tail false n) u p (outside s w')).
Proof.
  intros [V0 V] S Hh Hst Har.
  assert (Hs : Q 0 s) by (constructor; [rewrite Hst; intros [|ix] x; discriminate|rewrite Har; constructor|exact Hh]).
  unfold eval_program, bind. pose proof (qm_extend 0 (pr_root_slots p) (at_ u (mkpos 0 0)) s w' Hs) as He.
  assert (Hd : forall s1, Runtime.extend X false (pr_root_slots p) (at_ u (mkpos 0 0)) s = Val tt s1 ->
    exists id sl, st_stack s1 = Regular id VNil :: sl /\ Forall quiet_slot sl).
  { intros s1. unfold Runtime.extend. destruct (overflows _ _); [discriminate|]. destruct (pr_root_slots p) as [|k]; [lia|]. intros [= <-]. cbn. rewrite Hst, app_nil_r.
    eexists _, _. split; [reflexivity|]. apply Forall_forall. intros x Hx. apply in_map_iff in Hx. destruct Hx as (i & <- & _). exact I. }
  destruct (Runtime.extend X false (pr_root_slots p) (at_ u (mkpos 0 0)) s) as [[] s1|q s1|c s1|c|]; cbn in He.
  - destruct He as (-> & <- & H1 & _). destruct (Hd s1 eq_refl) as (id & sl & E1 & Hsl). clear Hd.
    unfold store. cbn [SpecPure.outside st_stack]. rewrite E1. cbn [nth_error]. cbv beta iota.
    pose (s2 := set_stack s1 (list_set (Regular id VNil :: sl) 0 (Regular id std_value))).
    assert (Hs2 : Q 0 s2).
    { destruct H1 as [H1 H2 H3]. constructor; [|exact H2|exact H3]. unfold s2. cbn. intros [|ix] x Hx Hne; [congruence|]. cbn [nth_error] in Hx. apply nth_error_In in Hx.
      rewrite Forall_forall in Hsl. now apply Hsl. }
    pose proof (q_block _ _ (q_run n) u (pr_statements p) false false (pr_root_slots p) true 0 V S eq_refl s2 w' Hs2) as Hb.
    change (set_stack (outside s1 w') (list_set (Regular id VNil :: sl) 0 (Regular id std_value))) with (outside s2 w').
    change (set_stack s1 (list_set (Regular id VNil :: sl) 0 (Regular id std_value))) with s2.
    change (st_world s2) with (st_world s1) in Hb.
    destruct (eval_block _ u (pr_statements p) s2) as [[v|v|] s3|q s3|c s3|c|]; cbn in Hb.
    + destruct Hb as (-> & Hw & _). exact (un_value (st_world s1) args' w' v (shrink (pr_root_slots p) s3) Hw).
    + destruct Hb as (-> & Hw & _). constructor.
    + destruct Hb as (-> & Hw & _). constructor.
    + destruct Hb as (-> & Hw). now constructor.
    + contradiction.
    + rewrite Hb. constructor.
    + rewrite Hb. constructor.
  - destruct He as (-> & Hw). now constructor.
  - contradiction.
  - rewrite He. constructor.
  - rewrite He. constructor.
Qed.
End Pure.

Lemma undisturbed_run {W W'} (X : ext W) (X' : ext W') O O' src b les p n path args args' w w' :
  (forall t, x_parse_float X t = x_parse_float X' t) -> x_stack_size X = x_stack_size X' ->
  analyze src = Analysis b les [] -> sema b = SemaOk p -> unaided_block b ->
  undisturbed w args' w' (run_program X O true false n path p args w) (run_program X' O' true false n path p args' w').
Proof.
  intros HF HS A S U. unfold run_program.
  change (undisturbed (st_world (initial args w)) args' w' (eval_program X false (run X O true false n) (mkuinfo 0 path) p (initial args w))
    (eval_program X' false (run X' O' true false n) (mkuinfo 0 path) p (outside args' (initial args w) w'))).
  apply undisturbed_program; auto.
  - exact (text_valid _ _ _ _ A S).
  - exact (sema_silent _ _ U S).
  - constructor; cbn; try lia.
    + constructor.
    + intros l Hl. destruct l as [|[|l]]; try lia; constructor.
    + intros l Hl. destruct l as [|[|[|[|[|l]]]]]; try lia; constructor.
Qed.
