(** The library neither sees nor changes nor finds again what is not reached. *)
From Coq Require Import Strings.String Lia.
From Verif Require ShowProofs JsonProofs.
From Verif Require Import Base Lexer Ast Parser Program Sema Value Text Json StdLib Exec Runtime SpecSema SpecProgram SpecRun SpecShare
  SoundLibProofs FuelProofs ShareLibProofs SpecGarbage.

(** A set of objects, a value that only points into it, and heaps that agree on it *)
Definition live := object -> Prop.
Definition sub (a b : live) : Prop := forall x, a x -> b x.
Definition held (sc : live) (v : value) : Prop := Forall sc (pointers v).
Definition held_func (sc : live) (f : func) : Prop := Forall sc (func_pointers f).
Definition held_panic (sc : live) (p : panic) : Prop := Forall sc (panic_pointers p).
Definition held_entry (sc : live) (e : value * value) : Prop := held sc (fst e) /\ held sc (snd e).
Record agree (sc : live) (h h' : heap) : Prop := mkagree {
  ag_size : same_size h h';
  ag_same : forall x, sc x -> same_object h h' x;
  ag_held : forall x, sc x -> Forall (held sc) (inside_object h x) }.
Record grow (sc : live) (h : heap) (sc' : live) (h1 : heap) : Prop := mkgrow {
  gr_sub : sub sc sc';
  gr_new : forall x, sc' x -> sc x \/ ~ there h x;
  gr_there : forall x, there h x -> there h1 x;
  gr_same : forall x, there h x -> ~ sc x -> same_object h h1 x }.

Lemma sub_refl sc : sub sc sc. Proof. intros x H; exact H. Qed.
Lemma sub_trans a b c : sub a b -> sub b c -> sub a c. Proof. intros H K x Hx. auto. Qed.
Lemma all_up {A} (sc sc' : live) (f : A -> list object) : sub sc sc' -> forall l, Forall (fun x => Forall sc (f x)) l -> Forall (fun x => Forall sc' (f x)) l.
Proof. intros U l. apply Forall_impl. intros x. apply Forall_impl, U. Qed.
Lemma held_up {sc sc'} (U : sub sc sc') v : held sc v -> held sc' v.
Proof. apply Forall_impl, U. Qed.
Lemma func_up {sc sc'} (U : sub sc sc') f : held_func sc f -> held_func sc' f.
Proof. apply Forall_impl, U. Qed.
Lemma panic_up {sc sc'} (U : sub sc sc') f : held_panic sc f -> held_panic sc' f.
Proof. apply Forall_impl, U. Qed.
Lemma values_up {sc sc'} (U : sub sc sc') l : Forall (held sc) l -> Forall (held sc') l.
Proof. apply Forall_impl. intros v. apply held_up, U. Qed.
Lemma entries_up {sc sc'} (U : sub sc sc') l : Forall (held_entry sc) l -> Forall (held_entry sc') l.
Proof. apply Forall_impl. intros v [A B]. split; apply (held_up U); assumption. Qed.

Lemma same_refl h x : same_object h h x. Proof. destruct x; reflexivity. Qed.
Lemma same_trans a b c x : same_object a b x -> same_object b c x -> same_object a c x.
Proof. destruct x; cbn; congruence. Qed.
Lemma grow_refl sc h : grow sc h sc h.
Proof. split; auto; [apply sub_refl|]. intros; apply same_refl. Qed.
Lemma grow_trans a h b h1 c h2 : grow a h b h1 -> grow b h1 c h2 -> grow a h c h2.
Proof.
  intros [A1 A2 A3 A4] [B1 B2 B3 B4]. split.
  - exact (sub_trans _ _ _ A1 B1).
  - intros x Hx. destruct (B2 x Hx) as [K|K]; [apply A2, K|]. right. intros T. apply K, A3, T.
  - auto.
  - intros x T N. apply (same_trans _ h1); [apply A4; assumption|]. apply B4; [apply A3, T|]. intros K. destruct (A2 x K); contradiction.
Qed.

(** ** Values of objects *)
Lemma entries_split sc d : Forall (held sc) (map fst d ++ map snd d) <-> Forall (held_entry sc) d.
Proof.
  rewrite Forall_app. split.
  - intros [A B]. induction d as [|e d IH]; constructor; cbn in A, B; inversion A; inversion B; subst; [split; assumption|auto].
  - induction 1 as [|e d [H K] F [IH IH']]; cbn; split; constructor; assumption.
Qed.

Section Agree.
Variable sc : live.
Variables h h' : heap.
Hypothesis A : agree sc h h'.
Lemma arr_same l : sc (OArr l) -> arr_get h' l = arr_get h l. Proof. exact (ag_same _ _ _ A (OArr l)). Qed.
Lemma dict_same l : sc (ODict l) -> dict_entries h' l = dict_entries h l. Proof. exact (ag_same _ _ _ A (ODict l)). Qed.
Lemma cell_same l : sc (OCell l) -> cell_get h' l = cell_get h l. Proof. exact (ag_same _ _ _ A (OCell l)). Qed.
Lemma iter_same l : sc (OIter l) -> iter_get h' l = iter_get h l. Proof. exact (ag_same _ _ _ A (OIter l)). Qed.
Lemma arr_held l : sc (OArr l) -> Forall (held sc) (arr_get h l). Proof. exact (ag_held _ _ _ A (OArr l)). Qed.
Lemma dict_held l : sc (ODict l) -> Forall (held_entry sc) (dict_entries h l).
Proof. intros H. apply entries_split. exact (ag_held _ _ _ A (ODict l) H). Qed.
Lemma cell_held l : sc (OCell l) -> held sc (cell_get h l).
Proof. intros H. pose proof (ag_held _ _ _ A (OCell l) H) as K. inversion K; assumption. Qed.
Lemma iter_held l d : sc (OIter l) -> iter_get h l = ISEntries d -> Forall (held_entry sc) d.
Proof. intros H E. pose proof (ag_held _ _ _ A (OIter l) H) as K. cbn in K. rewrite E in K. apply entries_split, K. Qed.
Lemma held_arr l : held sc (VArr l) -> sc (OArr l). Proof. intros H. inversion H; assumption. Qed.
Lemma held_dict l : held sc (VDict l) -> sc (ODict l). Proof. intros H. inversion H; assumption. Qed.
Lemma keys_held l : Forall (held_entry sc) l -> Forall (fun e => held sc (fst e)) l.
Proof. apply Forall_impl. intros e [H _]. exact H. Qed.

Lemma find_held eq k d v : Forall (held_entry sc) d -> find_entry eq k d = Known (Some v) -> held sc v.
Proof.
  induction 1 as [|[x y] d [Hx Hy] Hd IH]; cbn; [discriminate|].
  destruct (eq k x) as [[|]| |]; cbn; try discriminate; [|exact IH]. intros [= <-]. exact Hy.
Qed.
Lemma put_held eq k v d d' : Forall (held_entry sc) d -> held sc k -> held sc v -> put_entry eq k v d = Known d' -> Forall (held_entry sc) d'.
Proof.
  intros H Hk Hv. revert d'. induction H as [|[x y] d [Hx Hy] Hd IH]; intros d'; cbn.
  - intros [= <-]. repeat constructor; assumption.
  - destruct (eq k x) as [[|]| |]; cbn; try discriminate.
    + intros [= <-]. constructor; [split; assumption|exact Hd].
    + destruct (put_entry eq k v d) as [d''| |]; cbn; try discriminate. intros [= <-].
      constructor; [split; assumption|apply IH; reflexivity].
Qed.

Lemma context_cells (c : list (loc * slot)) : Forall sc (map (fun x => OCell (fst x)) c) -> Forall (fun x => sc (OCell (fst x))) c.
Proof. induction c as [|x c IH]; intros H; constructor; inversion H; auto. Qed.
Lemma eqv_same n : forall bits a b, held sc a -> held sc b -> eqv h' n bits a b = eqv h n bits a b.
Proof.
  induction n as [|n IH]; intros bits a b Ha Hb; [reflexivity|]. destruct a, b; cbn [eqv]; try reflexivity.
  - apply held_arr in Ha, Hb. rewrite !arr_same by assumption. destruct (Nat.eqb _ _); [|reflexivity].
    apply (all2_ext (held sc)); [auto|apply arr_held, Ha|apply arr_held, Hb].
  - apply held_dict in Ha, Hb. rewrite !dict_same by assumption.
    destruct (Nat.eqb _ _); [|reflexivity]. pose proof (dict_held l0 Hb) as D0. pose proof (dict_held l Ha) as D.
    induction D as [|[k v] d [Hk Hv] D IHd]; [reflexivity|]. cbn [fst snd] in *.
    rewrite (find_ext (held sc) (eqv h' n true) (eqv h n true) k); [|auto|apply keys_held, D0].
    destruct (find_entry (eqv h n true) k (dict_entries h l0)) as [[w|]| |] eqn:F; try reflexivity. cbn [wbind].
    rewrite (IH bits v w); [|exact Hv|exact (find_held _ _ _ _ D0 F)].
    destruct (eqv h n bits v w) as [[]| |]; try reflexivity. cbn [wbind]. apply IHd.
  - destruct f, f0; try reflexivity. destruct (_ && _); [|reflexivity].
    apply context_cells in Ha, Hb.
    apply (all2_ext (fun x => sc (OCell (fst x)))); [|exact Ha|exact Hb].
    intros x y Hx Hy. rewrite !cell_same by assumption. rewrite IH; [reflexivity| |]; apply cell_held; assumption.
  - destruct (bytes_eqb _ _); [|reflexivity]. apply IH; assumption.
Qed.
Lemma fold_all {B C} (P : B -> Prop) (f g : walk C -> B -> walk C) : (forall a x, P x -> f a x = g a x) -> forall l, Forall P l -> forall a, fold_left f l a = fold_left g l a.
Proof. intros H l F. induction F as [|x l Hx F IH]; cbn; intros a; [reflexivity|]. rewrite H by exact Hx. apply IH. Qed.
Lemma hash_same n : forall k v, held sc v -> hash_walk h' n k v = hash_walk h n k v.
Proof.
  induction n as [|n IH]; intros k v Hv; [reflexivity|]. destruct v; cbn [hash_walk]; try reflexivity.
  - apply held_arr in Hv. rewrite arr_same by exact Hv. destruct (arr_locked k l); [reflexivity|].
    apply (fold_all (held sc)); [|apply arr_held, Hv]. intros a x Hx. rewrite IH by exact Hx. reflexivity.
  - apply held_dict in Hv. rewrite dict_same by exact Hv. destruct (dict_locked k l); [reflexivity|].
    apply (fold_all (held_entry sc)); [|apply dict_held, Hv]. intros a x [Hx Hy]. rewrite !IH by assumption. reflexivity.
  - apply IH, Hv.
Qed.
Lemma vcmp_same rank n : forall k a b, held sc a -> held sc b -> vcmp rank h' n k a b = vcmp rank h n k a b.
Proof.
  induction n as [|n IH]; intros k a b Ha Hb; [reflexivity|]. destruct a, b; cbn [vcmp]; try reflexivity.
  - apply held_arr in Ha, Hb. rewrite !arr_same by assumption. destruct (_ || _); [reflexivity|].
    apply (lex_ext (held sc)); [auto|apply arr_held, Ha|apply arr_held, Hb].
  - apply held_dict in Ha, Hb.
    assert (Q : forall l, sc (ODict l) ->
      (if dict_locked k l then Busy else wbind (sort_walk (fun e e' : value * value => vcmp rank h' n k (fst e) (fst e')) (dict_entries h' l)) (dedup (fun e e' : value * value => eqv h' n false (fst e) (fst e')))) =
      (if dict_locked k l then Busy else wbind (sort_walk (fun e e' : value * value => vcmp rank h n k (fst e) (fst e')) (dict_entries h l)) (dedup (fun e e' : value * value => eqv h n false (fst e) (fst e')))) /\
      forall r, (if dict_locked k l then Busy else wbind (sort_walk (fun e e' : value * value => vcmp rank h n k (fst e) (fst e')) (dict_entries h l)) (dedup (fun e e' : value * value => eqv h n false (fst e) (fst e')))) = Known r -> Forall (held_entry sc) r).
    { intros q Hq. pose proof (dict_held q Hq) as D. destruct (dict_locked k q); [split; [reflexivity|discriminate]|].
      rewrite (dict_same q Hq).
      rewrite (sort_ext (held_entry sc) _ (fun e e' : value * value => vcmp rank h n k (fst e) (fst e'))); [|intros x y [Hx _] [Hy _]; auto|exact D].
      destruct (sort_walk _ (dict_entries h q)) as [es| |] eqn:S; cbn [wbind]; [|split; [reflexivity|discriminate]|split; [reflexivity|discriminate]].
      assert (Hes : Forall (held_entry sc) es) by (eapply sort_walk_all; eassumption).
      split; [|intros r Hr; eapply dedup_all; eassumption].
      apply (dedup_ext (held_entry sc)); [|exact Hes]. intros x y [Hx _] [Hy _]. apply eqv_same; assumption. }
    destruct (Q l Ha) as [Q1 Q2]. destruct (Q l0 Hb) as [Q3 Q4]. cbv zeta. rewrite Q1, Q3.
    match type of Q2 with forall r, ?e = Known r -> _ => destruct e as [ex| |] end; try reflexivity. cbn [wbind].
    match type of Q4 with forall r, ?e = Known r -> _ => destruct e as [ey| |] end; try reflexivity. cbn [wbind].
    apply (lex_ext (held_entry sc)); [|auto|auto]. intros x y [Hx Hx'] [Hy Hy']. rewrite IH by assumption.
    destruct (vcmp rank h n k (fst x) (fst y)) as [[]| |]; cbn [wbind]; auto.
  - destruct (bytes_cmp _ _); try reflexivity. apply IH; assumption.
Qed.
Lemma dict_get_same n l k : sc (ODict l) -> held sc k -> dict_get h' n l k = dict_get h n l k.
Proof.
  intros Hl Hk. unfold dict_get. rewrite hash_same by exact Hk. rewrite dict_same by exact Hl. destruct (hash_walk h n LockNone k); cbn [wbind]; try reflexivity.
  apply (find_ext (held sc)); [intros; apply eqv_same; assumption|]. apply keys_held, dict_held, Hl.
Qed.
Lemma dict_get_held n l k v : sc (ODict l) -> dict_get h n l k = Known (Some v) -> held sc v.
Proof. intros Hl. unfold dict_get. destruct (hash_walk h n LockNone k); cbn [wbind]; try discriminate. apply find_held, dict_held, Hl. Qed.
Lemma dict_put_same n l k v : sc (ODict l) -> held sc k -> dict_put h' n l k v = dict_put h n l k v.
Proof.
  intros Hl Hk. unfold dict_put. rewrite hash_same by exact Hk. rewrite dict_same by exact Hl. destruct (hash_walk h n (LockDict l) k); cbn [wbind]; try reflexivity.
  apply (put_ext (held sc)); [intros; apply eqv_same; assumption|]. apply keys_held, dict_held, Hl.
Qed.
Lemma dict_put_held n l k v d : sc (ODict l) -> held sc k -> held sc v -> dict_put h n l k v = Known d -> Forall (held_entry sc) d.
Proof.
  intros Hl Hk Hv. unfold dict_put. destruct (hash_walk h n (LockDict l) k); cbn [wbind]; try discriminate. apply put_held; auto. apply dict_held, Hl.
Qed.

(** ** Texts *)
Context {W : Type}.
Variable X : ext W.
Hypothesis DX : detached X.
Lemma order_held l : Forall (held_entry sc) l -> Forall (held_entry sc) (x_order X l).
Proof. rewrite !Forall_forall. intros H e He. apply H, (dt_order X DX), He. Qed.
Lemma items_all {B} (P : B -> Prop) (f g : B -> walk bytes) l : (forall x, P x -> f x = g x) -> Forall P l -> items_text f l = items_text g l.
Proof.
  intros H F. change (items_go f true l = items_go g true l). generalize true as first. induction F as [|x l Hx F IH]; intros first; [reflexivity|].
  apply wbind_ext; [apply H, Hx|]. intros t. apply wbind_ext; [apply IH|reflexivity].
Qed.
Lemma show_same n : forall v, held sc v -> show X n h' v = show X n h v.
Proof.
  induction n as [|n IH]; intros v Hv; [reflexivity|]. destruct v; cbn [show]; try reflexivity.
  - apply held_arr in Hv. rewrite arr_same by exact Hv. apply wbind_ext; [apply (items_all (held sc)); [exact IH|apply arr_held, Hv]|reflexivity].
  - apply held_dict in Hv. rewrite dict_same by exact Hv. apply wbind_ext; [apply (items_all (held_entry sc)); [|apply order_held, dict_held, Hv]|reflexivity].
    intros e [He He']. apply wbind_ext; [apply IH, He|]. intros. apply wbind_ext; [apply IH, He'|reflexivity].
  - apply wbind_ext; [apply IH, Hv|reflexivity].
Qed.
Lemma panic_text_same n p : held_panic sc p -> panic_text X n h' p = panic_text X n h p.
Proof. unfold panic_text. intros H. destruct p; try reflexivity; (rewrite show_same by exact H; reflexivity). Qed.
Lemma has_error_same n : forall v, held sc v -> has_error X n h' v = has_error X n h v.
Proof.
  induction n as [|n IH]; intros v Hv; [reflexivity|]. destruct v; cbn [has_error]; try reflexivity.
  - apply held_arr in Hv. rewrite arr_same by exact Hv. apply (any_ext (held sc)); [exact IH|apply arr_held, Hv].
  - apply held_dict in Hv. rewrite dict_same by exact Hv. apply (any_ext (held_entry sc)); [|apply order_held, dict_held, Hv].
    intros e [He He']. apply wbind_ext; [apply IH, He|]. intros []; auto.
Qed.
Lemma print_all_same n : forall args b, Forall (held sc) args -> print_all X n h' b args = print_all X n h b args.
Proof.
  induction args as [|v r IH]; intros b H; cbn [print_all]; [reflexivity|]. inversion H; subst.
  apply wbind_ext; [destruct v; cbn [print_text]; auto using show_same|]. intros t. apply wbind_ext; [apply IH; assumption|reflexivity].
Qed.
Lemma each_json_all {B C} (P : B -> Prop) (f g : B -> walk (option C)) l : (forall x, P x -> f x = g x) -> Forall P l -> each_json f l = each_json g l.
Proof. intros H F. induction F as [|x l Hx F IH]; [reflexivity|]. cbn [each_json]. rewrite H by exact Hx. destruct (g x) as [[y|]| |]; cbn [wbind]; try reflexivity. now rewrite IH. Qed.
Lemma to_json_same n : forall v, held sc v -> to_json (x_order X) n h' v = to_json (x_order X) n h v.
Proof.
  induction n as [|n IH]; intros v Hv; [reflexivity|]. cbn [to_json]. destruct v; try reflexivity.
  - apply held_arr in Hv. rewrite arr_same by exact Hv. now rewrite (each_json_all (held sc) _ _ _ IH (arr_held l Hv)).
  - apply held_dict in Hv. rewrite dict_same by exact Hv. f_equal. apply (each_json_all (held_entry sc)); [|apply order_held, dict_held, Hv].
    intros [k v] [Hk Hw]. cbn [fst snd] in *. destruct k; try reflexivity. now rewrite IH.
Qed.
End Agree.

(** ** Changing and adding objects *)
Lemma size_sym h h' : same_size h h' -> same_size h' h.
Proof. unfold same_size. intuition. Qed.
Lemma set_nth {A} (l : list A) : forall i j x d, nth j (list_set l i x) d = if (j =? i) && (i <? length l) then x else nth j l d.
Proof.
  induction l as [|y l IH]; intros i j x d; cbn [list_set length].
  - rewrite Bool.andb_false_r. reflexivity.
  - destruct i, j; cbn [nth Nat.eqb andb]; try reflexivity. rewrite IH. reflexivity.
Qed.
Lemma set_length {A} (l : list A) : forall i x, length (list_set l i x) = length l.
Proof. induction l; intros [|i] x; cbn; auto. Qed.
Lemma app_nth {A} (l : list A) x j d : nth j (l ++ [x]) d = if j =? length l then x else nth j l d.
Proof.
  revert j. induction l as [|y l IH]; intros [|j]; cbn; try reflexivity.
  - destruct j; reflexivity.
  - apply IH.
Qed.

Definition adding (sc : live) (x : object) : live := fun y => sc y \/ y = x.
Lemma adding_sub sc x : sub sc (adding sc x). Proof. left; assumption. Qed.

(** The heaps change alike, and so do those that agree. *)
Definition moved (sc : live) (h h' : heap) (sc' : live) (h1 h1' : heap) : Prop := grow sc h sc' h1 /\ agree sc' h1 h1'.
Lemma moved_refl sc h h' : agree sc h h' -> moved sc h h' sc h h'.
Proof. split; [apply grow_refl|assumption]. Qed.
Lemma moved_trans sc h h' sc1 h1 h1' sc2 h2 h2' : moved sc h h' sc1 h1 h1' -> moved sc1 h1 h1' sc2 h2 h2' -> moved sc h h' sc2 h2 h2'.
Proof. intros [A B] [C D]. split; [eapply grow_trans; eassumption|exact D]. Qed.
Lemma moved_sub {sc h h' sc1 h1 h1'} : moved sc h h' sc1 h1 h1' -> sub sc sc1.
Proof. intros [[] _]; assumption. Qed.

Ltac sizes A := unfold same_size; cbn [h_cells h_arrs h_dicts h_iters]; rewrite ?set_length, ?app_length; cbn [length]; lia.
Ltac plainly := unfold same_object, inside_object, there, cell_get, arr_get, dict_entries, iter_get in *; cbn [h_cells h_arrs h_dicts h_iters] in *.

Lemma arr_set_moved sc h h' l a : agree sc h h' -> sc (OArr l) -> Forall (held sc) a -> moved sc h h' sc (arr_set h l a) (arr_set h' l a).
Proof.
  intros A Hl Ha. pose proof (ag_same _ _ _ A) as B. pose proof (ag_held _ _ _ A) as C. destruct (ag_size _ _ _ A) as (S1 & S2 & S3 & S4).
  unfold arr_set. split; split.
  - apply sub_refl.
  - auto.
  - intros []; plainly; rewrite ?set_length; auto.
  - intros [k|k|k|k] T N; plainly; try reflexivity. rewrite set_nth. destruct (Nat.eqb_spec k l); [subst; contradiction|reflexivity].
  - sizes A.
  - intros [k|k|k|k] Hx; specialize (B _ Hx); plainly; try assumption. rewrite !set_nth, S2. destruct (_ && _); [reflexivity|assumption].
  - intros [k|k|k|k] Hx; specialize (C _ Hx); plainly; try assumption. rewrite !set_nth. destruct (_ && _); assumption.
Qed.
Lemma dict_set_moved sc h h' l a : agree sc h h' -> sc (ODict l) -> Forall (held_entry sc) a -> moved sc h h' sc (dict_set h l a) (dict_set h' l a).
Proof.
  intros A Hl Ha. pose proof (ag_same _ _ _ A) as B. pose proof (ag_held _ _ _ A) as C. destruct (ag_size _ _ _ A) as (S1 & S2 & S3 & S4).
  apply entries_split in Ha. unfold dict_set. split; split.
  - apply sub_refl.
  - auto.
  - intros []; plainly; rewrite ?set_length; auto.
  - intros [k|k|k|k] T N; plainly; try reflexivity. rewrite set_nth. destruct (Nat.eqb_spec k l); [subst; contradiction|reflexivity].
  - sizes A.
  - intros [k|k|k|k] Hx; specialize (B _ Hx); plainly; try assumption. rewrite !set_nth, S3. destruct (_ && _); [reflexivity|assumption].
  - intros [k|k|k|k] Hx; specialize (C _ Hx); plainly; try assumption. rewrite !set_nth. destruct (_ && _); assumption.
Qed.
Lemma cell_set_moved sc h h' l a : agree sc h h' -> sc (OCell l) -> held sc a -> moved sc h h' sc (cell_set h l a) (cell_set h' l a).
Proof.
  intros A Hl Ha. pose proof (ag_same _ _ _ A) as B. pose proof (ag_held _ _ _ A) as C. destruct (ag_size _ _ _ A) as (S1 & S2 & S3 & S4).
  unfold cell_set. split; split.
  - apply sub_refl.
  - auto.
  - intros []; plainly; rewrite ?set_length; auto.
  - intros [k|k|k|k] T N; plainly; try reflexivity. rewrite set_nth. destruct (Nat.eqb_spec k l); [subst; contradiction|reflexivity].
  - sizes A.
  - intros [k|k|k|k] Hx; specialize (B _ Hx); plainly; try assumption. rewrite !set_nth, S1. destruct (_ && _); [reflexivity|assumption].
  - intros [k|k|k|k] Hx; specialize (C _ Hx); plainly; try assumption. rewrite !set_nth. destruct (_ && _); [constructor; [assumption|constructor]|assumption].
Qed.
Definition held_iter (sc : live) (i : iter_state) : Prop := match i with ISEntries d => Forall (held_entry sc) d | _ => True end.
Lemma held_iter_inside sc i : held_iter sc i -> Forall (held sc) match i with ISEntries d => map fst d ++ map snd d | _ => [] end.
Proof. destruct i; cbn; intros H; try constructor. apply entries_split, H. Qed.
Lemma iter_set_moved sc h h' l a : agree sc h h' -> sc (OIter l) -> held_iter sc a -> moved sc h h' sc (iter_set h l a) (iter_set h' l a).
Proof.
  intros A Hl Ha. pose proof (ag_same _ _ _ A) as B. pose proof (ag_held _ _ _ A) as C. destruct (ag_size _ _ _ A) as (S1 & S2 & S3 & S4).
  apply held_iter_inside in Ha. unfold iter_set. split; split.
  - apply sub_refl.
  - auto.
  - intros []; plainly; rewrite ?set_length; auto.
  - intros [k|k|k|k] T N; plainly; try reflexivity. rewrite set_nth. destruct (Nat.eqb_spec k l); [subst; contradiction|reflexivity].
  - sizes A.
  - intros [k|k|k|k] Hx; specialize (B _ Hx); plainly; try assumption. rewrite !set_nth, S4. destruct (_ && _); [reflexivity|assumption].
  - intros [k|k|k|k] Hx; specialize (C _ Hx); plainly; try assumption. rewrite !set_nth. destruct (_ && _); assumption.
Qed.

Lemma values_inside_up sc sc' h h' x : sub sc sc' -> agree sc h h' -> sc x -> Forall (held sc') (inside_object h x).
Proof. intros U A Hx. apply (values_up U), (ag_held _ _ _ A), Hx. Qed.

Lemma cell_new_moved sc h h' a : agree sc h h' -> held sc a ->
  moved sc h h' (adding sc (OCell (length (h_cells h))))
    (mkheap (h_cells h ++ [a]) (h_arrs h) (h_dicts h) (h_iters h)) (mkheap (h_cells h' ++ [a]) (h_arrs h') (h_dicts h') (h_iters h')).
Proof.
  intros A Ha. pose proof (ag_same _ _ _ A) as B. pose proof values_inside_up as C. destruct (ag_size _ _ _ A) as (S1 & S2 & S3 & S4).
  pose proof (adding_sub sc (OCell (length (h_cells h)))) as U. split; split.
  - exact U.
  - intros x [H| ->]; [left; exact H|right; cbn; lia].
  - intros []; plainly; rewrite ?app_length; cbn; lia.
  - intros [k|k|k|k] T N; plainly; try reflexivity. rewrite app_nth. destruct (Nat.eqb_spec k (length (h_cells h))); [lia|reflexivity].
  - sizes A.
  - intros x [Hx| ->].
    + specialize (B _ Hx). destruct x as [k|k|k|k]; plainly; try assumption. rewrite !app_nth, S1. destruct (k =? _); [reflexivity|assumption].
    + plainly. rewrite !app_nth, S1, Nat.eqb_refl. reflexivity.
  - assert (Q : Forall (held (adding sc (OCell (length (h_cells h))))) [a]) by (constructor; [apply (held_up U), Ha|constructor]).
    intros x [Hx| ->].
    + pose proof (C _ _ h h' x U A Hx) as D. destruct x as [k|k|k|k]; plainly; try assumption. rewrite !app_nth. destruct (k =? _); assumption.
    + plainly. rewrite !app_nth, Nat.eqb_refl. exact Q.
Qed.
Lemma new_arr_moved sc h h' a : agree sc h h' -> Forall (held sc) a ->
  moved sc h h' (adding sc (OArr (length (h_arrs h)))) (snd (new_arr h a)) (snd (new_arr h' a)).
Proof.
  intros A Ha. pose proof (ag_same _ _ _ A) as B. pose proof (values_inside_up) as C. destruct (ag_size _ _ _ A) as (S1 & S2 & S3 & S4).
  pose proof (adding_sub sc (OArr (length (h_arrs h)))) as U. apply (values_up U) in Ha. unfold new_arr; cbn [snd]. split; split.
  - exact U.
  - intros x [H| ->]; [left; exact H|right; cbn; lia].
  - intros []; plainly; rewrite ?app_length; cbn; lia.
  - intros [k|k|k|k] T N; plainly; try reflexivity. rewrite app_nth. destruct (Nat.eqb_spec k (length (h_arrs h))); [lia|reflexivity].
  - sizes A.
  - intros x [Hx| ->].
    + specialize (B _ Hx). destruct x as [k|k|k|k]; plainly; try assumption. rewrite !app_nth, S2. destruct (k =? _); [reflexivity|assumption].
    + plainly. rewrite !app_nth, S2, Nat.eqb_refl. reflexivity.
  - intros x [Hx| ->].
    + pose proof (C _ _ h h' x U A Hx) as D. destruct x as [k|k|k|k]; plainly; try assumption. rewrite !app_nth. destruct (k =? _); assumption.
    + plainly. rewrite !app_nth, Nat.eqb_refl. exact Ha.
Qed.
Lemma new_dict_moved sc h h' a : agree sc h h' -> Forall (held_entry sc) a ->
  moved sc h h' (adding sc (ODict (length (h_dicts h)))) (snd (new_dict h a)) (snd (new_dict h' a)).
Proof.
  intros A Ha. pose proof (ag_same _ _ _ A) as B. pose proof (values_inside_up) as C. destruct (ag_size _ _ _ A) as (S1 & S2 & S3 & S4).
  pose proof (adding_sub sc (ODict (length (h_dicts h)))) as U. apply (entries_up U) in Ha. apply entries_split in Ha. unfold new_dict; cbn [snd]. split; split.
  - exact U.
  - intros x [H| ->]; [left; exact H|right; cbn; lia].
  - intros []; plainly; rewrite ?app_length; cbn; lia.
  - intros [k|k|k|k] T N; plainly; try reflexivity. rewrite app_nth. destruct (Nat.eqb_spec k (length (h_dicts h))); [lia|reflexivity].
  - sizes A.
  - intros x [Hx| ->].
    + specialize (B _ Hx). destruct x as [k|k|k|k]; plainly; try assumption. rewrite !app_nth, S3. destruct (k =? _); [reflexivity|assumption].
    + plainly. rewrite !app_nth, S3, Nat.eqb_refl. reflexivity.
  - intros x [Hx| ->].
    + pose proof (C _ _ h h' x U A Hx) as D. destruct x as [k|k|k|k]; plainly; try assumption. rewrite !app_nth. destruct (k =? _); assumption.
    + plainly. rewrite !app_nth, Nat.eqb_refl. exact Ha.
Qed.
Lemma new_iter_moved sc h h' a : agree sc h h' -> held_iter sc a ->
  moved sc h h' (adding sc (OIter (length (h_iters h)))) (snd (new_iter h a)) (snd (new_iter h' a)).
Proof.
  intros A Ha. pose proof (ag_same _ _ _ A) as B. pose proof (values_inside_up) as C. destruct (ag_size _ _ _ A) as (S1 & S2 & S3 & S4).
  pose proof (adding_sub sc (OIter (length (h_iters h)))) as U. apply held_iter_inside, (values_up U) in Ha. unfold new_iter; cbn [snd]. split; split.
  - exact U.
  - intros x [H| ->]; [left; exact H|right; cbn; lia].
  - intros []; plainly; rewrite ?app_length; cbn; lia.
  - intros [k|k|k|k] T N; plainly; try reflexivity. rewrite app_nth. destruct (Nat.eqb_spec k (length (h_iters h))); [lia|reflexivity].
  - sizes A.
  - intros x [Hx| ->].
    + specialize (B _ Hx). destruct x as [k|k|k|k]; plainly; try assumption. rewrite !app_nth, S4. destruct (k =? _); [reflexivity|assumption].
    + plainly. rewrite !app_nth, S4, Nat.eqb_refl. reflexivity.
  - intros x [Hx| ->].
    + pose proof (C _ _ h h' x U A Hx) as D. destruct x as [k|k|k|k]; plainly; try assumption. rewrite !app_nth. destruct (k =? _); assumption.
    + plainly. rewrite !app_nth, Nat.eqb_refl. exact Ha.
Qed.

(** Values made in both heaps *)
Definition made (sc : live) (h h' : heap) (r r' : value * heap) : Prop :=
  fst r' = fst r /\ exists sc', moved sc h h' sc' (snd r) (snd r') /\ held sc' (fst r).
Lemma made_arr sc h h' a : agree sc h h' -> Forall (held sc) a -> made sc h h' (new_arr h a) (new_arr h' a).
Proof.
  intros A Ha. split; [cbn; destruct (ag_size _ _ _ A) as (S1 & S2 & S3 & S4); congruence|].
  eexists. split; [apply new_arr_moved; assumption|]. constructor; [right; reflexivity|constructor].
Qed.
Lemma made_dict sc h h' a : agree sc h h' -> Forall (held_entry sc) a -> made sc h h' (new_dict h a) (new_dict h' a).
Proof.
  intros A Ha. split; [cbn; destruct (ag_size _ _ _ A) as (S1 & S2 & S3 & S4); congruence|].
  eexists. split; [apply new_dict_moved; assumption|]. constructor; [right; reflexivity|constructor].
Qed.
Lemma made_keep sc h h' v : agree sc h h' -> held sc v -> made sc h h' (v, h) (v, h').
Proof. intros A Hv. split; [reflexivity|]. exists sc. split; [apply moved_refl, A|exact Hv]. Qed.
Lemma made_after sc h h' sc1 h1 h1' r r' : moved sc h h' sc1 h1 h1' -> made sc1 h1 h1' r r' -> made sc h h' r r'.
Proof. intros M (E & sc2 & M2 & V). split; [exact E|]. exists sc2. split; [eapply moved_trans; eassumption|exact V]. Qed.
Lemma made_err sc h h' d r r' : made sc h h' r r' -> made sc h h' (VErr d (fst r), snd r) (VErr d (fst r'), snd r').
Proof. intros (E & sc2 & M2 & V). split; [cbn; congruence|]. exists sc2. split; [exact M2|exact V]. Qed.
Lemma moved_agree {sc h h' sc1 h1 h1'} : moved sc h h' sc1 h1 h1' -> agree sc1 h1 h1'.
Proof. intros [_ A]; exact A. Qed.

Lemma insert_held sc k v : forall d, Forall (held_entry sc) d -> held sc v -> Forall (held_entry sc) (insert_key k v d).
Proof.
  induction d as [|[x y] d IH]; intros H Hv; cbn [insert_key].
  - constructor; [split; [constructor|exact Hv]|constructor].
  - inversion H; subst. destruct x; try (constructor; [assumption|apply IH; assumption]).
    destruct (bytes_eqb k s); constructor; auto. split; [constructor|exact Hv].
Qed.
Lemma json_made : forall j sc h h', agree sc h h' ->
  match from_json j h, from_json j h' with Some r, Some r' => made sc h h' r r' | None, None => True | _, _ => False end.
Proof.
  induction j as [|b|z|f|s|l IH|l IH] using JsonProofs.json_nested; intros sc h h' A; try (cbn [from_json]; apply made_keep; [exact A|constructor]).
  - cbn [from_json]. destruct (z <=? _)%Z; [apply made_keep; [exact A|constructor]|exact I].
  - rewrite !JsonProofs.from_arr. assert (K : Forall (held sc) []) by constructor. revert K. generalize (@nil value). revert sc h h' A.
    induction IH as [|x l H _ IHl]; intros sc h h' A acc K; cbn [JsonProofs.from_items].
    + apply made_arr; assumption.
    + specialize (H sc h h' A). destruct (from_json x h) as [[v h1]|], (from_json x h') as [[v' h1']|]; try contradiction; [|exact I].
      destruct H as (E & sc1 & M & V). cbn [fst snd] in *. subst v'.
      assert (K1 : Forall (held sc1) (acc ++ [v])).
      { apply Forall_app. split; [apply (values_up (moved_sub M)), K|constructor; [exact V|constructor]]. }
      specialize (IHl sc1 h1 h1' (moved_agree M) _ K1).
      destruct (JsonProofs.from_items l (acc ++ [v]) h1), (JsonProofs.from_items l (acc ++ [v]) h1'); try contradiction; [|exact I].
      eapply made_after; eassumption.
  - rewrite !JsonProofs.from_obj. assert (K : Forall (held_entry sc) []) by constructor. revert K. generalize (@nil (value * value)). revert sc h h' A.
    induction IH as [|[k x] l H _ IHl]; intros sc h h' A acc K; cbn [JsonProofs.from_entries].
    + apply made_dict; assumption.
    + cbn [snd] in H. specialize (H sc h h' A). destruct (from_json x h) as [[v h1]|], (from_json x h') as [[v' h1']|]; try contradiction; [|exact I].
      destruct H as (E & sc1 & M & V). cbn [fst snd] in *. subst v'.
      assert (K1 : Forall (held_entry sc1) (insert_key k v acc)) by (apply insert_held; [apply (entries_up (moved_sub M)), K|exact V]).
      specialize (IHl sc1 h1 h1' (moved_agree M) _ K1).
      destruct (JsonProofs.from_entries l (insert_key k v acc) h1), (JsonProofs.from_entries l (insert_key k v acc) h1'); try contradiction; [|exact I].
      eapply made_after; eassumption.
Qed.

(** ** Library calls *)
Definition lib_out {W} (sc : live) (h h' : heap) (o o' : outcome (heap * W) value) : Prop :=
  match o, o' with
  | Val v x, Val v' x' => v' = v /\ snd x' = snd x /\ exists sc', moved sc h h' sc' (fst x) (fst x') /\ held sc' v
  | Pan p x, Pan p' x' => p' = p /\ snd x' = snd x /\ exists sc', moved sc h h' sc' (fst x) (fst x') /\ held_panic sc' p
  | Exit c x, Exit c' x' => c' = c /\ snd x' = snd x
  | Crash c, Crash c' => c = c'
  | Fuel, Fuel => True
  | _, _ => False
  end.
Section Library.
Context {W : Type}.
Variable X : ext W.
Hypothesis DX : detached X.
Implicit Types (w : W).
Lemma out_val sc h h' v w : agree sc h h' -> held sc v -> lib_out sc h h' (Val v (h, w)) (Val v (h', w)).
Proof. intros A H. cbn. repeat split. exists sc. split; [apply moved_refl, A|exact H]. Qed.
Lemma out_pan sc h h' p w : agree sc h h' -> held_panic sc p -> lib_out sc h h' (Pan p (h, w)) (Pan p (h', w)).
Proof. intros A H. cbn. repeat split. exists sc. split; [apply moved_refl, A|exact H]. Qed.
Lemma out_made sc h h' r r' w : made sc h h' r r' -> lib_out sc h h' (let '(v, h1) := r in Val v (h1, w)) (let '(v, h1) := r' in Val v (h1, w)).
Proof. destruct r, r'. intros (E & sc' & M & V). cbn in *. repeat split; [exact E|]. exists sc'. split; assumption. Qed.
Lemma out_after sc h h' sc1 h1 h1' (o o' : outcome (heap * W) value) : moved sc h h' sc1 h1 h1' -> lib_out sc1 h1 h1' o o' -> lib_out sc h h' o o'.
Proof.
  intros M. destruct o, o'; cbn; auto; intros (E & F & sc2 & M2 & V); repeat split; auto; exists sc2; (split; [eapply moved_trans; eassumption|exact V]).
Qed.
Lemma out_walked {B} sc h h' (a b : walk B) (k k' : B -> res (W := W)) : b = a -> (forall x, a = Known x -> lib_out sc h h' (k x) (k' x)) -> lib_out sc h h' (walked a k) (walked b k').
Proof. intros -> H. destruct a; cbn; auto. Qed.
Lemma out_iter sc h h' i (f : loc -> native) w : agree sc h h' -> held_iter sc i ->
  (forall l sc1, sub sc sc1 -> sc1 (OIter l) -> Forall sc1 (native_pointers (f l))) ->
  lib_out sc h h' (let '(st, h1) := new_iter h i in Val (VFun (FRust (f st))) (h1, w)) (let '(st, h1) := new_iter h' i in Val (VFun (FRust (f st))) (h1, w)).
Proof.
  intros A Hi Hf. pose proof (new_iter_moved _ _ _ _ A Hi) as M. cbn in *.
  destruct (ag_size _ _ _ A) as (S1 & S2 & S3 & S4). repeat split; [congruence|]. eexists. split; [exact M|].
  apply Hf; [apply adding_sub|right; reflexivity].
Qed.
Lemma held_strs {B} (sc : live) (f : B -> value) l : (forall x, pointers (f x) = []) -> Forall (held sc) (map f l).
Proof. intros H. apply Forall_forall. intros v Hv. apply in_map_iff in Hv as (x & <- & _). unfold held. rewrite H. constructor. Qed.

Ltac holds := repeat match goal with
  | H : ?P |- ?P => exact H
  | |- held_panic _ _ => unfold held_panic; cbn [panic_pointers]
  | |- held _ _ => unfold held; cbn [pointers func_pointers native_pointers io_error]
  | |- held_entry _ _ => split; cbn [fst snd]
  | |- Forall _ (_ ++ _) => apply Forall_app; split
  | |- Forall _ [] => constructor
  | |- Forall _ (_ :: _) => constructor
  | |- Forall _ (map _ _) => apply held_strs; reflexivity
  | |- held_iter _ (ISEntries _) => unfold held_iter
  | |- held_iter _ _ => exact I
  | |- Forall _ (native_pointers _) => cbn [native_pointers]
  | |- context [match ?x with _ => _ end] => destruct x
  end.
Section Calls.
Variable sc : live.
Variables h h' : heap.
Hypothesis A : agree sc h h'.
Lemma range_out a b c p w : held sc a -> held sc b -> held sc c -> lib_out sc h h' (range a b c p h w) (range a b c p h' w).
Proof.
  intros Ha Hb Hc. unfold range.
  repeat match goal with |- context [if ?x then _ else _] => destruct x; [apply out_pan; [exact A|holds]|] end.
  assert (Q : forall x y z, lib_out sc h h' (let '(st, h0) := new_iter h (ISFloat x) in Val (VFun (FRust (NRangeFloat st y z))) (h0, w))
    (let '(st, h0) := new_iter h' (ISFloat x) in Val (VFun (FRust (NRangeFloat st y z))) (h0, w))).
  { intros x y z. apply (out_iter _ _ _ _ (fun st => NRangeFloat st y z)); [exact A|exact I|intros; holds]. }
  destruct a; try apply Q. destruct b; try apply Q. destruct c; try apply Q.
  apply (out_iter _ _ _ _ (fun st => NRangeInt st z0 z1)); [exact A|exact I|intros; holds].
Qed.
Lemma out_set l a v w : sc (OArr l) -> Forall (held sc) a -> held sc v -> lib_out sc h h' (Val v (arr_set h l a, w)) (Val v (arr_set h' l a, w)).
Proof. intros Hl Ha Hv. repeat split. exists sc. split; [apply arr_set_moved; assumption|exact Hv]. Qed.
Lemma typecheck_held args p : Forall (held sc) args -> forall r, typecheck args p = r -> match r with inl (v, _) => held sc v | inr e => held_panic sc e end.
Proof.
  intros Ha r <-. unfold typecheck. repeat match goal with
    | H : Forall (held sc) (_ :: _) |- _ => inversion H; clear H; subst
    | |- context [match ?x with _ => _ end] => is_var x; destruct x
    | |- context [type_parse ?t] => destruct (type_parse t)
    | |- _ => first [exact I|assumption|constructor]
    end.
Qed.
Lemma std_out n ra f args p w : held sc ra -> Forall (held sc) args ->
  lib_out sc h h' (std_call X n ra f args p h w) (std_call X n ra f args p h' w).
Proof.
  intros Hr Ha. destruct f; cbn [std_call]; unfold print, arr_contains, read.
  all: repeat match goal with
    | H : Forall (held sc) (_ :: _) |- _ => inversion H; clear H; subst
    | |- lib_out _ _ _ (match ?x with _ => _ end) _ => is_var x; destruct x
    | |- context [match ?x with _ => _ end] => is_var x; destruct x
    | |- context [arr_get h' ?l] => rewrite (arr_same sc h h' A l) by (apply held_arr; assumption)
    | |- context [dict_entries h' ?l] => rewrite (dict_same sc h h' A l) by (apply held_dict; assumption)
    | |- lib_out _ _ _ (Val ?v (h, _)) _ => apply out_val; [exact A|]
    | |- lib_out _ _ _ (Pan ?v (h, _)) _ => apply out_pan; [exact A|]
    | |- lib_out _ _ _ (Crash _) (Crash _) => reflexivity
    | |- lib_out _ _ _ Fuel Fuel => exact I
    | |- lib_out _ _ _ (Exit _ _) _ => split; reflexivity
    | |- lib_out _ _ _ (let '(_, _) := new_arr _ _ in _) _ => apply out_made, made_arr; [exact A|]
    | |- lib_out _ _ _ (let '(_, _) := new_dict _ _ in _) _ => apply out_made, made_dict; [exact A|]
    | |- lib_out _ _ _ (walked _ _) _ => apply out_walked; [|intros]
    | |- lib_out _ _ _ (let '(_, _) := new_iter _ _ in _) _ => apply out_iter; [exact A| |intros]
    | |- lib_out _ _ _ (range _ _ _ _ _ _) _ => apply range_out; assumption
    | |- lib_out _ _ _ (Val _ (arr_set _ _ _, _)) _ => apply out_set; [apply held_arr; assumption| |]
    | |- show X _ _ _ = _ => eapply show_same; eassumption
    | |- has_error X _ _ _ = _ => eapply has_error_same; eassumption
    | |- print_all X _ _ _ _ = _ => eapply print_all_same; eassumption
    | |- to_json _ _ _ _ = _ => eapply to_json_same; eassumption
    | |- lib_out _ _ _ (match (match ?x with _ => _ end) with _ => _ end) _ => match x with context [match _ with _ => _ end] => fail 1 | context [from_json] => fail 1 | _ => destruct x eqn:? end
    | |- lib_out _ _ _ (match ?x with _ => _ end) _ => match x with context [match _ with _ => _ end] => fail 1 | context [from_json] => fail 1 | _ => destruct x eqn:? end
    end.
  all: try (holds; fail).
  - apply (any_ext (held sc)); [|apply (arr_held sc h h' A), held_arr; assumption]. intros x Hx. apply (eqv_same sc h h' A); assumption.
  - apply (dict_get_same sc h h' A); [apply held_dict|]; assumption.
  - destruct (x_cwd X w); constructor.
  - unfold held. cbn [pointers]. match goal with H : x_std_glob X _ _ = inr _ |- _ => rewrite (dt_glob X DX _ _ _ _ H) end. constructor.
  - cbn [native_pointers]. match goal with H : sub sc ?sc1 |- _ => repeat constructor; [apply H, held_arr; assumption|assumption] end.
  - apply (order_held sc X DX), (dict_held sc h h' A), held_dict. assumption.
  - pose proof (json_made j sc h h' A) as K. destruct (from_json j h) as [r|], (from_json j h') as [r'|]; try contradiction.
    + apply (out_made _ _ _ r r'), K.
    + apply out_val; [exact A|holds].
  - match goal with E : rev (arr_get h l) = _ :: _, H : held sc (VArr l) |- _ => pose proof (arr_held sc h h' A l (held_arr _ _ H)) as K;
      apply Forall_rev in K; rewrite E in K; inversion K; subst end. apply Forall_rev. assumption.
  - match goal with E : rev (arr_get h l) = _ :: _, H : held sc (VArr l) |- _ => pose proof (arr_held sc h h' A l (held_arr _ _ H)) as K;
      apply Forall_rev in K; rewrite E in K; inversion K; subst end. assumption.
  - apply Forall_app. split; [apply (arr_held sc h h' A), held_arr; assumption|constructor; [assumption|constructor]].
  - apply (sort_ext (held sc)); [|apply (arr_held sc h h' A), held_arr; assumption]. intros x y Hx Hy. apply (vcmp_same sc h h' A); assumption.
  - match goal with E : sort_walk _ _ = Known _, H : held sc (VArr l) |- _ => eapply sort_walk_all; [|exact E]; exact (arr_held sc h h' A l (held_arr _ _ H)) end.
  - match goal with E : typecheck _ _ = _ |- _ => apply typecheck_held in E; [exact E|exact Ha] end.
  - match goal with E : typecheck _ _ = _ |- _ => apply typecheck_held in E; [exact E|exact Ha] end.
  - match goal with E : typecheck _ _ = _ |- _ => apply typecheck_held in E; [exact E|exact Ha] end.
  - match goal with E : typecheck _ _ = _ |- _ => apply typecheck_held in E; [|exact Ha] end. eapply show_same; eassumption.
  - match goal with E : typecheck _ _ = _ |- _ => apply typecheck_held in E; [|exact Ha] end. assumption.
  - match goal with E : typecheck _ _ = _ |- _ => apply typecheck_held in E; [exact E|exact Ha] end.
Qed.

Lemma iteration_out o w : (forall v, o = Some v -> held sc v) -> lib_out sc h h' (iteration o h w) (iteration o h' w).
Proof.
  intros H. unfold iteration. destruct o as [v|]; (apply out_made, made_dict; [exact A|]); holds. apply H. reflexivity.
Qed.
End Calls.

Lemma nth_z_held sc l z v : Forall (held sc) l -> nth_z l z = Some v -> held sc v.
Proof. unfold nth_z. intros H. destruct (z <? 0)%Z; [discriminate|]. intros E. apply nth_error_In in E. rewrite Forall_forall in H. apply H, E. Qed.
Lemma iter_out g sc h h' w : agree sc h h' -> Forall sc (native_pointers g) -> lib_out sc h h' (iter_call g h w) (iter_call g h' w).
Proof.
  intros A Hg. assert (N : lib_out sc h h' (iteration None h w) (iteration None h' w)) by (apply iteration_out; [exact A|discriminate]).
  assert (S : forall st i v, sc (OIter st) -> held_iter sc i -> held sc v ->
    lib_out sc h h' (iteration (Some v) (iter_set h st i) w) (iteration (Some v) (iter_set h' st i) w)).
  { intros st i v Hs Hi Hv. pose proof (iter_set_moved _ _ _ _ _ A Hs Hi) as M. apply (out_after _ _ _ _ _ _ _ _ M).
    apply iteration_out; [apply (moved_agree M)|]. intros ? [= <-]. exact Hv. }
  destruct g; cbn [iter_call native_pointers] in *; try exact N;
    repeat match goal with H : Forall sc (_ :: _) |- _ => inversion H; clear H; subst end;
    match goal with H : sc (OIter ?i) |- _ => rewrite (iter_same sc h h' A i H); destruct (iter_get h i) eqn:E; try exact N end.
  - rewrite (arr_same sc h h' A) by assumption. destruct (nth_z _ _) eqn:F; [|exact N].
    apply S; [assumption|exact I|]. eapply nth_z_held; [|exact F]. apply (arr_held sc h h' A). assumption.
  - destruct (nth_z _ _) eqn:F; [|exact N]. apply S; [assumption|exact I|constructor].
  - match goal with H : sc (OIter ?i) |- _ => pose proof (iter_held sc h h' A _ _ H E) as K end.
    match goal with |- context [rev ?x] => destruct (rev x) as [|[k v] r] eqn:R; [exact N|] end. apply Forall_rev in K. rewrite R in K. inversion K as [|? ? [Hk Hv] Hr]; subst. cbn [fst snd] in *.
    match goal with H : sc (OIter ?i) |- _ => pose proof (iter_set_moved sc h h' i (ISEntries (rev r)) A H (Forall_rev Hr)) as M end.
    apply (out_after _ _ _ _ _ _ _ _ M).
    match goal with |- lib_out sc ?a ?b (let '(_, _) := new_dict _ ?d in _) _ => assert (D : made sc a b (new_dict a d) (new_dict b d)) end.
    { apply made_dict; [apply (moved_agree M)|]. holds. }
    match type of D with made _ ?a ?b ?r ?r' => destruct r as [d1 h1], r' as [d1' h1'] end.
    destruct D as (D1 & sc1 & M1 & D2). cbn [fst snd] in *. subst d1'. apply (out_after _ _ _ _ _ _ _ _ M1).
    apply iteration_out; [apply (moved_agree M1)|]. intros ? [= <-]. exact D2.
  - destruct (if (0 <? step)%Z then _ else _); [exact N|]. apply S; [assumption|exact I|constructor].
  - match goal with |- lib_out _ _ _ (if ?b then _ else _) _ => destruct b end; [exact N|]. apply S; [assumption|exact I|constructor].
Qed.

(** What a thread made *)
Lemma joined_moved sc h h' arrs dicts (v : value) : agree sc h h' ->
  (forall u x, u = v \/ (exists a, In a arrs /\ In u a) \/ (exists d e, In d dicts /\ In e d /\ (u = fst e \/ u = snd e)) ->
     In x (pointers u) -> ~ there h x /\ match x with OArr _ | ODict _ => True | _ => False end) ->
  made sc h h' (v, mkheap (h_cells h) (h_arrs h ++ arrs) (h_dicts h ++ dicts) (h_iters h))
               (v, mkheap (h_cells h') (h_arrs h' ++ arrs) (h_dicts h' ++ dicts) (h_iters h')).
Proof.
  intros A H. split; [reflexivity|]. cbn [fst snd].
  set (sc1 := fun x => sc x \/ ~ there h x /\ match x with OArr _ | ODict _ => True | _ => False end).
  assert (U : sub sc sc1) by (left; assumption).
  assert (HV : forall u, u = v \/ (exists a, In a arrs /\ In u a) \/ (exists d e, In d dicts /\ In e d /\ (u = fst e \/ u = snd e)) -> held sc1 u).
  { intros u Hu. apply Forall_forall. intros x Hx. right. apply (H u x Hu Hx). }
  pose proof (ag_same _ _ _ A) as B. destruct (ag_size _ _ _ A) as (S1 & S2 & S3 & S4).
  exists sc1. split; [|apply HV; auto]. split; split.
  - exact U.
  - intros x [Hx|[Hx _]]; auto.
  - intros []; plainly; rewrite ?app_length; lia.
  - intros [k|k|k|k] T N; plainly; try reflexivity; rewrite app_nth1 by exact T; reflexivity.
  - sizes A.
  - intros [k|k|k|k] Hx; plainly.
    + destruct Hx as [Hx|[_ []]]. exact (B _ Hx).
    + destruct (Nat.lt_ge_cases k (length (h_arrs h))) as [L|L].
      * destruct Hx as [Hx|[Hx _]]; [|contradiction]. rewrite !app_nth1 by lia. exact (B _ Hx).
      * rewrite !app_nth2 by lia. now rewrite S2.
    + destruct (Nat.lt_ge_cases k (length (h_dicts h))) as [L|L].
      * destruct Hx as [Hx|[Hx _]]; [|contradiction]. rewrite !app_nth1 by lia. exact (B _ Hx).
      * rewrite !app_nth2 by lia. now rewrite S3.
    + destruct Hx as [Hx|[_ []]]. exact (B _ Hx).
  - intros [k|k|k|k] Hx; plainly.
    + destruct Hx as [Hx|[_ []]]. exact (values_inside_up _ _ _ _ _ U A Hx).
    + destruct (Nat.lt_ge_cases k (length (h_arrs h))) as [L|L].
      * destruct Hx as [Hx|[Hx _]]; [|contradiction]. rewrite !app_nth1 by lia. exact (values_inside_up _ _ _ _ _ U A Hx).
      * rewrite !app_nth2 by lia. destruct (nth_in_or_default (k - length (h_arrs h)) arrs []) as [I| ->]; [|constructor].
        apply Forall_forall. intros u Hu. apply HV. right; left. eauto.
    + destruct (Nat.lt_ge_cases k (length (h_dicts h))) as [L|L].
      * destruct Hx as [Hx|[Hx _]]; [|contradiction]. rewrite !app_nth1 by lia. exact (values_inside_up _ _ _ _ _ U A Hx).
      * rewrite !app_nth2 by lia. destruct (nth_in_or_default (k - length (h_dicts h)) dicts []) as [I| ->]; [|constructor].
        apply Forall_forall. intros u Hu. apply HV. right; right. apply in_app_or in Hu.
        destruct Hu as [Hu|Hu]; apply in_map_iff in Hu as (e & <- & He); eauto 8.
    + destruct Hx as [Hx|[_ []]]. exact (values_inside_up _ _ _ _ _ U A Hx).
Qed.
Lemma join_out st p sc h h' w : agree sc h h' -> sc (OIter st) -> lib_out sc h h' (join_call X st p h w) (join_call X st p h' w).
Proof.
  intros A Hs. unfold join_call. rewrite (iter_same sc h h' A st Hs).
  destruct (iter_get h st) as [| | |[i|]]; try (apply out_pan; [exact A|constructor]).
  pose proof (iter_set_moved sc h h' st (ISJoin None) A Hs I) as M. apply (out_after _ _ _ _ _ _ _ _ M).
  pose proof (moved_agree M) as A1. pose proof (ag_size _ _ _ A1) as Z.
  destruct (x_join X i (iter_set h st (ISJoin None)) w) as [[[v h1]|e] w1] eqn:E.
  - destruct (dt_join X DX _ _ _ _ _ _ E) as (arrs & dicts & J & P). rewrite (J _ Z).
    pose proof (J (iter_set h st (ISJoin None)) ltac:(repeat split)) as J0. rewrite E in J0. injection J0 as ->.
    pose proof (joined_moved _ _ _ arrs dicts v A1 P) as (D1 & sc1 & M1 & D2). cbn in *. repeat split. exists sc1. split; assumption.
  - destruct (dt_panic X DX _ _ _ _ _ E) as (P & J). rewrite (J _ Z). apply out_pan; [exact A1|]. unfold held_panic. rewrite P. constructor.
Qed.
Lemma native_out n ra f args p sc h h' w : agree sc h h' -> held sc ra -> Forall sc (native_pointers f) -> Forall (held sc) args ->
  lib_out sc h h' (native_call X n ra f args p h w) (native_call X n ra f args p h' w).
Proof.
  intros A Hr Hf Ha. destruct f; cbn [native_call]; try exact I;
    try (destruct args; [apply iter_out; assumption|apply out_pan; [exact A|constructor]]).
  - apply std_out; assumption.
  - unfold regex_call. repeat match goal with
    | H : Forall (held sc) (_ :: _) |- _ => inversion H; clear H; subst
    | |- context [match ?x with _ => _ end] => is_var x; destruct x
    | |- lib_out _ _ _ (Val ?v (h, _)) _ => apply out_val; [exact A|holds]
    | |- lib_out _ _ _ (Pan ?v (h, _)) _ => apply out_pan; [exact A|holds]
    | |- lib_out _ _ _ (let '(_, _) := new_arr _ _ in _) _ => apply out_made, made_arr; [exact A|holds]
    end.
  - apply join_out; [exact A|]. inversion Hf; assumption.
Qed.

(** ** Commands *)
Section Commands.
Variable O : os W.
Variables (sc : live) (h h' : heap) (fetch fetch' : slot -> option value).
Hypothesis A : agree sc h h'.
Hypothesis F : forall s, fetch' s = fetch s.
Hypothesis FH : forall s v, fetch s = Some v -> held sc v.
Variable path : bytes.
Definition alike {B} (b b' : built B) : Prop := b' = b /\ match b with BPanic e => held_panic sc e | _ => True end.
Lemma alike_bind {B C} (m m' : built B) (f f' : B -> built C) : alike m m' -> (forall a, m = Built a -> alike (f a) (f' a)) -> alike (bbind m f) (bbind m' f').
Proof. intros [-> H] K. destruct m; cbn; [apply K; reflexivity|split; auto|split; auto]. Qed.
Lemma alike_map {B C} (f f' : B -> built C) l : (forall a, In a l -> alike (f a) (f' a)) -> alike (bmap f l) (bmap f' l).
Proof.
  induction l as [|a l IH]; intros H; [split; [reflexivity|exact I]|]. cbn [bmap]. apply alike_bind; [apply H; left; reflexivity|]. intros b _.
  apply alike_bind; [apply IH; intros; apply H; right; assumption|]. intros ? _. split; [reflexivity|exact I].
Qed.
Lemma alike_built {B} (b : B) : alike (Built b) (Built b). Proof. split; [reflexivity|exact I]. Qed.
Lemma alike_fetch s : alike (bfetch fetch s) (bfetch fetch' s).
Proof. unfold bfetch. rewrite F. destruct (fetch s); split; try reflexivity; exact I. Qed.
Lemma fetch_held s v : bfetch fetch s = Built v -> held sc v.
Proof. unfold bfetch. destruct (fetch s) eqn:E; [|discriminate]. intros [= <-]. exact (FH _ _ E). Qed.
Lemma alike_value v p : held sc v -> alike (build_basic_value X v p) (build_basic_value X v p).
Proof. intros H. split; [reflexivity|]. destruct v; cbn; try exact I; exact H. Qed.
Lemma alike_part w part a : alike (build_part X fetch h w path part a) (build_part X fetch' h' w path part a).
Proof.
  destruct part as [[s|s p]| | |]; cbn [build_part]; try apply alike_built. apply alike_bind; [apply alike_fetch|].
  intros v Hv. apply fetch_held in Hv. destruct v; try (apply alike_bind; [apply alike_value, Hv|intros; apply alike_built]).
  apply held_arr in Hv. rewrite (arr_same sc h h' A l Hv). pose proof (arr_held sc h h' A l Hv) as K. rewrite Forall_forall in K.
  apply alike_bind; [apply alike_map; intros; apply alike_value; auto|intros; apply alike_built].
Qed.
Lemma alike_parts w parts : forall a, alike (build_parts X fetch h w path parts a) (build_parts X fetch' h' w path parts a).
Proof. induction parts as [|p ps IH]; intros a; cbn [build_parts]; [apply alike_built|]. apply alike_bind; [apply alike_part|intros; apply IH]. Qed.
Lemma alike_argument w a : alike (build_argument X fetch h w path a) (build_argument X fetch' h' w path a).
Proof. apply alike_bind; [apply alike_parts|intros; apply alike_built]. Qed.
Lemma alike_single w o a : alike (build_single_argument X fetch h w path o a) (build_single_argument X fetch' h' w path o a).
Proof. apply alike_bind; [apply alike_argument|]. intros [|x [|y l]] _; split; try reflexivity; try exact I; constructor. Qed.
Lemma alike_env w kv : alike (build_env X fetch h w path kv) (build_env X fetch' h' w path kv).
Proof.
  apply alike_bind; [|intros; apply alike_bind; [apply alike_single|intros; apply alike_built]].
  destruct (fst kv); [apply alike_built|]. apply alike_bind; [apply alike_fetch|]. intros v Hv. apply alike_value, (fetch_held _ _ Hv).
Qed.
Lemma alike_redirection w r : alike (build_redirection X fetch h w path r) (build_redirection X fetch' h' w path r).
Proof. destruct r as [z [f|a|a]|b a]; cbn [build_redirection]; try apply alike_built; (apply alike_bind; [apply alike_single|intros; apply alike_built]). Qed.
Lemma alike_arguments w l : alike (build_arguments X fetch h w path l) (build_arguments X fetch' h' w path l).
Proof. apply alike_bind; [apply alike_map; intros; apply alike_argument|intros; apply alike_built]. Qed.
Lemma alike_basic w c : alike (build_basic_command X fetch h w path c) (build_basic_command X fetch' h' w path c).
Proof.
  apply alike_bind; [apply alike_single|intros]. apply alike_bind; [apply alike_map; intros; apply alike_env|intros].
  apply alike_bind; [apply alike_arguments|intros]. apply alike_bind; [apply alike_map; intros; apply alike_redirection|intros]. apply alike_built.
Qed.
Lemma alike_command w c : alike (build_command X fetch h w path c) (build_command X fetch' h' w path c).
Proof.
  destruct c; cbn [build_command]; (apply alike_bind; [first [apply alike_arguments|apply alike_basic]|intros]); [apply alike_built|].
  apply alike_bind; [apply alike_map; intros; apply alike_basic|intros; apply alike_built].
Qed.
Lemma alike_block w b : alike (build_command_block X fetch h w path b) (build_command_block X fetch' h' w path b).
Proof. apply alike_bind; [apply alike_command|intros]. apply alike_bind; [apply alike_map; intros; apply alike_command|intros; apply alike_built]. Qed.

(** Panics of commands have no values of the heap. *)
Definition calm {B} (m : xstate (W := W) -> ran (W := W) B) : Prop := forall s, match m s with RPanic e _ => panic_pointers e = [] | _ => True end.
Lemma calm_bind {B C} (m : xstate -> ran B) (f : B -> xstate -> ran C) : calm m -> (forall a, calm (f a)) -> calm (xbind m f).
Proof. intros Hm Hf s. specialize (Hm s). unfold xbind. destruct (m s); auto. apply Hf. Qed.
Lemma calm_ret {B} (a : B) : calm (xret a). Proof. intros s; exact I. Qed.
Lemma calm_panic {B} p : panic_pointers p = [] -> calm (xpanic (A := B) p). Proof. intros H s; exact H. Qed.
Lemma calm_ask {B} p f (log : B -> list event) : calm (ask p f log).
Proof. intros s. unfold ask. destruct (f (xs_world s)) as [[e|a] w']; exact I. Qed.
Lemma calm_resolve a p : calm (resolve O a p).
Proof. intros s. destruct a as [x|x]; cbn; [|exact I]. destruct (o_glob O x (xs_world s)); [exact I|reflexivity]. Qed.
Lemma calm_resolve_all l p : calm (resolve_all O l p).
Proof.
  induction l as [|a l IH]; cbn [resolve_all]; [apply calm_ret|]. apply calm_bind; [apply calm_resolve|]. intros x.
  apply calm_bind; [exact IH|]. intros y. apply calm_ret.
Qed.
Lemma calm_resolve_one o a p : calm (resolve_one O o a p).
Proof.
  unfold resolve_one. apply calm_bind; [apply calm_resolve|].
  intros [|x [|y l]]; first [apply calm_ret|apply calm_panic; reflexivity].
Qed.
Lemma calm_wait_child i p : calm (wait_child O i p).
Proof. intros s. unfold wait_child. destruct (o_wait O i (xs_world s)) as [[e|st] w']; exact I. Qed.
Ltac calm_all := repeat first
  [ apply calm_ret | apply calm_panic; reflexivity | apply calm_ask | apply calm_resolve
  | apply calm_resolve_all | apply calm_resolve_one | apply calm_wait_child | match goal with |- forall _, calm _ => intros ? end
  | apply calm_bind
  | match goal with |- calm (if ?b then _ else _) => destruct b end
  | match goal with |- calm (match ?b with _ => _ end) => destruct b end ].
Lemma calm_exit {B} z : calm (fun s => RExit (A := B) z s). Proof. intros s; exact I. Qed.
Lemma calm_builtin b l p : calm (builtin_exec X O b l p).
Proof.
  unfold builtin_exec. apply calm_bind; [apply calm_resolve_all|]. intros r.
  destruct b; try (intros s; exact I); destruct r as [|x [|y r]]; try (apply calm_panic; reflexivity);
  apply calm_bind; try (apply calm_ask); intros ?; first [apply calm_ret|apply calm_exit|apply calm_wait_child].
Qed.
Lemma calm_redirect r io p : calm (redirect O r io p).
Proof. destruct r as [z t|b a]; cbn [redirect]; [destruct t; cbn [resolve_target]|]; calm_all. Qed.
Lemma calm_redirect_all rs io p : calm (redirect_all O rs io p).
Proof.
  revert io. induction rs as [|r rs IH]; intros io; cbn [redirect_all]; [apply calm_ret|].
  apply calm_bind; [apply calm_redirect|exact IH].
Qed.
Lemma calm_resolve_env l p : calm (resolve_env O l p).
Proof.
  induction l as [|[x a] l IH]; cbn [resolve_env]; [apply calm_ret|]. apply calm_bind; [apply calm_resolve_one|]. intros y.
  apply calm_bind; [exact IH|]. intros z. apply calm_ret.
Qed.
Lemma calm_basic c io : calm (basic_exec O c io).
Proof.
  unfold basic_exec. apply calm_bind; [apply calm_resolve_one|]. intros ?. apply calm_bind; [apply calm_resolve_env|].
  intros ?. apply calm_bind; [apply calm_resolve_all|]. intros ?. apply calm_bind; [apply calm_redirect_all|]. intros ?.
  apply calm_ask.
Qed.
Lemma calm_pipe p : calm (new_pipe O p).
Proof. intros s. unfold new_pipe. destruct (o_pipe O (xs_world s)) as [[e|] w']; exact I. Qed.
Lemma calm_spawn_tail cs out err ch : calm (spawn_tail O cs out err ch).
Proof.
  revert out err ch. induction cs as [|c cs IH]; intros out err ch; cbn [spawn_tail]; [apply calm_ret|].
  apply calm_bind; [apply calm_pipe|]. intros ?. apply calm_bind; [apply calm_basic|]. intros ?.
  apply calm_bind; [apply calm_ask|]. intros ?. apply IH.
Qed.
Lemma calm_wait_all ch ab es : calm (wait_all O ch ab es).
Proof.
  revert ab es. induction ch as [|[[i p] a] ch IH]; intros ab es; cbn [wait_all]; [apply calm_ret|].
  apply calm_bind; [apply calm_wait_child|]. intros [e|]; apply IH.
Qed.
Lemma calm_command c out err : calm (command_exec X O c out err).
Proof.
  destruct c as [b l ab p|c cs]; cbn [command_exec].
  - apply calm_bind; [apply calm_builtin|]. intros [e|]; apply calm_ret.
  - apply calm_bind; [apply calm_spawn_tail|]. intros [[a b] ch]. apply calm_bind; [apply calm_ask|]. intros ?.
    apply calm_bind; [apply calm_basic|]. intros ?. apply calm_wait_all.
Qed.
Lemma calm_commands cs out err es : calm (commands_exec X O cs out err es).
Proof.
  revert es. induction cs as [|c cs IH]; intros es; cbn [commands_exec]; [apply calm_ret|].
  apply calm_bind; [apply calm_ask|]. intros ?. apply calm_bind; [apply calm_ask|]. intros ?.
  apply calm_bind; [apply calm_command|]. intros [e ab]. destruct ab; [apply calm_ret|apply IH].
Qed.
Lemma calm_block b out err : calm (block_exec X O b out err).
Proof.
  intros s. unfold block_exec. pose proof (calm_commands (ek_head b :: ek_tail b) out err [] s) as K.
  destruct (commands_exec X O _ out err [] s); auto.
Qed.
End Commands.

Definition makes (f : heap -> value * heap) : Prop := forall sc h h', agree sc h h' -> made sc h h' (f h) (f h').
Lemma makes_values {B} (f : B -> heap -> value * heap) l : (forall x, makes (f x)) -> forall sc h h', agree sc h h' ->
  fst (values_of f l h') = fst (values_of f l h) /\
  exists sc', moved sc h h' sc' (snd (values_of f l h)) (snd (values_of f l h')) /\ Forall (held sc') (fst (values_of f l h)).
Proof.
  intros Hf. induction l as [|x l IH]; intros sc h h' A; cbn [values_of].
  - split; [reflexivity|]. exists sc. split; [apply moved_refl, A|constructor].
  - destruct (Hf x sc h h' A) as (E & sc1 & M & V). destruct (f x h) as [v h1], (f x h') as [v' h1']. cbn [fst snd] in *. subst v'.
    destruct (IH sc1 h1 h1' (moved_agree M)) as (E & sc2 & M2 & V2). destruct (values_of f l h1) as [r h2], (values_of f l h1') as [r' h2'].
    cbn [fst snd] in *. subst r'. split; [reflexivity|]. exists sc2. split; [eapply moved_trans; eassumption|].
    constructor; [apply (held_up (moved_sub M2)), V|exact V2].
Qed.
Lemma makes_many {B} (f : B -> heap -> value * heap) m l : (forall x, makes (f x)) -> makes (many_value f m l).
Proof.
  intros Hf sc h h' A. destruct l as [|x [|y l]]; cbn [many_value].
  - apply made_keep; [exact A|constructor].
  - apply Hf, A.
  - destruct (makes_values f (x :: y :: l) Hf sc h h' A) as (E & sc1 & M & V).
    destruct (values_of f (x :: y :: l) h) as [r h1], (values_of f (x :: y :: l) h') as [r' h1']. cbn [fst snd] in *. subst r'.
    apply (made_after _ _ _ _ _ _ _ _ M). exact (made_err _ _ _ _ _ _ (made_arr _ _ _ r (moved_agree M) V)).
Qed.
Lemma makes_block es : makes (block_value X es).
Proof.
  unfold block_value. apply makes_many. intros x. unfold pipeline_value. apply makes_many. intros e sc h h' A. unfold status_value.
  match goal with |- context [new_dict h ?d] => assert (K : made sc h h' (new_dict h d) (new_dict h' d)) by (apply made_dict; [exact A|holds]) end.
  exact (made_err _ _ _ _ _ _ K).
Qed.
Lemma command_out O fetch fetch' path b p sc h h' w : agree sc h h' -> (forall s, fetch' s = fetch s) -> (forall s v, fetch s = Some v -> held sc v) ->
  lib_out sc h h' (eval_command_block X O fetch path b p h w) (eval_command_block X O fetch' path b p h' w).
Proof.
  intros A F FH. unfold eval_command_block. destruct (alike_block sc h h' fetch fetch' A F FH path w b) as [-> K].
  destruct (build_command_block X fetch h w path b) as [eb|e|c]; [|apply out_pan; assumption|reflexivity]. destruct (xc_kind b).
  - pose proof (calm_block O eb IOStdout IOStderr (mkxstate 0 [] w)) as C.
    destruct (block_exec X O eb IOStdout IOStderr (mkxstate 0 [] w)) as [es s|e q s|e s|c s|c].
    + apply out_made, makes_block, A.
    + apply out_pan; [exact A|constructor].
    + apply out_pan; [exact A|]. unfold held_panic. rewrite C. constructor.
    + split; reflexivity.
    + reflexivity.
  - destruct (o_async O eb w) as [i w1].
    pose proof (new_iter_moved sc h h' (ISJoin (Some i)) A I) as M. unfold new_iter in *. cbn [snd] in M. destruct (ag_size _ _ _ A) as (S1 & S2 & S3 & S4).
    rewrite S4. apply (out_after _ _ _ _ _ _ _ _ M). apply out_made, made_dict; [apply (moved_agree M)|].
    holds. right. reflexivity.
  - destruct (o_pipe O w) as [[e|] w1]; [apply out_pan; [exact A|constructor]|].
    pose proof (calm_block O eb IOCaptureOut IOCaptureErr (mkxstate 0 [] w1)) as C.
    destruct (block_exec X O eb IOCaptureOut IOCaptureErr (mkxstate 0 [] w1)) as [es s|e q s|e s|c s|c].
    + destruct (makes_block es sc h h' A) as (E & sc1 & M & V). destruct (block_value X es h) as [v h1], (block_value X es h') as [v' h1'].
      cbn [fst snd] in *. subst v'. apply (out_after _ _ _ _ _ _ _ _ M).
      destruct (o_captured O (xs_world s)) as [[e|[out err]] w2]; [apply out_pan; [apply (moved_agree M)|constructor]|].
      destruct v; try (apply out_made, made_dict; [apply (moved_agree M)|holds]).
      match goal with |- lib_out _ _ _ (let '(_, _) := ?r in _) (let '(_, _) := ?r' in _) => assert (D : made sc1 h1 h1' r r'); [|destruct r, r'] end.
      { apply made_dict; [apply (moved_agree M)|]. holds. }
      destruct D as (D1 & sc2 & M2 & D2). cbn in *. repeat split; [congruence|]. exists sc2. split; assumption.
    + apply out_pan; [exact A|constructor].
    + apply out_pan; [exact A|]. unfold held_panic. rewrite C. constructor.
    + split; reflexivity.
    + reflexivity.
Qed.
End Library.
