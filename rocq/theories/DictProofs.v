(** Proofs: dicts are finite maps; functions compared by name. *)
From Coq Require Import Strings.String Sorting.Permutation.
From Verif Require Import Base Lexer Ast Program Value StdLib Exec Runtime SpecOrder OrderProofs LibProofs TextProofs DataProofs SpecRuntime OperatorProofs.

Lemma dict_entries_set h l d : l < length (h_dicts h) -> dict_entries (dict_set h l d) l = d.
Proof. intros L. unfold dict_entries, dict_set. cbn [h_dicts]. now apply nth_list_set. Qed.
Lemma list_set_other {A} (l : list A) : forall i j x d, i <> j -> nth j (list_set l i x) d = nth j l d.
Proof. induction l as [|y l IH]; intros [|i] [|j] x d N; cbn [list_set nth]; auto; try congruence. Qed.
Lemma dict_entries_other h l d l' : l' <> l -> dict_entries (dict_set h l d) l' = dict_entries h l'.
Proof. intros N. unfold dict_entries, dict_set. cbn [h_dicts]. apply list_set_other. congruence. Qed.

Lemma reads_dict_set h l d : forall n v t, reads (LockDict l) h n v t -> reads (LockDict l) (dict_set h l d) n v t.
Proof.
  induction n as [|n IH]; intros v t R; [destruct R|]. cbn [reads] in *. destruct v, t; try contradiction; auto.
  - destruct R as [E F]. split; [exact E|]. eapply Forall2_mono; [|exact F]. auto.
  - destruct R as (E & S & us & P & F). split; [exact E|]. split; [exact S|]. exists us. split; [exact P|].
    cbn [dict_locked] in E. apply Nat.eqb_neq in E. rewrite dict_entries_other by exact E.
    eapply Forall2_mono; [|exact F]. intros e u [A B]. auto.
  - destruct R as [E R]. auto.
Qed.
Lemma reads_unlock k h : forall n v t, reads k h n v t -> reads LockNone h n v t.
Proof.
  induction n as [|n IH]; intros v t R; [destruct R|]. cbn [reads] in *. destruct v, t; try contradiction; auto.
  - destruct R as [E F]. split; [reflexivity|]. eapply Forall2_mono; [|exact F]. auto.
  - destruct R as (E & S & us & P & F). split; [reflexivity|]. split; [exact S|]. exists us. split; [exact P|].
    eapply Forall2_mono; [|exact F]. intros e u [A B]. auto.
  - destruct R as [E R]. auto.
Qed.

Definition holds_at (h : heap) (l : loc) (n : nat) (e : value * value) (tv : tree * value) : Prop :=
  reads (LockDict l) h n (fst e) (fst tv) /\ snd e = snd tv.
Definition represents_at (h : heap) (l : loc) (n : nat) (m : list (tree * value)) : Prop :=
  l < length (h_dicts h) /\ NoDup (map fst m) /\ Forall2 (holds_at h l n) (dict_entries h l) m.

Lemma entries_depth h l : forall es m,
  Forall2 (fun (e : value * value) (tv : tree * value) => (exists n, reads (LockDict l) h n (fst e) (fst tv)) /\ snd e = snd tv) es m ->
  exists n, Forall2 (holds_at h l n) es m.
Proof.
  induction 1 as [|e tv es m [[n R] E] F [i IH]]; [exists 0; constructor|]. exists (n + i). constructor.
  - split; [|exact E]. apply (reads_mono _ _ n); [lia|exact R].
  - eapply Forall2_mono; [|exact IH]. intros x y [A B]. split; [|exact B]. apply (reads_mono _ _ i); [lia|exact A].
Qed.
Lemma represents_depth h l m : represents h l m -> exists n, represents_at h l n m.
Proof. intros (L & N & F). destruct (entries_depth _ _ _ _ F) as [n Fn]. exists n. repeat split; auto. Qed.
Lemma holds_mono h l n n' es m : n <= n' -> Forall2 (holds_at h l n) es m -> Forall2 (holds_at h l n') es m.
Proof. intros L. apply Forall2_mono. intros x y [A B]. split; [|exact B]. now apply (reads_mono _ _ n). Qed.
Lemma represents_mono h l n n' m : n <= n' -> represents_at h l n m -> represents_at h l n' m.
Proof. intros L (A & B & C). repeat split; auto. now apply (holds_mono h l n). Qed.
Lemma represents_any h l n m : represents_at h l n m -> represents h l m.
Proof. intros (A & B & C). repeat split; auto. eapply Forall2_mono; [|exact C]. intros x y [R E]. split; eauto. Qed.

Lemma find_known h l n key t : reads (LockDict l) h n key t -> forall es m, Forall2 (holds_at h l n) es m ->
  exists r, find_entry (eqv h n true) key es = Known r /\
    match r with Some v => In (t, v) m | None => ~ In t (map fst m) end.
Proof.
  intros R es m F. induction F as [|[x w] [u w'] es m [Rx E] F (r & Q & IH)]; [exists None; split; [reflexivity|intros []]|].
  cbn [fst snd] in *. subst w'. cbn [find_entry].
  destruct (eqv_ok h (LockDict l) (LockDict l) n true _ _ _ _ R Rx) as (e & -> & A & _). specialize (A eq_refl). cbn [wbind]. destruct e.
  - exists (Some w). split; [reflexivity|]. left. f_equal. symmetry. now apply A.
  - exists r. split; [exact Q|]. destruct r as [v|]; [now right|]. cbn [map fst In]. intros [<-|I]; [|exact (IH I)].
    assert (false = true) by (now apply A). discriminate.
Qed.

Lemma put_known h l n key t v : reads (LockDict l) h n key t -> forall es m, Forall2 (holds_at h l n) es m -> NoDup (map fst m) ->
  exists d m', (forall n', n <= n' -> put_entry (eqv h n' true) key v es = Known d) /\ Forall2 (holds_at h l n) d m' /\ NoDup (map fst m') /\
    (forall t' v', In (t', v') m' <-> (t' = t /\ v' = v) \/ (t' <> t /\ In (t', v') m)) /\
    (forall t', In t' (map fst m') <-> t' = t \/ In t' (map fst m)).
Proof.
  intros R es m F. induction F as [|[x w] [u w'] es m [Rx E] F IH]; intros N.
  - exists [(key, v)], [(t, v)]. split; [reflexivity|]. split; [constructor; [split; auto|constructor]|].
    split; [constructor; [intros []|constructor]|]. split; [intros t' v'; cbn; intuition congruence|]. intros t'. cbn. intuition congruence.
  - cbn [fst snd map] in *. subst w'. inversion N as [|? ? Nu N']; subst. 
    destruct (eqv_ok h (LockDict l) (LockDict l) n true _ _ _ _ R Rx) as (e & K & A & _). specialize (A eq_refl). cbn [put_entry].
    assert (K' : forall n', n <= n' -> eqv h n' true key x = Known e) by (intros n' Ln; now apply (eqv_mono h n n')). destruct e.
    + assert (t = u) by now apply A. subst u. exists ((x, v) :: es), ((t, v) :: m). split; [intros n' Ln; now rewrite (K' n' Ln)|].
      split; [constructor; [split; auto|exact F]|]. split; [constructor; auto|]. split; [|intros t'; cbn; intuition congruence]. intros t' v'. cbn. split.
      * intros [H|H]; [left; split; congruence|]. right. split; [|now right]. intros ->. apply Nu. apply in_map_iff. now exists (t, v').
      * intros [[-> ->]|[H [H'|H']]]; [now left|congruence|now right].
    + assert (NE : t <> u) by (intros ->; assert (false = true) by (now apply A); discriminate).
      destruct (IH N') as (d & m' & Q & F' & N'' & S & S'). exists ((x, w) :: d), ((u, w) :: m'). split; [intros n' Ln; rewrite (K' n' Ln); cbn [wbind]; now rewrite (Q n' Ln)|].
      split; [constructor; [split; auto|exact F']|]. split.
      * cbn. constructor; auto. intros I. apply in_map_iff in I. destruct I as ([u' v'] & E' & I). cbn in E'. subst u'.
        apply S in I. destruct I as [[-> _]|[_ I]]; [congruence|]. apply Nu. apply in_map_iff. now exists (u, v').
      * split; [|intros t'; cbn; rewrite S'; tauto]. intros t' v'. cbn. rewrite S. split.
        -- intros [H|[H|[H I]]]; [right; split; [congruence|now left]|now left|right; split; [exact H|now right]].
        -- intros [H|[H [I|I]]]; [right; now left|now left|right; right; now split].
Qed.

(** What is found after an insertion *)
Lemma looks_first m m1 t1 v1 :
  (forall t v, In (t, v) m1 <-> (t = t1 /\ v = v1) \/ (t <> t1 /\ In (t, v) m)) ->
  forall rest t r, looks_up m1 rest t r -> looks_up m ((t1, v1) :: rest) t r.
Proof.
  intros S rest t r H. induction H as [t v I|t N|kvs t v|kvs t k v r N _ IH].
  - apply S in I. destruct I as [[-> ->]|[N I]]; [apply (lu_last m [])|]. apply (lu_before m [] t t1 v1); [congruence|now constructor].
  - assert (t <> t1).
    { intros ->. apply N. apply in_map_iff. exists (t1, v1). split; [reflexivity|]. apply S. now left. }
    apply (lu_before m [] t t1 v1); [congruence|]. constructor. intros I. apply N. apply in_map_iff in I. destruct I as ([k v] & E & I).
    cbn in E. subst k. apply in_map_iff. exists (t, v). split; [reflexivity|]. apply S. now right.
  - apply (lu_last m ((t1, v1) :: kvs)).
  - now apply (lu_before m ((t1, v1) :: kvs)).
Qed.
Lemma looks_det m : NoDup (map fst m) -> forall kvs t r r', looks_up m kvs t r -> looks_up m kvs t r' -> r = r'.
Proof.
  intros N kvs t r r' H. revert r'. induction H as [t v I|t A|kvs t v|kvs t k v r NE _ IH]; intros r' H'.
  - inversion H' as [? v' I'|? A'|? ? ? E|? ? ? ? ? ? ? E]; subst; try (destruct kvs; discriminate).
    + f_equal. clear -N I I'. induction m as [|[u w] m IH]; [destruct I|]. cbn in N. inversion N as [|? ? Nu N']; subst.
      destruct I as [I|I], I' as [I'|I'].
      * congruence.
      * exfalso. apply Nu. apply in_map_iff. exists (t, v'). split; [cbn; congruence|exact I'].
      * exfalso. apply Nu. apply in_map_iff. exists (t, v). split; [cbn; congruence|exact I].
      * now apply IH.
    + exfalso. apply A'. apply in_map_iff. now exists (t, v).
  - inversion H' as [? v' I'|? A'|? ? ? E|? ? ? ? ? ? ? E]; subst; try (destruct kvs; discriminate); [|reflexivity].
    exfalso. apply A. apply in_map_iff. now exists (t, v').
  - inversion H' as [? v' I' E|? A' E|? ? ? E|? ? ? ? ? ? ? E]; subst; try (destruct kvs; discriminate).
    + apply app_inj_tail in E. destruct E as [_ E]. congruence.
    + apply app_inj_tail in E. destruct E as [_ E]. congruence.
  - inversion H' as [? v' I' E|? A' E|? ? ? E|? ? ? ? ? ? ? E]; subst; try (destruct kvs; discriminate).
    + apply app_inj_tail in E. destruct E as [_ E]. congruence.
    + apply app_inj_tail in E. destruct E as [-> _]. now apply IH.
Qed.
Section Insert.
Context {W : Type}.

Lemma insert_known l n p : forall kvs tvs m (s : state W),
  represents_at (st_heap s) l n m ->
  Forall2 (holds_at (st_heap s) l n) kvs tvs ->
  exists h' m', (forall n', n <= n' -> insert_all n' (VDict l) kvs p s = Val tt (set_heap s h')) /\
    (exists d, h' = dict_set (st_heap s) l d) /\ represents_at h' l n m' /\
    (forall t v, In (t, v) m' -> looks_up m tvs t (Some v)) /\ (forall t, ~ In t (map fst m') -> looks_up m tvs t None) /\
    (forall t, In t (map fst m') <-> In t (map fst m) \/ In t (map fst tvs)).
Proof.
  intros kvs tvs m s R F. revert m s R F. revert tvs. induction kvs as [|[k v] kvs IH]; intros tvs m s R F; inversion F as [|? [t1 v1] ? rest [Rk Ev] F']; subst.
  - exists (st_heap s), m. split; [intros n' _; cbn; destruct s; reflexivity|].
    split; [exists (dict_entries (st_heap s) l); unfold dict_set, dict_entries; rewrite list_set_same; now destruct (st_heap s)|].
    split; [exact R|]. repeat split; intros; [now constructor|now constructor|now left|]. destruct H as [H|[]]; exact H.
  - cbn [fst snd] in *. subst v1. destruct R as (L & N & Fe).
    destruct (put_known _ _ _ _ _ v Rk _ _ Fe N) as (d & m1 & Q & Fd & N1 & S & S').
    set (h1 := dict_set (st_heap s) l d).
    assert (F1 : forall x y, holds_at (st_heap s) l n x y -> holds_at h1 l n x y).
    { intros x y [A B]. split; [|exact B]. now apply reads_dict_set. }
    assert (R1 : represents_at h1 l n m1).
    { split; [unfold h1, dict_set; cbn; now rewrite list_set_length|]. split; [exact N1|]. unfold h1. rewrite dict_entries_set by exact L.
      eapply Forall2_mono; [exact F1|exact Fd]. }
    destruct (IH rest m1 (set_heap s h1) R1) as (h' & m' & E & [d' Eh] & R' & S1 & S2 & S3).
    { eapply Forall2_mono; [exact F1|exact F']. }
    exists h', m'. split; [|split; [|split; [exact R'|split; [|split]]]].
    + intros n' Ln. cbn [insert_all]. unfold bind at 1. unfold assign_field. unfold bind, get, dict_put.
      rewrite (hash_ok _ _ _ _ _ (reads_mono _ _ _ _ _ _ Ln Rk)). cbn [wbind]. rewrite (Q n' Ln). cbn [of_walk ret put]. now apply E.
    + exists d'. rewrite Eh. unfold h1, set_heap, dict_set. cbn [st_heap h_cells h_arrs h_dicts h_iters]. now rewrite list_set_set.
    + intros t v' I. apply (looks_first m m1 t1 v S). auto.
    + intros t I. apply (looks_first m m1 t1 v S). auto.
    + intros t. rewrite S3, S'. cbn [map fst In]. intuition congruence.
Qed.

Lemma dict_map (X : ext W) l m kvs tvs p (s : state W) :
  represents (st_heap s) l m ->
  Forall2 (fun (e : value * value) (tv : tree * value) =>
             (exists n, reads (LockDict l) (st_heap s) n (fst e) (fst tv)) /\ snd e = snd tv) kvs tvs ->
  exists N h', (exists d, h' = dict_set (st_heap s) l d) /\
    (forall n, N <= n -> insert_all n (VDict l) kvs p s = Val tt (set_heap s h')) /\
    (forall key t r, (exists n, reads (LockDict l) (st_heap s) n key t) -> looks_up m tvs t r ->
       exists N', forall n q q', N' <= n ->
         access n (VDict l) q key q' (set_heap s h') =
         match r with Some v => Val v (set_heap s h') | None => Pan (PIndexOutOfBounds key q') (set_heap s h') end) /\
    (exists ks, NoDup ks /\ (forall t, In t ks <-> In t (map fst m) \/ In t (map fst tvs)) /\
       forall n args q w, std_call X n args SLen [VDict l] q h' w = Val (VInt (Z.of_nat (length ks))) (h', w)).
Proof.
  intros R F. destruct (represents_depth _ _ _ R) as [i Ri]. destruct (entries_depth _ _ _ _ F) as [j Fj].
  destruct (insert_known l (i + j) p kvs tvs m s) as (h' & m' & E & D & R' & S1 & S2 & S3).
  { apply (represents_mono _ _ i); [lia|exact Ri]. }
  { apply (holds_mono _ _ j); [lia|exact Fj]. }
  exists (i + j), h'. split; [exact D|]. split; [exact E|]. split.
  - intros key t r [n Rk] Lk. exists (i + j + n). intros n' q q' L.
    assert (Rk' : reads (LockDict l) h' n' key t).
    { destruct D as [d ->]. apply reads_dict_set. apply (reads_mono _ _ n); [lia|exact Rk]. }
    destruct (represents_mono h' l (i + j) n' m' ltac:(lia) R') as (_ & _ & Fe).
    destruct (find_known _ _ _ _ _ Rk' _ _ Fe) as (r' & Q & M).
    assert (r = r').
    { destruct R as (_ & N & _). apply (looks_det m N tvs t); [exact Lk|]. destruct r'; auto. }
    subst r'. unfold access, bind, get. cbn [set_heap st_heap]. unfold dict_get.
    rewrite (hash_ok _ _ _ _ _ (reads_unlock _ _ _ _ _ Rk')). cbn [wbind]. rewrite Q. now destruct r.
  - exists (map fst m'). destruct R' as (_ & N & Fe). split; [exact N|]. split; [exact S3|]. intros n args q w. cbn [std_call].
    rewrite map_length, (Forall2_len _ _ _ Fe). reflexivity.
Qed.
End Insert.

(** ** Functions of the library are equal only to themselves *)
Lemma std_name_inj f g : std_name f = std_name g -> f = g.
Proof. destruct f, g; try reflexivity; vm_compute; discriminate. Qed.
Lemma std_equal h n f g : eqv h n false (VFun (FRust (NStd f))) (VFun (FRust (NStd g))) = Known true -> f = g.
Proof.
  destruct n as [|n]; [discriminate|]. cbn [eqv native_name]. intros E. apply std_name_inj. apply bytes_eqb_eq. congruence.
Qed.
