(** Proofs: hashing respects equality; hash tables are finite maps. *)
From Coq Require Import Strings.String Sorting.Permutation Sorting.Sorted.
From Verif Require Import Base Lexer Ast Program Value StdLib Exec Runtime SpecOrder OrderProofs LibProofs TextProofs DataProofs SpecRuntime OperatorProofs DictProofs HashTable SpecHash.

(** ** What a tree gives to the hasher *)
Definition ttag (t : tree) : mark := MTag (rank t).
Fixpoint tfeed (t : tree) : list mark :=
  match t with
  | TNil => [ttag t]
  | TBool b => [ttag t; MByte (if b then x01 else x00)]
  | TByte b => [ttag t; MByte b]
  | TInt z => [ttag t; MInt z]
  | TFloat f => [ttag t; MBits f]
  | TStr s => ttag t :: MLen (length s) :: map MByte s
  | TArr l => ttag t :: MLen (length l) :: flat_map tfeed l
  | TDict l => ttag t :: MLen (length l) :: flat_map (fun e : tree * tree => tfeed (fst e) ++ tfeed (snd e)) l
  | TErr d c => ttag t :: MLen (length d) :: map MByte d ++ tfeed c
  end.

Lemma feed_all_ok {A B} (f : A -> walk (list mark)) (g : B -> list mark) (R : A -> B -> Prop) :
  (forall x y, R x y -> f x = Known (g y)) -> forall l m, Forall2 R l m -> feed_all f l = Known (flat_map g m).
Proof.
  intros H l m F. induction F as [|x y l m Rx F IH]; [reflexivity|]. cbn [feed_all flat_map]. rewrite (H _ _ Rx). cbn [wbind].
  rewrite IH. reflexivity.
Qed.

Lemma ordered_ok rk k h n l ts us : in_order ts -> Permutation us ts -> Forall2 (entry_reads k h n) (dict_entries h l) us ->
  exists es, ordered_entries rk h n k l = Known es /\ Forall2 (entry_reads k h n) es ts.
Proof.
  intros O P F. unfold ordered_entries.
  destruct (sort_rel (entry_reads k h n) (fun e e' : value * value => vcmp rk h n k (fst e) (fst e')) keyc) with (l := dict_entries h l) (us := us)
    as (l' & E & F'); [|exact F|].
  - intros x u y v [R _] [R' _]. unfold keyc. now apply vcmp_ok.
  - rewrite (isort_order us ts O P) in F'. exists l'. split; [|exact F']. rewrite E. cbn [wbind]. now apply (dedup_ok k h n l' ts).
Qed.

Lemma feed_ok rk k h : forall n v t, reads k h n v t -> feed rk h n k v = Known (tfeed t).
Proof.
  induction n as [|n IH]; intros v t R; [destruct R|]. cbn [reads] in R. cbn [feed].
  destruct v, t; try contradiction; cbn [get_type type_rank tfeed ttag rank]; try (subst; reflexivity).
  - destruct R as [<- _]. reflexivity.
  - destruct R as [-> F]. rewrite (feed_all_ok _ tfeed (reads k h n) IH _ _ F). cbn [wbind]. now rewrite (Forall2_len _ _ _ F).
  - destruct R as (-> & O & us & P & F). destruct (ordered_ok rk k h n l _ us O P F) as (es & -> & Fe). cbn [wbind].
    rewrite (feed_all_ok _ (fun e : tree * tree => tfeed (fst e) ++ tfeed (snd e)) (entry_reads k h n)) with (m := l0); [|intros x y [A B]|exact Fe].
    + cbn [wbind]. now rewrite (Forall2_len _ _ _ Fe).
    + rewrite (IH _ _ A). cbn [wbind]. rewrite (IH _ _ B). reflexivity.
  - destruct R as [-> R]. rewrite (IH _ _ R). reflexivity.
Qed.

(** No tree gives a part of what another one gives. *)
Lemma map_split {A B} (f : A -> B) : (forall x y, f x = f y -> x = y) -> forall a b r r', length a = length b ->
  map f a ++ r = map f b ++ r' -> a = b /\ r = r'.
Proof.
  intros I. induction a as [|x a IH]; intros [|y b] r r' L E; try discriminate; [now split|].
  cbn in E. injection E as E1 E2. apply I in E1. subst y. destruct (IH b r r' ltac:(cbn in L; lia) E2) as [-> ->]. now split.
Qed.
Lemma flat_split {A} (g : A -> list mark) : forall a b r r', length a = length b ->
  Forall (fun x => forall y r r', g x ++ r = g y ++ r' -> x = y /\ r = r') a ->
  flat_map g a ++ r = flat_map g b ++ r' -> a = b /\ r = r'.
Proof.
  induction a as [|x a IH]; intros [|y b] r r' L F E; try discriminate; [now split|].
  inversion F as [|? ? Fx Fa]; subst. cbn [flat_map] in E. rewrite <- !app_assoc in E. destruct (Fx _ _ _ E) as [-> E'].
  destruct (IH b r r' ltac:(cbn in L; lia) Fa E') as [-> ->]. now split.
Qed.
Lemma tree_size (P : tree -> Prop) : (forall t, (forall u, tsize u < tsize t -> P u) -> P t) -> forall t, P t.
Proof.
  intros H. assert (G : forall n t, tsize t < n -> P t).
  { induction n as [|n IH]; intros t L; [lia|]. apply H. intros u Lu. apply IH. lia. }
  intros t. apply (G (S (tsize t))). lia.
Qed.

Lemma tfeed_split : forall t u r r', tfeed t ++ r = tfeed u ++ r' -> t = u /\ r = r'.
Proof.
  apply (tree_size (fun t => forall u r r', tfeed t ++ r = tfeed u ++ r' -> t = u /\ r = r')). intros t IH u r r' E.
  assert (MB : forall x y : byte, MByte x = MByte y -> x = y) by (intros; congruence).
  destruct t, u; cbn [tfeed ttag rank app] in E; try discriminate;
    try (injection E; intros; subst; split; congruence).
  - injection E. intros -> E'. split; [|reflexivity]. destruct b, b0; congruence.
  - injection E. intros E' L. destruct (map_split MByte MB _ _ _ _ L E') as [-> ->]. now split.
  - injection E. intros E' L. destruct (flat_split tfeed l l0 r r' L) as [-> ->]; [|exact E'|now split].
    apply Forall_forall. intros x I. apply IH. now apply size_in.
  - injection E. intros E' L. destruct (flat_split (fun e : tree * tree => tfeed (fst e) ++ tfeed (snd e)) l l0 r r' L) as [-> ->]; [|exact E'|now split].
    apply Forall_forall. intros [x1 x2] I [y1 y2] s s' Q. cbn [fst snd] in Q. rewrite <- !app_assoc in Q.
    destruct (size_entry _ _ I) as [L1 L2]. cbn [fst snd] in L1, L2.
    destruct (IH x1 L1 _ _ _ Q) as [-> Q']. destruct (IH x2 L2 _ _ _ Q') as [-> ->]. now split.
  - injection E. intros E' L. rewrite <- !app_assoc in E'. destruct (map_split MByte MB _ _ _ _ L E') as [-> Q].
    destruct (IH t ltac:(cbn; lia) _ _ _ Q) as [-> ->]. now split.
Qed.
Lemma tfeed_inj t u : tfeed t = tfeed u -> t = u.
Proof. intros E. apply (tfeed_split t u [] []). now rewrite E. Qed.

(** ** Equal trees without -0.0 are the same *)
Lemma floatc_same x y : x <> S754_zero true -> y <> S754_zero true -> floatc x y = Eq -> x = y.
Proof.
  intros Nx Ny. unfold floatc. destruct x as [s|s| |s m e], y as [s'|s'| |s' m' e']; cbn; try discriminate;
    try (destruct s, s'; congruence); try (destruct s'; discriminate); try (destruct s; discriminate); try reflexivity.
  destruct s, s'; try discriminate; destruct (Z.compare_spec e e'); try discriminate; subst;
    destruct (Pos.compare_cont Eq m m') eqn:C; try discriminate; apply Pos.compare_eq in C; congruence.
Qed.
Lemma lexc_same {A} (c : A -> A -> comparison) (Q : A -> Prop) : forall a b,
  Forall (fun x => forall y, Q x -> Q y -> c x y = Eq -> x = y) a ->
  fold_right (fun x P => Q x /\ P) True a -> fold_right (fun x P => Q x /\ P) True b -> lexc c a b = Eq -> a = b.
Proof.
  induction a as [|x a IH]; intros [|y b] F Ha Hb E; try discriminate; [reflexivity|].
  inversion F as [|? ? Fx Fa]; subst. cbn in Ha, Hb. cbn [lexc] in E. destruct (c x y) eqn:C; try discriminate.
  f_equal; [apply Fx; tauto|apply IH; tauto].
Qed.
Lemma tcmp_same : forall t u, no_minus_zero t -> no_minus_zero u -> tcmp t u = Eq -> t = u.
Proof.
  apply (tree_size (fun t => forall u, no_minus_zero t -> no_minus_zero u -> tcmp t u = Eq -> t = u)). intros t IH u Nt Nu E.
  destruct t, u; cbn [tcmp] in E; try discriminate; cbn [no_minus_zero] in Nt, Nu; try reflexivity.
  - destruct b, b0; try discriminate; reflexivity.
  - apply bytec_eq in E. congruence.
  - apply Z.compare_eq_iff in E. congruence.
  - f_equal. now apply floatc_same.
  - apply lexc_bytec_eq in E. congruence.
  - f_equal. apply (lexc_same tcmp no_minus_zero); auto. apply Forall_forall. intros x I. apply IH. now apply size_in.
  - f_equal. apply (lexc_same (pairc tcmp tcmp) (fun e : tree * tree => no_minus_zero (fst e) /\ no_minus_zero (snd e))); auto.
    apply Forall_forall. intros [x1 x2] I [y1 y2] [A1 A2] [B1 B2]. unfold pairc. cbn [fst snd] in *.
    destruct (size_entry _ _ I) as [L1 L2]. cbn [fst snd] in L1, L2.
    destruct (tcmp x1 y1) eqn:C; try discriminate. intros C'. f_equal; [now apply IH|now apply IH].
  - destruct (lexc bytec description description0) eqn:D; try discriminate. apply lexc_bytec_eq in D. subst. f_equal.
    apply IH; [cbn; lia|exact Nt|exact Nu|exact E].
Qed.

(** ** Equal with the same bits is equal *)
Lemma float_same_eqb x y : float_same x y = true -> float_eqb x y = true.
Proof. destruct x, y; cbn; auto. Qed.
Lemma all2_weaken {A} (f g : A -> A -> walk bool) : (forall x y, f x y = Known true -> g x y = Known true) ->
  forall a b, all2 f a b = Known true -> all2 g a b = Known true.
Proof.
  intros H. induction a as [|x a IH]; intros [|y b] E; try discriminate; [reflexivity|]. cbn [all2] in *.
  destruct (f x y) as [[]| |] eqn:Q; try discriminate. rewrite (H _ _ Q). cbn [wbind] in *. now apply IH.
Qed.
Lemma eqv_weaken h : forall n a b, eqv h n true a b = Known true -> eqv h n false a b = Known true.
Proof.
  induction n as [|n IH]; intros a b E; [discriminate|]. destruct a, b; try exact E; cbn [eqv] in *.
  - f_equal. injection E as E. now apply float_same_eqb.
  - destruct (Nat.eqb _ _); [|exact E]. revert E. now apply all2_weaken.
  - destruct (Nat.eqb _ _); [|exact E]. revert E. generalize (dict_entries h l). intros d. induction d as [|[key v] d IHd]; [auto|].
    destruct (find_entry (eqv h n true) key (dict_entries h l0)) as [[w|]| |]; cbn [wbind]; auto.
    destruct (eqv h n true v w) as [[]| |] eqn:Q; cbn [wbind]; try discriminate. rewrite (IH _ _ Q). cbn [wbind]. exact IHd.
  - destruct f, f0; try exact E. destruct (_ && _ && _); [|exact E]. revert E. apply all2_weaken. intros x y.
    destruct (eqv h n true _ _) as [[]| |] eqn:Q; cbn [wbind]; try discriminate. now rewrite (IH _ _ Q).
  - destruct (bytes_eqb _ _); [|exact E]. now apply IH.
Qed.

(** ** Hashing respects equality *)
Lemma feed_data rk h k n v t : reads k h n v t -> hashed_as rk h v (tfeed t).
Proof. intros R. exists n. intros m L. apply feed_ok. apply (reads_mono _ _ n); [exact L|]. now apply (reads_unlock k). Qed.
Lemma hashed_det rk h v f g : hashed_as rk h v f -> hashed_as rk h v g -> f = g.
Proof. intros [n A] [m B]. specialize (A (n + m) ltac:(lia)). specialize (B (n + m) ltac:(lia)). congruence. Qed.
Lemma equals_same h k k' n a b t u : reads k h n a t -> reads k' h n b u -> equals h a b -> tcmp t u = Eq.
Proof.
  intros R S [m E]. destruct (eqv_ok h k k' (n + m) false _ _ _ _ (reads_mono _ _ n (n + m) _ _ ltac:(lia) R) (reads_mono _ _ n (n + m) _ _ ltac:(lia) S)) as (r & Q & _ & B & _).
  rewrite (E (n + m) ltac:(lia)) in Q. injection Q as <-. auto.
Qed.
Lemma same_equals h k k' n a b t : reads k h n a t -> reads k' h n b t -> forall m, n <= m -> eqv h m false a b = Known true.
Proof.
  intros R S m L. apply eqv_weaken. destruct (eqv_ok h k k' m true _ _ _ _ (reads_mono _ _ n _ _ _ L R) (reads_mono _ _ n _ _ _ L S)) as (r & Q & A & _).
  rewrite Q. f_equal. now apply A.
Qed.

Lemma equal_hash rk h a b t u : data h a t -> data h b u -> no_minus_zero t -> no_minus_zero u ->
  exists f g, hashed_as rk h a f /\ hashed_as rk h b g /\ (f = g <-> equals h a b).
Proof.
  intros [n R] [m S] Nt Nu. exists (tfeed t), (tfeed u). split; [now apply (feed_data rk h LockNone n)|]. split; [now apply (feed_data rk h LockNone m)|].
  assert (R' := reads_mono _ _ n (n + m) _ _ ltac:(lia) R). assert (S' := reads_mono _ _ m (n + m) _ _ ltac:(lia) S). split.
  - intros E. apply tfeed_inj in E. subst u. exists (n + m). now apply (same_equals h LockNone LockNone (n + m) a b t).
  - intros E. f_equal. apply tcmp_same; auto. exact (equals_same _ _ _ _ _ _ _ _ R' S' E).
Qed.

(** ** Tables *)
Section Table.
Variable rk : bytes -> N.
Variable hasher : list mark -> N.
Variable seen : list N -> N -> list nat.
Hypothesis Seen : thorough seen.
Variable h : heap.
Variable l : loc.

Definition placed_at (n : nat) (b : bucket) (e : tree * value) : Prop :=
  bk_val b = snd e /\ no_minus_zero (fst e) /\ reads (LockDict l) h n (bk_key b) (fst e) /\ bk_hash b = hasher (tfeed (fst e)).
Definition in_place_at (n : nat) (t : table) (m : list (tree * value)) : Prop := NoDup (map fst m) /\ Forall2 (placed_at n) t m.

Lemma placed_mono n n' t m : n <= n' -> Forall2 (placed_at n) t m -> Forall2 (placed_at n') t m.
Proof. intros L. apply Forall2_mono. intros b e (A & B & C & D). repeat split; auto. now apply (reads_mono _ _ n). Qed.
Lemma in_place_depth t m : in_place rk hasher h l t m -> exists n, in_place_at n t m.
Proof.
  intros [N F]. enough (exists n, Forall2 (placed_at n) t m) as [n G] by (exists n; now split). clear N.
  induction F as [|b e t m (A & B & [n R] & f & Hf & E) F [i IH]]; [exists 0; constructor|]. exists (n + i). constructor.
  - repeat split; auto; [apply (reads_mono _ _ n); [lia|exact R]|]. rewrite E. f_equal. apply (hashed_det rk h (bk_key b)); [exact Hf|].
    now apply (feed_data rk h _ n _ _ R).
  - apply (placed_mono i); [lia|exact IH].
Qed.
Lemma in_place_any n t m : in_place_at n t m -> in_place rk hasher h l t m.
Proof.
  intros [N F]. split; [exact N|]. eapply Forall2_mono; [|exact F]. intros b e (A & B & R & D). repeat split; auto; [eauto|].
  exists (tfeed (fst e)). split; [now apply (feed_data rk h _ n _ _ R)|exact D].
Qed.

Lemma Forall2_nth {A B} (R : A -> B -> Prop) a b i x : Forall2 R a b -> nth_error a i = Some x -> exists y, nth_error b i = Some y /\ R x y.
Proof.
  intros F. revert i. induction F as [|x' y' a b Rx F IH]; intros [|i] E; try discriminate; cbn in *; [injection E as <-; eauto|now apply IH].
Qed.
Lemma Forall2_nth_r {A B} (R : A -> B -> Prop) a b i y : Forall2 R a b -> nth_error b i = Some y -> exists x, nth_error a i = Some x /\ R x y.
Proof.
  intros F. revert i. induction F as [|x' y' a b Rx F IH]; intros [|i] E; try discriminate; cbn in *; [injection E as <-; eauto|now apply IH].
Qed.

(** The search *)
Lemma probe_ok n key k tb m : reads (LockDict l) h n key k -> no_minus_zero k -> in_place_at n tb m -> forall n', n <= n' -> forall places,
  exists r, probe h n' key tb places = Known r /\
    match r with
    | Some i => exists v, nth_error m i = Some (k, v)
    | None => forall i v, In i places -> nth_error m i <> Some (k, v)
    end.
Proof.
  intros R Nk [_ F] n' L. induction places as [|i places IH]; [exists None; split; [reflexivity|contradiction]|].
  cbn [probe]. destruct (nth_error tb i) as [b|] eqn:Eb.
  - destruct (Forall2_nth _ _ _ _ _ F Eb) as ([t v] & Em & (A & B & C & D)). cbn [fst snd] in *.
    destruct (eqv_ok h _ _ n' false _ _ _ _ (reads_mono _ _ n _ _ _ L R) (reads_mono _ _ n _ _ _ L C)) as (r & Q & _ & Q2 & _).
    rewrite Q. cbn [wbind]. destruct r.
    + specialize (Q2 eq_refl). apply tcmp_same in Q2; auto. subst t. exists (Some i). split; [reflexivity|]. eauto.
    + destruct IH as (r & E & H). exists r. split; [exact E|]. destruct r; [exact H|]. intros j w [<-|I]; [|now apply H].
      rewrite Em. intros X. injection X as -> ->. rewrite (same_equals h _ _ n _ _ _ R C n' L) in Q. discriminate.
  - destruct IH as (r & E & H). exists r. split; [exact E|]. destruct r; [exact H|]. intros j w [<-|I]; [|now apply H].
    intros X. destruct (Forall2_nth_r _ _ _ _ _ F X) as (b & Eb' & _). congruence.
Qed.
Lemma search_ok n key k tb m : reads (LockDict l) h n key k -> no_minus_zero k -> in_place_at n tb m -> forall n', n <= n' ->
  exists r, probe h n' key tb (seen (map bk_hash tb) (hasher (tfeed k))) = Known r /\
    match r with Some i => exists v, nth_error m i = Some (k, v) | None => ~ In k (map fst m) end.
Proof.
  intros R Nk P n' L. destruct (probe_ok n key k tb m R Nk P n' L (seen (map bk_hash tb) (hasher (tfeed k)))) as (r & E & H).
  exists r. split; [exact E|]. destruct r; [exact H|]. intros I. apply in_map_iff in I. destruct I as ([k' v] & Ek & I). cbn in Ek. subst k'.
  apply In_nth_error in I. destruct I as [i Ei]. destruct P as [_ F]. destruct (Forall2_nth_r _ _ _ _ _ F Ei) as (b & Eb & (_ & _ & _ & Hb)).
  apply (H i v); [|exact Ei]. apply Seen. cbn in Hb. rewrite <- Hb. now apply map_nth_error.
Qed.

Lemma nodup_nth {A B} (m : list (A * B)) i j k v w : NoDup (map fst m) -> nth_error m i = Some (k, v) -> nth_error m j = Some (k, w) -> i = j.
Proof.
  intros N Ei Ej. apply (NoDup_nth_error (map fst m)); auto.
  - rewrite map_length. apply nth_error_Some. congruence.
  - rewrite (map_nth_error fst i m Ei), (map_nth_error fst j m Ej). reflexivity.
Qed.

Lemma get_ok n key k tb m : reads (LockDict l) h n key k -> no_minus_zero k -> in_place_at n tb m -> forall n', n <= n' ->
  exists r, table_get rk h hasher seen n' tb key = Known r /\ match r with Some v => In (k, v) m | None => ~ In k (map fst m) end.
Proof.
  intros R Nk P n' L. unfold table_get. rewrite (feed_ok rk LockNone h n' key k); [|apply (reads_mono _ _ n); [exact L|]; now apply (reads_unlock (LockDict l))].
  cbn [wbind]. destruct (search_ok n key k tb m R Nk P n' L) as (r & -> & H). cbn [wbind]. eexists. split; [reflexivity|].
  destruct r as [i|]; [|exact H]. destruct H as [v Ei]. destruct P as [_ F]. destruct (Forall2_nth_r _ _ _ _ _ F Ei) as (b & Eb & (Hv & _)).
  rewrite Eb. cbn [option_map]. rewrite Hv. cbn. now apply nth_error_In in Ei.
Qed.

(** Growing changes nothing. *)
Lemma rehash_ok n tb m : in_place_at n tb m -> forall n', n <= n' -> rehash rk h hasher n' (LockDict l) tb = Known tb.
Proof.
  intros [_ F] n' L. induction F as [|b e tb m (A & B & C & D) F IH]; [reflexivity|]. cbn [rehash].
  rewrite (feed_ok rk _ h n' _ _ (reads_mono _ _ n _ _ _ L C)). cbn [wbind]. rewrite IH. cbn [wbind]. rewrite <- D. now destruct b.
Qed.

Lemma list_set_nth {A} (a : list A) : forall i x y, nth_error a i = Some x -> list_set a i y = firstn i a ++ y :: skipn (S i) a.
Proof. induction a as [|z a IH]; intros [|i] x y E; try discriminate; [reflexivity|]. cbn in *. f_equal. now apply (IH i x). Qed.
Lemma Forall2_set {A B} (R : A -> B -> Prop) a b : Forall2 R a b -> forall i x y, R x y -> Forall2 R (list_set a i x) (list_set b i y).
Proof. induction 1 as [|x' y' a b Rx F IH]; intros [|i] x y Q; cbn [list_set]; constructor; auto. Qed.
Lemma map_set_fst {A B} (m : list (A * B)) : forall i k v w, nth_error m i = Some (k, v) -> map fst (list_set m i (k, w)) = map fst m.
Proof. induction m as [|e m IH]; intros [|i] k v w E; try discriminate; cbn in *; [injection E as ->; reflexivity|]. f_equal. now apply (IH i k v). Qed.
Lemma in_set {A B} (m : list (A * B)) i k v w : NoDup (map fst m) -> nth_error m i = Some (k, v) ->
  forall k' v', In (k', v') (list_set m i (k, w)) <-> (k' = k /\ v' = w) \/ (k' <> k /\ In (k', v') m).
Proof.
  revert i. induction m as [|[k0 v0] m IH]; intros [|i] N E k' v'; try discriminate; cbn [list_set nth_error map fst] in *; inversion N as [|? ? N0 N']; subst.
  - injection E as -> ->. cbn. split.
    + intros [X|I]; [left; split; congruence|]. right. split; [|now right]. intros ->. apply N0. apply in_map_iff. now exists (k, v').
    + intros [[-> ->]|[X [Y|Y]]]; [now left|congruence|now right].
  - cbn. rewrite (IH i N' E k' v'). split.
    + intros [X|[X|[X Y]]]; [right; split; [|now left]|now left|right; split; [exact X|now right]].
      injection X as -> ->. intros ->. apply N0. apply in_map_iff. exists (k, v). split; [reflexivity|]. now apply nth_error_In in E.
    + intros [X|[X [Y|Y]]]; [right; now left|now left|right; right; now split].
Qed.

Lemma NoDup_app_one {A} (a : list A) x : NoDup a -> ~ In x a -> NoDup (a ++ [x]).
Proof.
  induction 1 as [|y a Ny N IH]; intros H; [repeat constructor; auto|]. cbn. constructor.
  - rewrite in_app_iff. intros [X|[X|[]]]; [auto|]. apply H. now left.
  - apply IH. intros X. apply H. now right.
Qed.

(** The table does what the map of the interpreter does. *)
Lemma put_absent n key k v tb m : reads (LockDict l) h n key k -> Forall2 (placed_at n) tb m -> forall n', n <= n' -> ~ In k (map fst m) ->
  put_entry (eqv h n' true) key v (contents tb) = Known (contents tb ++ [(key, v)]).
Proof.
  intros R F n' L. induction F as [|b e tb m (A & B & C & D) F IH]; intros H; [reflexivity|]. cbn [contents map put_entry].
  destruct (eqv_ok h _ _ n' true _ _ _ _ (reads_mono _ _ n _ _ _ L R) (reads_mono _ _ n _ _ _ L C)) as (r & -> & Q & _). cbn [wbind].
  destruct r; [exfalso; apply H; left; symmetry; now apply Q|]. fold (contents tb). rewrite IH; [reflexivity|]. intros X. apply H. now right.
Qed.
Lemma put_found n key k tb m : reads (LockDict l) h n key k -> Forall2 (placed_at n) tb m -> NoDup (map fst m) -> forall n', n <= n' ->
  forall i w v b, nth_error m i = Some (k, w) -> nth_error tb i = Some b ->
  put_entry (eqv h n' true) key v (contents tb) = Known (contents (list_set tb i (mkbucket (bk_hash b) (bk_key b) v))).
Proof.
  intros R F N n' L. induction F as [|b0 e tb m (A & B & C & D) F IH]; intros [|i] w v b Hi Hb; try discriminate; cbn [contents map put_entry nth_error list_set] in *.
  - injection Hi as ->. injection Hb as <-. cbn [fst snd] in *.
    destruct (eqv_ok h _ _ n' true _ _ _ _ (reads_mono _ _ n _ _ _ L R) (reads_mono _ _ n _ _ _ L C)) as (r & -> & Q & _). cbn [wbind].
    destruct r; [reflexivity|]. assert (false = true) by (now apply Q). discriminate.
  - inversion N as [|? ? N0 N']; subst.
    destruct (eqv_ok h _ _ n' true _ _ _ _ (reads_mono _ _ n _ _ _ L R) (reads_mono _ _ n _ _ _ L C)) as (r & -> & Q & _). cbn [wbind].
    destruct r.
    + exfalso. apply N0. assert (k = fst e) as <- by now apply Q. apply in_map_iff. exists (k, w). split; [reflexivity|]. now apply nth_error_In in Hi.
    + fold (contents tb). rewrite (IH N' i w v b Hi Hb). reflexivity.
Qed.
Lemma find_same n key k tb m : reads (LockDict l) h n key k -> in_place_at n tb m -> forall n', n <= n' ->
  exists r, find_entry (eqv h n' true) key (contents tb) = Known r /\ match r with Some v => In (k, v) m | None => ~ In k (map fst m) end.
Proof.
  intros R [_ F] n' L. apply (find_known h l n' key k (reads_mono _ _ n _ _ _ L R)).
  induction F as [|b e tb m (A & B & C & D) F IH]; constructor; auto. split; [now apply (reads_mono _ _ n)|exact A].
Qed.

Lemma insert_ok n key k v grow tb m : reads (LockDict l) h n key k -> no_minus_zero k -> in_place_at n tb m ->
  exists tb' m', (forall n', n <= n' -> table_insert rk h hasher seen n' l grow tb key v = Known tb') /\ in_place_at n tb' m' /\
    (forall t' v', In (t', v') m' <-> (t' = k /\ v' = v) \/ (t' <> k /\ In (t', v') m)) /\
    (forall t', In t' (map fst m') <-> t' = k \/ In t' (map fst m)) /\
    (forall n', n <= n' -> put_entry (eqv h n' true) key v (contents tb) = Known (contents tb')).
Proof.
  intros R Nk P. destruct (search_ok n key k tb m R Nk P n (le_n n)) as (r & E & H).
  assert (E' : forall n', n <= n' -> probe h n' key tb (seen (map bk_hash tb) (hasher (tfeed k))) = Known r).
  { intros n' L. destruct (search_ok n key k tb m R Nk P n' L) as (r' & -> & H'). f_equal. destruct P as [N _]. destruct r as [i|], r' as [j|].
    - destruct H as [x Hi], H' as [y Hj]. f_equal. exact (nodup_nth m j i k y x N Hj Hi).
    - destruct H as [x Hi]. exfalso. apply H'. apply in_map_iff. exists (k, x). split; [reflexivity|]. now apply nth_error_In in Hi.
    - destruct H' as [x Hi]. exfalso. apply H. apply in_map_iff. exists (k, x). split; [reflexivity|]. now apply nth_error_In in Hi.
    - reflexivity. }
  assert (I : forall n', n <= n' -> table_insert rk h hasher seen n' l grow tb key v =
     Known (match r with Some i => set_value tb i v | None => tb ++ [mkbucket (hasher (tfeed k)) key v] end)).
  { intros n' L. unfold table_insert. rewrite (feed_ok rk _ h n' _ _ (reads_mono _ _ n _ _ _ L R)). cbn [wbind].
    replace (if grow then rehash rk h hasher n' (LockDict l) tb else Known tb) with (Known tb) by (destruct grow; [now rewrite (rehash_ok n tb m P n' L)|reflexivity]).
    cbn [wbind]. rewrite (E' n' L). reflexivity. }
  pose proof P as [N F]. destruct r as [i|].
  - destruct H as [w Hi]. destruct (Forall2_nth_r _ _ _ _ _ F Hi) as (b & Eb & (Hv & Hz & Hr & Hh)). cbn [fst snd] in *.
    exists (set_value tb i v), (list_set m i (k, v)). split; [exact I|]. unfold set_value. rewrite Eb. split; [split|split; [|split]].
    + now rewrite (map_set_fst m i k w v Hi).
    + apply Forall2_set; [exact F|]. repeat split; auto.
    + apply (in_set m i k w v N Hi).
    + intros t'. rewrite (map_set_fst m i k w v Hi). split; [auto|]. intros [->|X]; [|exact X]. apply in_map_iff. exists (k, w).
      split; [reflexivity|]. now apply nth_error_In in Hi.
    + intros n' L. now apply (put_found n key k tb m R F N n' L i w v b).
  - exists (tb ++ [mkbucket (hasher (tfeed k)) key v]), (m ++ [(k, v)]). split; [exact I|]. split; [split|split; [|split]].
    + rewrite map_app. cbn [map fst]. apply NoDup_app_one; auto.
    + apply Forall2_app; [exact F|]. repeat constructor; auto.
    + intros t' v'. rewrite in_app_iff. cbn. split.
      * intros [X|[X|[]]]; [right; split; [|exact X]|left; split; congruence]. intros ->. apply H. apply in_map_iff. now exists (k, v').
      * intros [[-> ->]|[X Y]]; [right; now left|now left].
    + intros t'. rewrite map_app, in_app_iff. cbn. intuition congruence.
    + intros n' L. unfold contents. rewrite map_app. cbn [map bk_key bk_val]. now apply (put_absent n key k v tb m R F n' L).
Qed.

Lemma inserts_ok n : forall ops tvs tb m, in_place_at n tb m ->
  Forall2 (fun (op : bool * (value * value)) (tv : tree * value) =>
    reads (LockDict l) h n (fst (snd op)) (fst tv) /\ no_minus_zero (fst tv) /\ snd (snd op) = snd tv) ops tvs ->
  exists tb' m', (forall n', n <= n' -> inserts rk hasher seen h l n' ops tb = Known tb') /\ in_place_at n tb' m' /\
    (forall t v, In (t, v) m' -> looks_up m tvs t (Some v)) /\ (forall t, ~ In t (map fst m') -> looks_up m tvs t None) /\
    (forall t, In t (map fst m') <-> In t (map fst m) \/ In t (map fst tvs)).
Proof.
  induction ops as [|[grow [key v]] ops IH]; intros tvs tb m P F; inversion F as [|? [k v'] ? rest (R & Nk & Ev) F']; subst.
  - exists tb, m. split; [reflexivity|]. split; [exact P|]. repeat split; intros; [now constructor|now constructor|now left|].
    destruct H as [H|[]]; exact H.
  - cbn [fst snd] in *. subst v'. destruct (insert_ok n key k v grow tb m R Nk P) as (tb1 & m1 & I & P1 & S & S' & _).
    destruct (IH rest tb1 m1 P1 F') as (tb' & m' & I' & P' & S1 & S2 & S3). exists tb', m'. split; [|split; [exact P'|split; [|split]]].
    + intros n' L. cbn [inserts]. rewrite (I n' L). cbn [wbind]. now apply I'.
    + intros t w X. apply (looks_first m m1 k v S). auto.
    + intros t X. apply (looks_first m m1 k v S). auto.
    + intros t. rewrite S3, S'. cbn [map fst In]. intuition congruence.
Qed.
End Table.

Lemma ops_depth h l : forall (ops : list (bool * (value * value))) (tvs : list (tree * value)),
  Forall2 (fun op tv => (exists n, reads (LockDict l) h n (fst (snd op)) (fst tv)) /\ no_minus_zero (fst tv) /\ snd (snd op) = snd tv) ops tvs ->
  exists n, forall n', n <= n' -> Forall2 (fun op tv => reads (LockDict l) h n' (fst (snd op)) (fst tv) /\ no_minus_zero (fst tv) /\ snd (snd op) = snd tv) ops tvs.
Proof.
  induction 1 as [|op tv ops tvs ([n R] & A & B) F [i IH]]; [exists 0; constructor|]. exists (n + i). intros n' L. constructor.
  - repeat split; auto. apply (reads_mono _ _ n); [lia|exact R].
  - apply IH. lia.
Qed.

Lemma table_map rk hasher seen h l t m ops tvs : thorough seen -> in_place rk hasher h l t m ->
  Forall2 (fun (op : bool * (value * value)) (tv : tree * value) =>
    (exists n, reads (LockDict l) h n (fst (snd op)) (fst tv)) /\ no_minus_zero (fst tv) /\ snd (snd op) = snd tv) ops tvs ->
  exists N t', (forall n, N <= n -> inserts rk hasher seen h l n ops t = Known t') /\
    (forall key k r, (exists n, reads (LockDict l) h n key k) -> no_minus_zero k -> looks_up m tvs k r ->
       exists N', forall n, N' <= n -> table_get rk h hasher seen n t' key = Known r) /\
    exists ks, NoDup ks /\ (forall k, In k ks <-> In k (map fst m) \/ In k (map fst tvs)) /\ length t' = length ks.
Proof.
  intros Th P F. pose proof P as [N _]. destruct (in_place_depth rk hasher h l t m P) as [i Pi]. destruct (ops_depth h l ops tvs F) as [j Fj].
  assert (Pij : in_place_at hasher h l (i + j) t m) by (destruct Pi as [A B]; split; [exact A|apply (placed_mono hasher h l i); [lia|exact B]]).
  destruct (inserts_ok rk hasher seen Th h l (i + j) ops tvs t m Pij (Fj (i + j) ltac:(lia))) as (t' & m' & I & P' & S1 & S2 & S3).
  exists (i + j), t'. split; [exact I|]. split.
  - intros key k r [n R] Nk Lk. exists (i + j + n). intros n' L.
    assert (P'' : in_place_at hasher h l (i + j + n) t' m') by (destruct P' as [A B]; split; [exact A|apply (placed_mono hasher h l (i + j)); [lia|exact B]]).
    destruct (get_ok rk hasher seen Th h l (i + j + n) key k t' m' (reads_mono _ _ n (i + j + n) _ _ ltac:(lia) R) Nk P'' n' L) as (r' & -> & H).
    f_equal. apply (looks_det m N tvs k); [|exact Lk]. destruct r'; auto.
  - destruct P' as [N' F']. exists (map fst m'). split; [exact N'|]. split; [exact S3|]. now rewrite map_length, (Forall2_len _ _ _ F').
Qed.

Lemma table_agrees rk hasher seen h l t m key k : thorough seen -> in_place rk hasher h l t m -> dict_entries h l = contents t ->
  (exists n, reads (LockDict l) h n key k) -> no_minus_zero k ->
  exists N, forall n, N <= n ->
    table_get rk h hasher seen n t key = dict_get h n l key /\
    forall grow v, exists t', table_insert rk h hasher seen n l grow t key v = Known t' /\ dict_put h n l key v = Known (contents t') /\
      exists m', in_place rk hasher h l t' m'.
Proof.
  intros Th P E [j R] Nk. destruct (in_place_depth rk hasher h l t m P) as [i Pi]. exists (i + j). intros n L.
  assert (Pij : in_place_at hasher h l (i + j) t m) by (destruct Pi as [A B]; split; [exact A|apply (placed_mono hasher h l i); [lia|exact B]]).
  assert (R' := reads_mono _ _ j (i + j) _ _ ltac:(lia) R). assert (Rn := reads_mono _ _ j n _ _ ltac:(lia) R). split.
  - destruct (get_ok rk hasher seen Th h l (i + j) key k t m R' Nk Pij n L) as (r & -> & H). unfold dict_get.
    rewrite (hash_ok _ _ _ _ _ (reads_unlock _ _ _ _ _ Rn)). cbn [wbind]. rewrite E.
    destruct (find_same hasher h l (i + j) key k t m R' Pij n L) as (r' & -> & H'). f_equal. destruct P as [N _].
    apply (looks_det m N [] k); [destruct r|destruct r']; now constructor.
  - intros grow v. destruct (insert_ok rk hasher seen Th h l (i + j) key k v grow t m R' Nk Pij) as (t' & m' & I & P' & _ & _ & C).
    exists t'. split; [now apply I|]. split; [|exists m'; now apply (in_place_any rk hasher h l (i + j))]. unfold dict_put. rewrite (hash_ok _ _ _ _ _ Rn). cbn [wbind]. rewrite E. now apply C.
Qed.

(** Growing puts changed keys where they belong. *)
Lemma rehash_any rk hasher h l n : forall t (m : list (tree * value)),
  Forall2 (fun (b : bucket) (e : tree * value) => bk_val b = snd e /\ no_minus_zero (fst e) /\ reads (LockDict l) h n (bk_key b) (fst e)) t m ->
  exists t', Forall2 (placed_at hasher h l n) t' m /\ contents t' = contents t /\ forall n', n <= n' -> rehash rk h hasher n' (LockDict l) t = Known t'.
Proof.
  intros t m F. induction F as [|b e t m (A & B & C) F (t' & P & E & I)]; [exists []; repeat split; constructor|].
  exists (mkbucket (hasher (tfeed (fst e))) (bk_key b) (bk_val b) :: t'). split; [|split].
  - constructor; [|exact P]. repeat split; auto.
  - cbn [contents map bk_key bk_val]. f_equal. exact E.
  - intros n' L. cbn [rehash]. rewrite (feed_ok rk _ h n' _ _ (reads_mono _ _ n _ _ _ L C)). cbn [wbind]. now rewrite (I n' L).
Qed.
Lemma table_grown rk hasher seen h l t m key k v : thorough seen -> NoDup (map fst m) ->
  Forall2 (fun (b : bucket) (e : tree * value) =>
    bk_val b = snd e /\ no_minus_zero (fst e) /\ exists n, reads (LockDict l) h n (bk_key b) (fst e)) t m ->
  (exists n, reads (LockDict l) h n key k) -> no_minus_zero k ->
  exists N t' m', (forall n, N <= n -> table_insert rk h hasher seen n l true t key v = Known t') /\ in_place rk hasher h l t' m' /\
    forall k' v', In (k', v') m' <-> (k' = k /\ v' = v) \/ (k' <> k /\ In (k', v') m).
Proof.
  intros Th N F [j R] Nk.
  assert (exists i, Forall2 (fun (b : bucket) (e : tree * value) => bk_val b = snd e /\ no_minus_zero (fst e) /\ reads (LockDict l) h i (bk_key b) (fst e)) t m) as [i G].
  { clear N. induction F as [|b e t m (A & B & [n C]) F [i IH]]; [exists 0; constructor|]. exists (n + i). constructor.
    - repeat split; auto. apply (reads_mono _ _ n); [lia|exact C].
    - eapply Forall2_mono; [|exact IH]. intros x y (A' & B' & C'). repeat split; auto. apply (reads_mono _ _ i); [lia|exact C']. }
  destruct (rehash_any rk hasher h l i t m G) as (t1 & P1 & E1 & I1).
  assert (Q1 : in_place_at hasher h l (i + j) t1 m) by (split; [exact N|apply (placed_mono hasher h l i); [lia|exact P1]]).
  destruct (insert_ok rk hasher seen Th h l (i + j) key k v false t1 m (reads_mono _ _ j (i + j) _ _ ltac:(lia) R) Nk Q1) as (t' & m' & I & P' & S & _ & _).
  exists (i + j), t', m'. split; [|split; [now apply (in_place_any rk hasher h l (i + j))|exact S]].
  intros n L. specialize (I n L). unfold table_insert in *. rewrite (I1 n ltac:(lia)). exact I.
Qed.
