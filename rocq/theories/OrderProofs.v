(** Proofs about the order and the equality of values. *)
From Coq Require Import Strings.String Sorting.Permutation Sorting.Sorted.
From Verif Require Import Base Lexer Ast Program Value Text StdLib SpecText TextProofs SpecLib LibProofs SpecOrder.

(** ** Laws of orders *)
Definition lawful {A} (c : A -> A -> comparison) (x : A) : Prop :=
  c x x = Eq /\ (forall y, c y x = CompOpp (c x y)) /\
  (forall y z, c x y = Eq -> c x z = c y z) /\
  (forall y z, c x y = Lt -> c y z <> Gt -> c x z = Lt).

Lemma lawful_lex {A} (c : A -> A -> comparison) l : Forall (lawful c) l -> lawful (lexc c) l.
Proof.
  induction 1 as [|x l (R & O & E & T) _ (IR & IO & IE & IT)].
  - repeat split.
    + intros [|]; reflexivity.
    + intros [|] z; [reflexivity|discriminate].
    + intros [|y b] [|z d]; cbn; congruence.
  - repeat split.
    + cbn. now rewrite R.
    + intros [|y b]; [reflexivity|]. cbn. rewrite O. destruct (c x y); cbn; auto.
    + intros [|y b] z; [discriminate|]. cbn. destruct (c x y) eqn:C; try discriminate. intros Eb.
      destruct z as [|z d]; [reflexivity|]. rewrite (E y z C). destruct (c y z); auto.
    + intros [|y b] [|z d]; cbn; try congruence. destruct (c x y) eqn:C; try discriminate.
      * rewrite (E y z C). destruct (c y z); try congruence. intros. now apply IT with b.
      * intros _. destruct (c y z) eqn:D; try congruence; intros K; now rewrite (T y z C) by congruence.
Qed.

Lemma lawful_pair {A B} (c : A -> A -> comparison) (c' : B -> B -> comparison) e :
  lawful c (fst e) -> lawful c' (snd e) -> lawful (pairc c c') e.
Proof.
  intros (R & O & E & T) (IR & IO & IE & IT). unfold pairc. repeat split.
  - now rewrite R.
  - intros y. rewrite O. destruct (c (fst e) (fst y)); cbn; auto.
  - intros y z. destruct (c (fst e) (fst y)) eqn:C; try discriminate. intros Eb.
    rewrite (E _ (fst z) C). destruct (c (fst y) (fst z)); auto.
  - intros y z. destruct (c (fst e) (fst y)) eqn:C; try discriminate.
    + rewrite (E _ (fst z) C). destruct (c (fst y) (fst z)); try congruence. intros. now apply IT with (snd y).
    + intros _. destruct (c (fst y) (fst z)) eqn:D; try congruence; intros K; now rewrite (T _ (fst z) C) by congruence.
Qed.

Lemma lawful_N x : lawful N.compare x.
Proof.
  repeat split; intros.
  - apply N.compare_refl.
  - apply N.compare_antisym.
  - apply N.compare_eq in H. now subst.
  - apply N.compare_lt_iff in H. apply N.compare_lt_iff. now apply N.lt_le_trans with y.
Qed.
Lemma lawful_Z x : lawful Z.compare x.
Proof.
  repeat split; intros.
  - apply Z.compare_refl.
  - apply Z.compare_antisym.
  - apply Z.compare_eq in H. now subst.
  - apply Z.compare_lt_iff in H. apply Z.compare_lt_iff. now apply Z.lt_le_trans with y.
Qed.
Lemma lawful_pos x : lawful Pos.compare x.
Proof.
  repeat split; intros.
  - apply Pos.compare_refl.
  - apply Pos.compare_antisym.
  - apply Pos.compare_eq in H. now subst.
  - apply Pos.compare_lt_iff in H. apply Pos.compare_lt_iff. now apply Pos.lt_le_trans with y.
Qed.
Lemma lawful_via {A B} (f : A -> B) (c : B -> B -> comparison) (d : A -> A -> comparison) :
  (forall x y, d x y = c (f x) (f y)) -> forall x, lawful c (f x) -> lawful d x.
Proof.
  intros E x (R & O & C & T). repeat split; intros; rewrite ?E in *; eauto.
Qed.
Lemma lawful_byte x : lawful bytec x.
Proof. apply (lawful_via Byte.to_N N.compare); [reflexivity|]. apply lawful_N. Qed.
Lemma lawful_bool x : lawful boolc x.
Proof. repeat split; destruct x; try destruct y; try destruct z; cbn; congruence. Qed.
Lemma lawful_bytes s : lawful (lexc bytec) s.
Proof. apply lawful_lex. apply Forall_forall. intros. apply lawful_byte. Qed.

(** The order of floats: by sign class, then by exponent and mantissa. *)
Definition fkey (f : spec_float) : Z * (Z * Z) :=
  match f with
  | S754_nan => (-3, (0, 0))
  | S754_infinity true => (-2, (0, 0))
  | S754_finite true m e => (-1, (- e, - Z.pos m))
  | S754_zero _ => (0, (0, 0))
  | S754_finite false m e => (1, (e, Z.pos m))
  | S754_infinity false => (2, (0, 0))
  end%Z.
Lemma floatc_key x y : floatc x y = pairc Z.compare (pairc Z.compare Z.compare) (fkey x) (fkey y).
Proof.
  destruct x as [[]|[]| |[] m e], y as [[]|[]| |[] m' e']; cbn; try reflexivity; unfold pairc; cbn [fst snd].
  rewrite Z.compare_opp, (Z.compare_antisym e e'). destruct (e ?= e')%Z; reflexivity.
Qed.
Lemma lawful_float x : lawful floatc x.
Proof.
  apply (lawful_via fkey (pairc Z.compare (pairc Z.compare Z.compare))); [apply floatc_key|].
  apply lawful_pair; [apply lawful_Z|]. apply lawful_pair; apply lawful_Z.
Qed.

(** ** Trees *)
Section TreeInd.
Variable P : tree -> Prop.
Hypothesis H0 : P TNil.
Hypothesis H1 : forall b, P (TBool b).
Hypothesis H2 : forall b, P (TByte b).
Hypothesis H3 : forall z, P (TInt z).
Hypothesis H4 : forall f, P (TFloat f).
Hypothesis H5 : forall s, P (TStr s).
Hypothesis H6 : forall l, Forall P l -> P (TArr l).
Hypothesis H7 : forall l, Forall (fun e => P (fst e) /\ P (snd e)) l -> P (TDict l).
Hypothesis H8 : forall d t, P t -> P (TErr d t).
Fixpoint tree_deep (t : tree) : P t :=
  match t with
  | TNil => H0 | TBool b => H1 b | TByte b => H2 b | TInt z => H3 z | TFloat f => H4 f | TStr s => H5 s
  | TArr l => H6 l ((fix go l : Forall P l :=
      match l with [] => Forall_nil _ | x :: l' => Forall_cons _ (tree_deep x) (go l') end) l)
  | TDict l => H7 l ((fix go l : Forall (fun e => P (fst e) /\ P (snd e)) l :=
      match l with
      | [] => Forall_nil _
      | e :: l' => Forall_cons _ (conj (tree_deep (fst e)) (tree_deep (snd e))) (go l')
      end) l)
  | TErr d c => H8 d c (tree_deep c)
  end.
End TreeInd.

Lemma lawful_tree t : lawful tcmp t.
Proof.
  induction t as [|b|b|z|f|s|l IH|l IH|d t IH] using tree_deep.
  - repeat split.
    + intros []; reflexivity.
    + intros [] v; cbn [tcmp rank Nat.compare]; try discriminate. reflexivity.
    + intros [] []; cbn [tcmp rank Nat.compare]; congruence.
  - destruct (lawful_bool b) as (R & O & E & T). repeat split; cbn [tcmp].
    + exact R.
    + intros []; cbn; auto.
    + intros [] []; cbn; try congruence; auto.
    + intros [] []; cbn; try congruence; eauto.
  - destruct (lawful_byte b) as (R & O & E & T). repeat split; cbn [tcmp].
    + exact R.
    + intros []; cbn; auto.
    + intros [] []; cbn; try congruence; auto.
    + intros [] []; cbn; try congruence; eauto.
  - destruct (lawful_Z z) as (R & O & E & T). repeat split; cbn [tcmp].
    + exact R.
    + intros []; cbn; auto.
    + intros [] []; cbn; try congruence; auto.
    + intros [] []; cbn; try congruence; eauto.
  - destruct (lawful_float f) as (R & O & E & T). repeat split; cbn [tcmp].
    + exact R.
    + intros []; cbn; auto.
    + intros [] []; cbn; try congruence; auto.
    + intros [] []; cbn; try congruence; eauto.
  - destruct (lawful_bytes s) as (R & O & E & T). repeat split; cbn [tcmp].
    + exact R.
    + intros []; cbn [tcmp rank Nat.compare CompOpp]; auto.
    + intros [] []; cbn [tcmp rank Nat.compare]; try congruence; auto.
    + intros [] []; cbn [tcmp rank Nat.compare]; try congruence; eauto.
  - destruct (lawful_lex _ _ IH) as (R & O & E & T). repeat split; cbn [tcmp].
    + exact R.
    + intros []; cbn [tcmp rank Nat.compare CompOpp]; auto.
    + intros [] []; cbn [tcmp rank Nat.compare]; try congruence; auto.
    + intros [] []; cbn [tcmp rank Nat.compare]; try congruence; eauto.
  - assert (Forall (lawful (pairc tcmp tcmp)) l) as L.
    { eapply Forall_impl; [|exact IH]. intros e [A B]. now apply lawful_pair. }
    destruct (lawful_lex _ _ L) as (R & O & E & T). repeat split; cbn [tcmp].
    + exact R.
    + intros []; cbn [tcmp rank Nat.compare CompOpp]; auto.
    + intros [] []; cbn [tcmp rank Nat.compare]; try congruence; auto.
    + intros [] []; cbn [tcmp rank Nat.compare]; try congruence; eauto.
  - destruct (lawful_pair (lexc bytec) tcmp (d, t) (lawful_bytes d) IH) as (R & O & E & T).
    unfold pairc in R, O, E, T. cbn [fst snd] in R, O, E, T. repeat split; cbn [tcmp].
    + exact R.
    + intros [| | | | | | | |d' t']; cbn [tcmp rank Nat.compare CompOpp]; auto. apply (O (d', t')).
    + intros [| | | | | | | |d' t'] [| | | | | | | |d2 t2]; cbn [tcmp rank Nat.compare]; try congruence; auto.
      apply (E (d', t') (d2, t2)).
    + intros [| | | | | | | |d' t'] [| | | | | | | |d2 t2]; cbn [tcmp rank Nat.compare]; try congruence; auto.
      apply (T (d', t') (d2, t2)).
Qed.

Lemma tcmp_refl t : tcmp t t = Eq.
Proof. apply lawful_tree. Qed.
Lemma tcmp_opp t u : tcmp u t = CompOpp (tcmp t u).
Proof. apply lawful_tree. Qed.
Lemma tcmp_eq t u v : tcmp t u = Eq -> tcmp t v = tcmp u v.
Proof. apply lawful_tree. Qed.
Lemma tcmp_lt t u v : tcmp t u = Lt -> tcmp u v <> Gt -> tcmp t v = Lt.
Proof. apply lawful_tree. Qed.
Lemma tcmp_eq_r t u v : tcmp t u = Eq -> tcmp v t = tcmp v u.
Proof. intros E. rewrite (tcmp_opp t v), (tcmp_opp u v). f_equal. now apply tcmp_eq. Qed.
Lemma tcmp_le t u v : tcmp t u <> Gt -> tcmp u v <> Gt -> tcmp t v <> Gt.
Proof.
  intros A B. destruct (tcmp t u) eqn:E; try congruence.
  - now rewrite (tcmp_eq t u v E).
  - rewrite (tcmp_lt t u v E B). discriminate.
Qed.
Lemma tcmp_sym t u : tcmp t u = Eq -> tcmp u t = Eq.
Proof. intros E. rewrite tcmp_opp, E. reflexivity. Qed.

(** ** Sorting *)
Section Sorting.
Context {A : Type} (c : A -> A -> comparison) (L : forall x, lawful c x).

Definition ins (x : A) : list A -> list A :=
  fix go l := match l with [] => [x] | y :: l' => match c x y with Lt => x :: l | _ => y :: go l' end end.
Definition isort (l : list A) : list A := fold_left (fun acc x => ins x acc) l [].

Lemma ins_perm x l : Permutation (x :: l) (ins x l).
Proof.
  induction l as [|y l IH]; [reflexivity|]. cbn [ins]. destruct (c x y); try reflexivity;
    rewrite perm_swap; now apply perm_skip.
Qed.
Lemma isort_perm_go l : forall acc, Permutation (acc ++ l) (fold_left (fun acc x => ins x acc) l acc).
Proof.
  induction l as [|x l IH]; intros acc; cbn [fold_left]; [now rewrite app_nil_r|].
  rewrite <- IH. rewrite <- Permutation_middle. change (x :: acc ++ l) with ((x :: acc) ++ l).
  apply Permutation_app_tail. apply ins_perm.
Qed.
Lemma isort_perm l : Permutation l (isort l).
Proof. exact (isort_perm_go l []). Qed.

Definition le x y := c x y <> Gt.
Lemma le_trans x y z : le x y -> le y z -> le x z.
Proof.
  unfold le. destruct (L x) as (_ & _ & E & T). intros P Q. destruct (c x y) eqn:D; try congruence.
  - now rewrite (E y z D).
  - rewrite (T y z D Q). discriminate.
Qed.
Lemma ins_sorted x l : StronglySorted le l -> StronglySorted le (ins x l).
Proof.
  induction 1 as [|y l S IH F]; [repeat constructor|]. cbn [ins]. destruct (c x y) eqn:C.
  - constructor; [exact IH|]. eapply Permutation_Forall; [apply ins_perm|]. constructor; [|exact F].
    unfold le. destruct (L x) as (_ & O & _). rewrite O, C. discriminate.
  - constructor; [now constructor|]. constructor; [unfold le; congruence|].
    eapply Forall_impl; [|exact F]. intros z Hz. apply le_trans with y; [unfold le; congruence|exact Hz].
  - constructor; [exact IH|]. eapply Permutation_Forall; [apply ins_perm|]. constructor; [|exact F].
    unfold le. destruct (L x) as (_ & O & _). rewrite O, C. discriminate.
Qed.
Lemma isort_sorted l : StronglySorted le (isort l).
Proof.
  unfold isort. assert (G : forall acc, StronglySorted le acc -> StronglySorted le (fold_left (fun acc x => ins x acc) l acc)).
  { induction l as [|x l IH]; intros acc S; cbn [fold_left]; auto. apply IH. now apply ins_sorted. }
  apply G. constructor.
Qed.

(** A class of elements that are equal to each other *)
Variable same : A -> bool.
Hypothesis Same : forall x y, same x = true -> same y = true -> c x y = Eq.

Lemma ins_filter x l : StronglySorted le l ->
  filter same (ins x l) = filter same l ++ (if same x then [x] else []).
Proof.
  induction 1 as [|y l S IH F]; cbn [ins]; [cbn; now destruct (same x)|].
  destruct (c x y) eqn:C.
  - cbn [filter]. rewrite IH. destruct (same y); now rewrite ?app_comm_cons.
  - change (filter same (x :: y :: l)) with (if same x then x :: filter same (y :: l) else filter same (y :: l)).
    destruct (same x) eqn:Sx; [|now rewrite app_nil_r].
    enough (filter same (y :: l) = []) as -> by reflexivity.
    assert (G : forall z, In z (y :: l) -> same z = false).
    { intros z I. destruct (same z) eqn:Sz; [|reflexivity].
      assert (c x z = Lt) as K.
      { destruct (L x) as (R & _ & _ & T). destruct I as [<-|I]; [exact C|].
        apply (T y z C). rewrite Forall_forall in F. now apply F. }
      rewrite (Same x z Sx Sz) in K. discriminate. }
    clear -G. induction (y :: l) as [|z r IH]; [reflexivity|]. cbn [filter]. rewrite (G z (or_introl eq_refl)).
    apply IH. intros; apply G; now right.
  - cbn [filter]. rewrite IH. destruct (same y); now rewrite ?app_comm_cons.
Qed.
Lemma isort_filter l : filter same (isort l) = filter same l.
Proof.
  unfold isort. assert (G : forall acc, StronglySorted le acc ->
    filter same (fold_left (fun acc x => ins x acc) l acc) = filter same acc ++ filter same l).
  { induction l as [|x l IH]; intros acc S; cbn [fold_left].
    - cbn. now rewrite app_nil_r.
    - rewrite IH by now apply ins_sorted. rewrite ins_filter by exact S. rewrite <- app_assoc. f_equal.
      cbn [filter]. now destruct (same x). }
  rewrite G by constructor. reflexivity.
Qed.
End Sorting.

(** The sort of the code, when every comparison it makes has an answer *)
Lemma insert_known {A} (f : A -> A -> walk comparison) c x : forall l,
  (forall y, In y l -> f x y = Known (c x y)) -> insert_sorted f x l = Known (ins c x l).
Proof.
  induction l as [|y l IH]; intros H; [reflexivity|]. cbn [insert_sorted ins].
  rewrite (H y (or_introl eq_refl)). cbn [wbind].
  assert (insert_sorted f x l = Known (ins c x l)) as E by (apply IH; intros; apply H; now right).
  destruct (c x y); rewrite ?E; reflexivity.
Qed.
Lemma sort_known {A} (f : A -> A -> walk comparison) c l :
  (forall x y, In x l -> In y l -> f x y = Known (c x y)) -> sort_walk f l = Known (isort c l).
Proof.
  intros H. unfold sort_walk, isort.
  assert (G : forall r acc, (forall x, In x r -> In x l) -> (forall x, In x acc -> In x l) ->
    fold_left (fun acc x => wbind acc (insert_sorted f x)) r (Known acc) = Known (fold_left (fun acc x => ins c x acc) r acc)).
  { induction r as [|x r IH]; intros acc Hr Ha; cbn [fold_left]; [reflexivity|]. cbn [wbind].
    rewrite (insert_known f c) by (intros; apply H; [apply Hr; now left|now apply Ha]).
    apply IH; [intros; apply Hr; now right|]. intros y I.
    apply (Permutation_in y (Permutation_sym (ins_perm c x acc))) in I. destruct I as [<-|I]; [apply Hr; now left|now apply Ha]. }
  apply G; [auto|contradiction].
Qed.

(** A list with the trees of its elements, sorted *)
Lemma isort_map {A B} (f : A -> B) (c : B -> B -> comparison) l :
  map f (isort (fun x y => c (f x) (f y)) l) = isort c (map f l).
Proof.
  assert (I : forall x l, map f (ins (fun x y => c (f x) (f y)) x l) = ins c (f x) (map f l)).
  { intros x r. induction r as [|y r IH]; [reflexivity|]. cbn [ins map]. destruct (c (f x) (f y)); cbn [map]; congruence. }
  unfold isort. assert (G : forall acc, map f (fold_left (fun acc x => ins (fun x y => c (f x) (f y)) x acc) l acc)
    = fold_left (fun acc x => ins c x acc) (map f l) (map f acc)).
  { induction l as [|x l IH]; intros acc; cbn [fold_left map]; [reflexivity|]. rewrite IH. now rewrite I. }
  apply G.
Qed.
