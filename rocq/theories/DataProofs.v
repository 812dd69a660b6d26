(** The comparisons of values agree with the order of trees. *)
From Coq Require Import Strings.String Sorting.Permutation Sorting.Sorted.
From Verif Require Import Base Lexer Ast Program Value Text StdLib SpecText TextProofs SpecLib LibProofs SpecOrder OrderProofs.

(** ** Lists *)
Lemma Forall2_in_l {A B} (R : A -> B -> Prop) l m x : Forall2 R l m -> In x l -> exists y, In y m /\ R x y.
Proof. induction 1 as [|a b l m H F IH]; intros I; [destruct I|]. destruct I as [<-|I]; [exists b; cbn; auto|]. destruct (IH I) as (y & ? & ?). exists y. cbn. auto. Qed.
Lemma Forall2_in_r {A B} (R : A -> B -> Prop) l m y : Forall2 R l m -> In y m -> exists x, In x l /\ R x y.
Proof. induction 1 as [|a b l m H F IH]; intros I; [destruct I|]. destruct I as [<-|I]; [exists a; cbn; auto|]. destruct (IH I) as (x & ? & ?). exists x. cbn. auto. Qed.
Lemma Forall2_len {A B} (R : A -> B -> Prop) l m : Forall2 R l m -> length l = length m.
Proof. induction 1; cbn; congruence. Qed.
Lemma Forall2_mono {A B} (R S : A -> B -> Prop) l m : (forall x y, R x y -> S x y) -> Forall2 R l m -> Forall2 S l m.
Proof. intros H. induction 1; constructor; auto. Qed.

Lemma sorted_unique {A} (c : A -> A -> comparison) : (forall x y, c y x = CompOpp (c x y)) -> forall l l',
  StronglySorted (fun x y => c x y = Lt) l -> StronglySorted (fun x y => c x y <> Gt) l' -> Permutation l l' -> l = l'.
Proof.
  intros O. induction l as [|x r IH]; intros l' S S' P.
  - apply Permutation_nil in P. now subst.
  - destruct l' as [|y r']; [apply Permutation_sym, Permutation_nil in P; discriminate|].
    inversion S as [|? ? Sr Fx]; subst. inversion S' as [|? ? Sr' Fy]; subst.
    assert (E : x = y).
    { assert (Ix : In x (y :: r')) by (apply (Permutation_in x P); now left).
      assert (Iy : In y (x :: r)) by (apply (Permutation_in y (Permutation_sym P)); now left).
      destruct Ix as [E|Ix]; [auto|]. destruct Iy as [E|Iy]; [auto|]. exfalso.
      rewrite Forall_forall in Fx, Fy. specialize (Fx y Iy). specialize (Fy x Ix). rewrite O, Fx in Fy. now apply Fy. }
    subst y. f_equal. apply IH; auto. now apply Permutation_cons_inv in P.
Qed.

Definition keyc (e e' : tree * tree) : comparison := tcmp (fst e) (fst e').
Lemma lawful_key e : lawful keyc e.
Proof. apply (lawful_via fst tcmp keyc); [reflexivity|]. apply lawful_tree. Qed.
Lemma order_unique ts ts' : in_order ts -> in_order ts' -> Permutation ts ts' -> ts = ts'.
Proof.
  intros S S' P. apply (sorted_unique keyc); auto.
  - intros x y. apply tcmp_opp.
  - clear -S'. induction S' as [|x r S IH F]; constructor; auto. eapply Forall_impl; [|exact F]. unfold keyc. cbn. congruence.
Qed.
Lemma isort_order us ts : in_order ts -> Permutation us ts -> isort keyc us = ts.
Proof.
  intros S P. symmetry. apply (sorted_unique keyc); auto.
  - intros x y. apply tcmp_opp.
  - apply (isort_sorted keyc lawful_key).
  - rewrite <- P. apply isort_perm.
Qed.

(** Strictly ordered entries that all have a counterpart among others *)
Lemma matched (M : tree * tree -> tree * tree -> Prop) : (forall e e', M e e' -> fst e = fst e') ->
  forall us ts, in_order ts -> in_order us -> (forall e, In e ts -> exists e', In e' us /\ M e e') ->
  length ts <= length us /\ (length ts = length us -> Forall2 M ts us).
Proof.
  intros K. induction us as [|u us IH]; intros ts S Su H.
  - destruct ts as [|t ts]; [split; [auto|constructor]|]. destruct (H t (or_introl eq_refl)) as (e & [] & _).
  - inversion Su as [|? ? Su' Fu]; subst. destruct ts as [|t ts]; [cbn; split; [lia|discriminate]|].
    inversion S as [|? ? S' F]; subst. rewrite Forall_forall in F, Fu.
    destruct (tcmp (fst t) (fst u)) eqn:C.
    + assert (Mt : M t u).
      { destruct (H t (or_introl eq_refl)) as (e & [<-|I] & Me); [exact Me|]. specialize (Fu e I). rewrite <- (K _ _ Me) in Fu.
        rewrite (tcmp_sym _ _ C) in Fu. discriminate. }
      destruct (IH ts S' Su') as [Le Ge].
      { intros e I. destruct (H e (or_intror I)) as (e' & [<-|I'] & Me); [|exists e'; auto].
        specialize (F e I). rewrite (K _ _ Me), C in F. discriminate. }
      cbn. split; [lia|]. intros L. constructor; [exact Mt|]. apply Ge. lia.
    + exfalso. destruct (H t (or_introl eq_refl)) as (e & [<-|I] & Me).
      * rewrite (K _ _ Me), tcmp_refl in C. discriminate.
      * specialize (Fu e I). rewrite <- (K _ _ Me) in Fu. rewrite tcmp_opp, C in Fu. discriminate.
    + destruct (IH (t :: ts) S Su') as [Le Ge].
      { intros e I. destruct (H e I) as (e' & [<-|I'] & Me); [|exists e'; auto]. exfalso.
        destruct I as [->|I]; [rewrite (K _ _ Me), tcmp_refl in C; discriminate|].
        specialize (F e I). rewrite (K _ _ Me) in F. congruence. }
      cbn in *. split; [lia|]. intros L. lia.
Qed.

Lemma order_nodup ts : in_order ts -> forall e e', In e ts -> In e' ts -> fst e = fst e' -> e = e'.
Proof.
  induction 1 as [|x r S IH F]; intros e e' I I' E; [destruct I|]. rewrite Forall_forall in F.
  destruct I as [<-|I], I' as [<-|I']; auto.
  - specialize (F e' I'). rewrite E, tcmp_refl in F. discriminate.
  - specialize (F e I). rewrite E, tcmp_refl in F. discriminate.
Qed.

(** ** Readings *)
Lemma reads_mono k h : forall n m v t, n <= m -> reads k h n v t -> reads k h m v t.
Proof.
  induction n as [|n IH]; intros m v t L R; [destruct R|]. destruct m as [|m]; [lia|].
  cbn [reads] in *. destruct v, t; auto.
  - destruct R as [A F]. split; [exact A|]. eapply Forall2_mono; [|exact F]. intros. apply IH; [lia|assumption].
  - destruct R as (A & O & us & P & F). split; [exact A|]. split; [exact O|]. exists us. split; [exact P|].
    eapply Forall2_mono; [|exact F]. cbn. intros x y [A1 A2]. split; (apply IH; [lia|assumption]).
  - destruct R as [A F]. split; [exact A|]. apply IH; [lia|assumption].
Qed.

Lemma Forall2_det {A B} (R S : A -> B -> Prop) l : (forall x y z, In x l -> R x y -> S x z -> y = z) ->
  forall m m', Forall2 R l m -> Forall2 S l m' -> m = m'.
Proof.
  induction l as [|x l IH]; intros H m m' F F'; inversion F; inversion F'; subst; [reflexivity|].
  f_equal; [apply (H x); cbn; auto|]. apply IH; auto. intros. apply (H x0); cbn; auto.
Qed.

Lemma reads_det k k' h : forall n m v t u, reads k h n v t -> reads k' h m v u -> t = u.
Proof.
  induction n as [|n IH]; intros m v t u R S; [destruct R|]. destruct m as [|m]; [destruct S|].
  cbn [reads] in *. destruct v, t; try contradiction; destruct u; try contradiction; try congruence.
  - destruct R, S; congruence.
  - destruct R as [_ F], S as [_ F']. f_equal. revert F F'. apply Forall2_det. intros x y z _. apply IH.
  - destruct R as (_ & O & us & P & F), S as (_ & O' & us' & P' & F'). f_equal.
    assert (us = us').
    { revert F F'. apply Forall2_det. intros x [y1 y2] [z1 z2] _ [A B] [C D]. cbn [fst snd] in *. f_equal; eapply IH; eassumption. }
    subst us'. apply order_unique; auto. now rewrite <- P.
  - destruct R as [-> R], S as [-> S]. f_equal. eapply IH; eassumption.
Qed.

(** *** Equality *)
Fixpoint dictless (t : tree) : Prop :=
  match t with
  | TArr l => fold_right (fun t P => dictless t /\ P) True l
  | TDict _ => False
  | TErr _ c => dictless c
  | _ => True
  end.

Lemma lexc_eq_length {A} (c : A -> A -> comparison) : forall a b, lexc c a b = Eq -> length a = length b.
Proof. induction a as [|x a IH]; intros [|y b]; cbn; try discriminate; [reflexivity|]. destruct (c x y); try discriminate. intros E. f_equal. auto. Qed.

Lemma lexc_refl {A} (c : A -> A -> comparison) l : (forall x, c x x = Eq) -> lexc c l l = Eq.
Proof. intros H. induction l as [|x l IH]; cbn; [reflexivity|]. now rewrite H. Qed.

Lemma byte_N_inj a b : Byte.to_N a = Byte.to_N b -> a = b.
Proof. intros E. rewrite <- (byte_of_N a), E. apply byte_of_N. Qed.

Lemma bytec_eq x y : bytec x y = Eq <-> x = y.
Proof. unfold bytec. rewrite N.compare_eq_iff. split; [apply byte_N_inj|congruence]. Qed.
Lemma lexc_bytec_eq a : forall b, lexc bytec a b = Eq <-> a = b.
Proof.
  induction a as [|x a IH]; intros [|y b]; cbn; try (split; congruence).
  destruct (bytec x y) eqn:C.
  - apply bytec_eq in C. subst y. rewrite IH. split; congruence.
  - split; [discriminate|]. intros E. injection E as -> ->. assert (bytec y y = Eq) by now apply bytec_eq. congruence.
  - split; [discriminate|]. intros E. injection E as -> ->. assert (bytec y y = Eq) by now apply bytec_eq. congruence.
Qed.
Lemma bytes_cmp_spec a b : bytes_cmp a b = lexc bytec a b.
Proof. reflexivity. Qed.

Lemma float_cmp_spec x y : is_nan x = false -> is_nan y = false -> float_cmp x y = floatc x y.
Proof. unfold float_cmp, floatc. intros Hx Hy. destruct (SFcompare x y); [reflexivity|]. now rewrite Hx. Qed.

Lemma SFcompare_nan x y : is_nan x = false -> is_nan y = false -> exists c, SFcompare x y = Some c.
Proof. destruct x as [[]|[]| |[]], y as [[]|[]| |[]]; cbn; try discriminate; eauto. Qed.

Lemma float_eqb_spec x y : is_nan x = false -> is_nan y = false -> (float_eqb x y = true <-> floatc x y = Eq).
Proof.
  intros Hx Hy. unfold float_eqb, SFeqb, floatc. destruct (SFcompare_nan x y Hx Hy) as [c ->].
  destruct c; split; congruence.
Qed.
Lemma float_same_spec x y : is_nan x = false -> is_nan y = false -> (float_same x y = true <-> x = y).
Proof.
  intros Hx Hy. split.
  - destruct x as [s|s| |s m e], y as [s'|s'| |s' m' e']; cbn; try discriminate.
    + destruct s, s'; cbn; congruence.
    + destruct s'; discriminate.
    + destruct s'; discriminate.
    + destruct s; discriminate.
    + destruct s, s'; cbn; congruence.
    + destruct s; discriminate.
    + destruct s; discriminate.
    + destruct s, s'; discriminate.
    + unfold SFeqb. cbn. destruct s, s'; try discriminate; destruct (Z.compare_spec e e'); try discriminate; subst.
      * destruct (Pos.compare_cont Eq m m') eqn:C; try discriminate. apply Pos.compare_eq in C. congruence.
      * destruct (Pos.compare_cont Eq m m') eqn:C; try discriminate. apply Pos.compare_eq in C. congruence.
  - intros <-. destruct x as [s|s| |s m e]; cbn; try discriminate; unfold SFeqb; cbn.
    + destruct s; reflexivity.
    + destruct s; reflexivity.
    + rewrite Z.compare_refl. fold (Pos.compare m m). rewrite Pos.compare_refl. destruct s; reflexivity.
Qed.

Lemma byte_eqb_bytec x y : byte_eqb x y = true <-> x = y.
Proof. apply byte_eqb_eq. Qed.

Section Equal.
Variable h : heap.
Variables k k' : lock.

Definition equal_ok (n : nat) : Prop := forall bits a b t u,
  reads k h n a t -> reads k' h n b u ->
  exists r, eqv h n bits a b = Known r /\
    (bits = true -> (r = true <-> t = u)) /\ (r = true -> tcmp t u = Eq) /\ (bits = false -> dictless t -> tcmp t u = Eq -> r = true).

Lemma all2_ok n bits : equal_ok n -> forall l ts m us, Forall2 (reads k h n) l ts -> Forall2 (reads k' h n) m us ->
  exists r, all2 (eqv h n bits) l m = Known r /\
    (bits = true -> (r = true <-> ts = us)) /\ (r = true -> lexc tcmp ts us = Eq) /\
    (bits = false -> dictless (TArr ts) -> lexc tcmp ts us = Eq -> r = true).
Proof.
  intros IH l ts m us F. revert m us. induction F as [|x t l ts R F IHl]; intros m us F'; inversion F' as [|y u m' us' R' F'']; subst.
  - exists true. cbn. repeat split; auto.
  - exists false. cbn. repeat split; try discriminate. 
  - exists false. cbn. repeat split; try discriminate.
  - destruct (IH bits _ _ _ _ R R') as (r & E & A & B & C). cbn [all2]. rewrite E. cbn [wbind]. destruct r.
    + destruct (IHl _ _ F'') as (r' & E' & A' & B' & C'). exists r'. split; [exact E'|]. cbn [lexc]. rewrite (B eq_refl). repeat split.
      * intros. f_equal; [now apply A|now apply A'].
      * intros Q. injection Q as -> ->. now apply A'.
      * exact B'.
      * intros Bf [_ D]. now apply C'.
    + exists false. split; [reflexivity|]. repeat split; try discriminate.
      * intros Q. injection Q as -> ->. now apply A.
      * intros Bf [D _]. cbn [lexc]. destruct (tcmp t u) eqn:Q; try discriminate. intros _. now apply C.
Qed.

Lemma find_entry_ok n : equal_ok n -> forall key t es us, reads k h n key t ->
  Forall2 (fun (e : value * value) (u : tree * tree) => reads k' h n (fst e) (fst u) /\ reads k' h n (snd e) (snd u)) es us ->
  exists r, find_entry (eqv h n true) key es = Known r /\
    match r with
    | None => forall u, In u us -> fst u <> t
    | Some w => exists u, In u us /\ fst u = t /\ reads k' h n w (snd u)
    end.
Proof.
  intros IH key t es us R F. induction F as [|[x w] u es us [Rx Rw] F IHl].
  - exists None. split; [reflexivity|]. contradiction.
  - cbn [fst snd] in *. destruct (IH true _ _ _ _ R Rx) as (r & E & A & _). cbn [find_entry]. rewrite E. cbn [wbind].
    specialize (A eq_refl). destruct r.
    + exists (Some w). split; [reflexivity|]. exists u. cbn. repeat split; auto. symmetry. now apply A.
    + destruct IHl as (r & E' & Q). exists r. split; [exact E'|]. destruct r as [w'|].
      * destruct Q as (u' & I & ?). exists u'. cbn. auto.
      * intros u' [<-|I]; [|now apply Q]. intros <-. assert (false = true) by (now apply A). discriminate.
Qed.

Lemma eqv_ok n : equal_ok n.
Proof.
  induction n as [|n IH]; intros bits a b t u R S; [destruct R|].
  cbn [reads] in R, S. destruct a, t; try contradiction; destruct b, u; try contradiction; cbn [eqv];
    try (eexists; split; [reflexivity|]; repeat split; try discriminate; cbn [tcmp rank Nat.compare]; discriminate).
  - subst. eexists. split; [reflexivity|]. destruct b1, b2; cbn; repeat split; congruence.
  - subst. eexists. split; [reflexivity|]. cbn [tcmp]. rewrite byte_eqb_eq, bytec_eq. repeat split; try congruence.
  - subst. eexists. split; [reflexivity|]. cbn [tcmp]. rewrite Z.eqb_eq, Z.compare_eq_iff. repeat split; congruence.
  - destruct R as [-> Nx], S as [-> Ny]. eexists. split; [reflexivity|]. cbn [tcmp].
    pose proof (float_same_spec _ _ Nx Ny) as A. pose proof (float_eqb_spec _ _ Nx Ny) as B.
    destruct bits.
    + repeat split; try discriminate.
      * intros E. apply A in E. congruence.
      * intros E. apply A. congruence.
      * intros E. apply A in E. subst. apply lawful_float.
    + repeat split; try discriminate; [apply B|intros _ _; apply B].
  - subst. eexists. split; [reflexivity|]. cbn [tcmp]. rewrite bytes_eqb_eq, lexc_bytec_eq. repeat split; congruence.
  - destruct R as [_ F], S as [_ F']. pose proof (Forall2_len _ _ _ F) as L. pose proof (Forall2_len _ _ _ F') as L'.
    destruct (Nat.eqb_spec (length (arr_get h l)) (length (arr_get h l1))) as [Q|Q].
    + destruct (all2_ok n bits IH _ _ _ _ F F') as (r & E & A & B & C). exists r. split; [exact E|]. cbn [tcmp].
      repeat split; auto; intros; [f_equal; now apply A|apply A; congruence].
    + exists false. split; [reflexivity|]. repeat split; try discriminate.
      * intros E. injection E as ->. congruence.
      * cbn [tcmp]. intros _ _ E. apply lexc_eq_length in E. congruence.
  - destruct R as (_ & O & us & P & F), S as (_ & O' & us' & P' & F').
    pose proof (Forall2_len _ _ _ F) as L. pose proof (Forall2_len _ _ _ F') as L'.
    pose proof (Permutation_length P) as Lp. pose proof (Permutation_length P') as Lp'.
    destruct (Nat.eqb_spec (length (dict_entries h l)) (length (dict_entries h l1))) as [Q|Q].
    + set (M := fun e e' : tree * tree => fst e = fst e' /\ (if bits then snd e = snd e' else tcmp (snd e) (snd e') = Eq)).
      set (go := fix go d := match d with
               | [] => Known true
               | (key, v) :: d' =>
                   wbind (find_entry (eqv h n true) key (dict_entries h l1)) (fun r =>
                   match r with
                   | None => Known false
                   | Some w => wbind (eqv h n bits v w) (fun e => if e then go d' else Known false)
                   end)
               end).
      assert (G : forall es vs, Forall2 (fun (e : value * value) (u : tree * tree) => reads k h n (fst e) (fst u) /\ reads k h n (snd e) (snd u)) es vs ->
        exists r, go es = Known r /\ (r = true -> forall e, In e vs -> exists e', In e' us' /\ M e e') /\
          (bits = true -> (forall e, In e vs -> In e us') -> r = true)).
      { clear F L Q P Lp us. intros es vs F. induction F as [|[key v] e es vs [Rk Rv] F IHl].
        - exists true. split; [reflexivity|]. split; [contradiction|auto].
        - cbn [fst snd] in *. destruct (find_entry_ok n IH key (fst e) _ _ Rk F') as (r & E & H).
          cbn [go]. rewrite E. cbn [wbind]. destruct r as [w|].
          + destruct H as (u & Iu & Eu & Rw). destruct (IH bits _ _ _ _ Rv Rw) as (r & E' & A & B & C). rewrite E'. cbn [wbind].
            destruct r.
            * destruct IHl as (r & E2 & A2 & B2). exists r. split; [exact E2|]. split.
              -- intros Rt e' [<-|I]; [|now apply A2]. exists u. split; [exact Iu|]. split; [auto|]. destruct bits; [now apply A|now apply B].
              -- intros Bt I. apply B2; auto. intros e' I'. apply I. now right.
            * exists false. split; [reflexivity|]. split; [discriminate|]. intros Bt I. apply (A Bt).
              assert (e = u) as ->; [|reflexivity].
              apply (order_nodup _ O'); [apply (Permutation_in _ P'); apply I; now left|now apply (Permutation_in _ P')|auto].
          + exists false. split; [reflexivity|]. split; [discriminate|]. intros Bt I. exfalso. apply (H e); [apply I; now left|reflexivity]. }
      destruct (G _ _ F) as (r & E & A & B). exists r. split; [exact E|].
      assert (T : r = true -> Forall2 M l0 l2).
      { intros Rt. apply (matched M); auto; [now intros e e' []| |congruence].
        intros e I. apply (Permutation_in _ (Permutation_sym P)) in I. destruct (A Rt e I) as (e' & I' & Me).
        exists e'. split; [now apply (Permutation_in _ P')|exact Me]. }
      repeat split.
      * intros Rt. specialize (T Rt). f_equal. subst M. subst bits. clear -T.
        induction T as [|[] [] ? ? [Q1 Q2] T IHt]; [reflexivity|]. cbn in *. congruence.
      * intros E2. injection E2 as ->. apply B; [auto|]. intros e I. apply (Permutation_in _ (Permutation_sym P')).
        now apply (Permutation_in _ P).
      * intros Rt. specialize (T Rt). cbn [tcmp]. subst M. clear -T.
        induction T as [|e e' ? ? [Q1 Q2] T IHt]; [reflexivity|]. cbn [lexc]. unfold pairc at 1. rewrite Q1, tcmp_refl.
        replace (tcmp (snd e) (snd e')) with Eq; [exact IHt|]. destruct bits; [now rewrite Q2, tcmp_refl|auto].
      * intros _ [].
    + exists false. split; [reflexivity|]. repeat split; try discriminate.
      * intros E. injection E as ->. congruence.
      * intros _ [].
  - destruct R as [<- R], S as [<- S]. destruct (bytes_eqb description description1) eqn:D.
    + apply bytes_eqb_eq in D. subst. destruct (IH bits _ _ _ _ R S) as (r & E & A & B & C). exists r. split; [exact E|].
      cbn [tcmp dictless]. assert (lexc bytec description1 description1 = Eq) as -> by now apply lexc_bytec_eq.
      repeat split; auto; intros; [f_equal; now apply A|apply A; congruence].
    + exists false. split; [reflexivity|]. assert (description <> description1) as N by (intros E; apply bytes_eqb_eq in E; congruence).
      repeat split; try discriminate; try congruence. cbn [tcmp]. intros _ _.
      destruct (lexc bytec description description1) eqn:E; try discriminate. apply lexc_bytec_eq in E. congruence.
Qed.
End Equal.

(** *** Order *)
Lemma lex_ok {A B} (R S : A -> B -> Prop) (f : A -> A -> walk comparison) (c : B -> B -> comparison) :
  (forall x u y v, R x u -> S y v -> f x y = Known (c u v)) ->
  forall l ts, Forall2 R l ts -> forall m us, Forall2 S m us -> lex f l m = Known (lexc c ts us).
Proof.
  intros H. induction 1 as [|x t l ts Rx F IH]; intros m us F'; destruct F' as [|y u m us Ry F']; try reflexivity.
  cbn [lex lexc]. rewrite (H _ _ _ _ Rx Ry). cbn [wbind]. destruct (c t u); try reflexivity. now apply IH.
Qed.

Lemma insert_rel {A B} (R : A -> B -> Prop) (f : A -> A -> walk comparison) (c : B -> B -> comparison) :
  (forall x u y v, R x u -> R y v -> f x y = Known (c u v)) ->
  forall x u l us, R x u -> Forall2 R l us -> exists l', insert_sorted f x l = Known l' /\ Forall2 R l' (ins c u us).
Proof.
  intros H x u l us Rx F. induction F as [|y v l us Ry F IH].
  - exists [x]. split; [reflexivity|]. repeat constructor. exact Rx.
  - cbn [insert_sorted ins]. rewrite (H _ _ _ _ Rx Ry). cbn [wbind]. destruct IH as (l' & E & F').
    destruct (c u v).
    + rewrite E. cbn [wbind]. eexists. split; [reflexivity|]. now constructor.
    + eexists. split; [reflexivity|]. repeat (constructor; auto).
    + rewrite E. cbn [wbind]. eexists. split; [reflexivity|]. now constructor.
Qed.
Lemma sort_rel {A B} (R : A -> B -> Prop) (f : A -> A -> walk comparison) (c : B -> B -> comparison) :
  (forall x u y v, R x u -> R y v -> f x y = Known (c u v)) ->
  forall l us, Forall2 R l us -> exists l', sort_walk f l = Known l' /\ Forall2 R l' (isort c us).
Proof.
  intros H l us F. unfold sort_walk, isort.
  assert (G : forall acc vs, Forall2 R acc vs -> exists l', fold_left (fun acc x => wbind acc (insert_sorted f x)) l (Known acc) = Known l' /\
     Forall2 R l' (fold_left (fun acc x => ins c x acc) us vs)).
  { induction F as [|x u l us Rx F IH]; intros acc vs Fa; cbn [fold_left]; [eauto|]. cbn [wbind].
    destruct (insert_rel R f c H x u acc vs Rx Fa) as (l' & E & F'). rewrite E. now apply IH. }
  apply G. constructor.
Qed.

Definition entry_reads k h n (e : value * value) (u : tree * tree) : Prop :=
  reads k h n (fst e) (fst u) /\ reads k h n (snd e) (snd u).

Lemma dedup_ok k h n es us : Forall2 (entry_reads k h n) es us -> in_order us ->
  dedup (fun e e' : value * value => eqv h n false (fst e) (fst e')) es = Known es.
Proof.
  intros F. induction F as [|e u es us R F IH]; intros O; [reflexivity|].
  inversion O as [|? ? O' Fo]; subst. destruct F as [|e' u' es us R' F]; [reflexivity|].
  cbn [dedup]. destruct R as [R _], R' as [R' _]. destruct (eqv_ok h k k n false _ _ _ _ R R') as (r & E & _ & B & _).
  rewrite E. cbn [wbind]. destruct r.
  - specialize (B eq_refl). inversion Fo as [|? ? Q _]; subst. congruence.
  - specialize (IH O'). cbn [dedup] in IH. rewrite IH. reflexivity.
Qed.

Lemma vcmp_ok rk k h : forall n a b t u, reads k h n a t -> reads k h n b u -> vcmp rk h n k a b = Known (tcmp t u).
Proof.
  induction n as [|n IH]; intros a b t u R S; [destruct R|].
  cbn [reads] in R, S. destruct a, t; try contradiction; destruct b, u; try contradiction; cbn [vcmp]; try reflexivity.
  - subst. reflexivity.
  - subst. reflexivity.
  - subst. reflexivity.
  - destruct R as [<- N], S as [<- N']. cbn [tcmp]. now rewrite float_cmp_spec.
  - subst. reflexivity.
  - destruct R as [A F], S as [A' F']. rewrite A, A'. cbn [orb tcmp].
    apply (lex_ok (reads k h n) (reads k h n)); auto.
  - destruct R as (A & O & us & P & F), S as (A' & O' & us' & P' & F'). cbn [tcmp].
    assert (G : forall l ts us, dict_locked k l = false -> in_order ts -> Permutation us ts -> Forall2 (entry_reads k h n) (dict_entries h l) us ->
      exists es, (if dict_locked k l then Busy
        else wbind (sort_walk (fun e e' : value * value => vcmp rk h n k (fst e) (fst e')) (dict_entries h l))
                   (dedup (fun e e' : value * value => eqv h n false (fst e) (fst e')))) = Known es /\ Forall2 (entry_reads k h n) es ts).
    { clear -IH. intros l ts us A O P F. rewrite A.
      destruct (sort_rel (entry_reads k h n) (fun e e' : value * value => vcmp rk h n k (fst e) (fst e')) keyc) with (l := dict_entries h l) (us := us)
        as (l' & E & F'); [|exact F|].
      - intros x u y v [R _] [R' _]. unfold keyc. now apply IH.
      - rewrite (isort_order us ts O P) in F'. exists l'. split; [|exact F']. rewrite E. cbn [wbind]. now apply (dedup_ok k h n l' ts). }
    destruct (G _ _ _ A O P F) as (es & E & Fe). destruct (G _ _ _ A' O' P' F') as (es' & E' & Fe').
    rewrite E. cbn [wbind]. rewrite E'. cbn [wbind].
    apply (lex_ok (entry_reads k h n) (entry_reads k h n)); auto.
    intros x u y v [R1 R2] [S1 S2]. rewrite (IH _ _ _ _ R1 S1). cbn [wbind]. unfold pairc.
    destruct (tcmp (fst u) (fst v)); auto.
  - destruct R as [<- R], S as [<- S]. cbn [tcmp]. rewrite bytes_cmp_spec. destruct (lexc bytec _ _); auto.
Qed.

(** *** Hashing *)
Lemma hash_ok k h : forall n v t, reads k h n v t -> hash_walk h n k v = Known tt.
Proof.
  induction n as [|n IH]; intros v t R; [destruct R|]. cbn [reads] in R. cbn [hash_walk]. destruct v, t; try contradiction; try reflexivity.
  - destruct R as [-> F]. induction F as [|x t l' ts Rx F IHl]; [reflexivity|]. cbn [fold_left wbind]. now rewrite (IH _ _ Rx).
  - destruct R as (-> & _ & us & _ & F). induction F as [|x t l' ts [Rx Ry] F IHl]; [reflexivity|]. cbn [fold_left wbind].
    rewrite (IH _ _ Rx). cbn [wbind]. now rewrite (IH _ _ Ry).
  - destruct R as [_ R]. now apply (IH _ _ R).
Qed.

(** *** A collection is not a part of its own elements *)
Fixpoint tsize (t : tree) : nat :=
  match t with
  | TArr l => S (fold_right (fun t n => tsize t + n) 0 l)
  | TDict l => S (fold_right (fun (e : tree * tree) n => tsize (fst e) + tsize (snd e) + n) 0 l)
  | TErr _ c => S (tsize c)
  | _ => 1
  end.
Lemma size_in t l : In t l -> tsize t < tsize (TArr l).
Proof.
  intros I. cbn. apply le_n_S. induction l as [|x l IH]; [destruct I|]. cbn. destruct I as [->|I]; [lia|]. specialize (IH I). lia.
Qed.
Lemma size_entry e l : In e l -> tsize (fst e) < tsize (TDict l) /\ tsize (snd e) < tsize (TDict l).
Proof.
  intros I. cbn. enough (tsize (fst e) + tsize (snd e) <= fold_right (fun (e : tree * tree) n => tsize (fst e) + tsize (snd e) + n) 0 l) by lia.
  induction l as [|x l IH]; [destruct I|]. cbn. destruct I as [->|I]; [lia|]. specialize (IH I). lia.
Qed.

Lemma Forall2_either {A B} (R S : A -> B -> Prop) (Q : Prop) l m :
  (forall x y, In y m -> R x y -> S x y \/ Q) -> Forall2 R l m -> Forall2 S l m \/ Q.
Proof.
  intros H. induction 1 as [|x y l m Rx F IH]; [left; constructor|].
  destruct (H x y (or_introl eq_refl) Rx) as [A1|A1]; [|now right].
  destruct IH as [A2|A2]; [intros; apply H; cbn; auto|left; now constructor|now right].
Qed.

(** Either the array [l] is not a part of the value, or its tree is not larger. *)
Lemma array_inside h l : forall n v t, reads LockNone h n v t ->
  reads (LockArr l) h n v t \/ exists m t', reads LockNone h m (VArr l) t' /\ tsize t' <= tsize t.
Proof.
  induction n as [|n IH]; intros v t R; [destruct R|]. destruct v, t; try contradiction; auto.
  - destruct (Nat.eq_dec l0 l) as [->|N]; [right; exists (S n), (TArr l1); auto|]. destruct R as [_ F]. cbn [reads arr_locked].
    destruct (Forall2_either (reads LockNone h n) (reads (LockArr l) h n)
      (exists m t', reads LockNone h m (VArr l) t' /\ tsize t' <= tsize (TArr l1)) (arr_get h l0) l1) as [A|A].
    + intros x y I Rx. destruct (IH _ _ Rx) as [A|(m & t' & A & B)]; [now left|]. right. exists m, t'. split; [exact A|].
      pose proof (size_in _ _ I). lia.
    + exact F.
    + left. split; [now apply Nat.eqb_neq|exact A].
    + now right.
  - destruct R as (_ & O & us & P & F).
    destruct (Forall2_either (entry_reads LockNone h n) (entry_reads (LockArr l) h n)
      (exists m t', reads LockNone h m (VArr l) t' /\ tsize t' <= tsize (TDict l1)) (dict_entries h l0) us) as [A|A].
    + intros x y I [Rx Ry]. apply (Permutation_in _ P) in I. destruct (size_entry _ _ I).
      destruct (IH _ _ Rx) as [A|(m & t' & A & B)]; [|right; exists m, t'; split; [exact A|lia]].
      destruct (IH _ _ Ry) as [A'|(m & t' & A' & B)]; [|right; exists m, t'; split; [exact A'|lia]].
      left. now split.
    + exact F.
    + left. cbn [reads]. repeat split; auto. exists us. auto.
    + now right.
  - destruct R as [-> R]. destruct (IH _ _ R) as [A|(m & t' & A & B)]; [left; cbn [reads]; auto|right; exists m, t'; split; [exact A|cbn; lia]].
Qed.

Lemma element_free h l n v t m ts : In v (arr_get h l) -> reads LockNone h n v t ->
  Forall2 (reads LockNone h m) (arr_get h l) ts -> reads (LockArr l) h n v t.
Proof.
  intros I R F. destruct (array_inside h l n v t R) as [A|(m' & t' & A & B)]; [exact A|exfalso].
  destruct m' as [|m']; [destruct A|]. destruct t'; try contradiction. destruct A as [_ F'].
  destruct (Forall2_in_l _ _ _ _ F' I) as (t2 & I2 & R2). pose proof (reads_det _ _ _ _ _ _ _ _ R R2) as ->.
  pose proof (size_in _ _ I2). lia.
Qed.

(** ** [std.sort] *)
Lemma common_depth h l ts : Forall2 (data h) l ts -> exists n, Forall2 (reads LockNone h n) l ts.
Proof.
  induction 1 as [|x t l ts [n R] F [m IH]]; [exists 0; constructor|]. exists (n + m). constructor.
  - apply (reads_mono _ _ n); [lia|exact R].
  - eapply Forall2_mono; [|exact IH]. intros. apply (reads_mono _ _ m); [lia|assumption].
Qed.

Lemma Forall2_pairs {A B} (R : A -> B -> Prop) l ts : Forall2 R l ts -> Forall (fun p => R (fst p) (snd p)) (combine l ts) /\
  map fst (combine l ts) = l /\ map snd (combine l ts) = ts.
Proof. induction 1 as [|x t l ts Rx F (Q1 & Q2 & Q3)]; cbn; repeat split; try constructor; auto; congruence. Qed.

Lemma sort_std {W} (X : ext W) l ts h : l < length (h_arrs h) -> Forall2 (data h) (arr_get h l) ts ->
  exists n, forall m args p w, n <= m -> exists h' qs,
    std_call X m args SSort [VArr l] p h w = Val VNil (h', w) /\
    h' = arr_set h l (map fst qs) /\ arr_get h' l = map fst qs /\ sorted_stably (combine (arr_get h l) ts) qs.
Proof.
  intros Al F. destruct (common_depth h _ _ F) as [n Fn]. exists n. intros m args p w L.
  assert (Fm : Forall2 (reads (LockArr l) h m) (arr_get h l) ts).
  { assert (G : forall x, In x (arr_get h l) -> forall t, reads LockNone h n x t -> reads (LockArr l) h m x t).
    { intros x I t R. apply (reads_mono _ _ n); [exact L|]. eapply element_free; eassumption. }
    clear -G Fn. revert G. induction Fn as [|x t r ts R Fr IH]; intros G; constructor.
    - apply G; [now left|exact R].
    - apply IH. intros y I. apply G. now right. }
  destruct (Forall2_pairs _ _ _ Fm) as (Fp & E1 & E2). set (ps := combine (arr_get h l) ts) in *.
  set (c := fun p q : value * tree => tcmp (snd p) (snd q)).
  assert (Lw : forall p, lawful c p) by (intros q; apply (lawful_via snd tcmp c); [reflexivity|apply lawful_tree]).
  destruct (sort_rel (fun x (q : value * tree) => x = fst q /\ reads (LockArr l) h m x (snd q)) (vcmp (x_rank X) h m (LockArr l)) c)
    with (l := arr_get h l) (us := ps) as (l' & E & F').
  - intros x u y v [_ R] [_ S]. now apply vcmp_ok.
  - rewrite <- E1 at 1. clear -Fp. induction Fp; constructor; auto.
  - assert (l' = map fst (isort c ps)) as ->.
    { clear -F'. induction F' as [|x q l2 qs [-> _] F IH]; [reflexivity|]. cbn. congruence. }
    exists (arr_set h l (map fst (isort c ps))), (isort c ps). repeat split.
    + cbn [std_call]. rewrite E. reflexivity.
    + unfold arr_get, arr_set. cbn [h_arrs]. now apply nth_list_set.
    + apply isort_perm.
    + exact (isort_sorted c Lw ps).
    + intros t. apply (isort_filter c Lw). intros x y Hx Hy. unfold c.
      destruct (tcmp (snd x) t) eqn:Ex; try discriminate. destruct (tcmp (snd y) t) eqn:Ey; try discriminate.
      rewrite (tcmp_eq _ _ _ Ex). now apply tcmp_sym.
Qed.
