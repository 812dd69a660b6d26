(** Proofs about encoding and decoding JSON. *)
From Coq Require Import Strings.String Lia Sorting.Permutation.
From Verif Require Import Base Ast Value Json StdLib TextProofs SpecText SpecLib SpecRun SpecShow SpecJson FuelProofs ShowProofs JsonProofs Utf8Proofs.

Lemma finite_number f : finite f = true <-> a_number f.
Proof.
  unfold a_number. destruct f; cbn; split; intros H; try discriminate; try reflexivity; try (split; intros; discriminate); destruct H as [H K]; [now destruct (K s)|now destruct H].
Qed.

(** ** Encoding *)
Section Encode.
Variable order : list (value * value) -> list (value * value).

Lemma each_json_some {A B} (f : A -> walk (option B)) l r :
  each_json f l = Known (Some r) <-> Forall2 (fun x y => f x = Known (Some y)) l r.
Proof.
  revert r. induction l as [|x l IH]; intros r; cbn [each_json]; split.
  - intros E. injection E as <-. constructor.
  - intros H. inversion H. reflexivity.
  - intros E. destruct (f x) as [[y|]| |] eqn:F; try discriminate. cbn [wbind] in E.
    destruct (each_json f l) as [[r'|]| |] eqn:G; try discriminate. injection E as <-. constructor; [exact F|now apply IH].
  - intros H. inversion H as [|? y ? r' F G]; subst. rewrite F. cbn [wbind]. apply IH in G. now rewrite G.
Qed.
Lemma each_json_none {A B} (f : A -> walk (option B)) l : each_json f l = Known None -> exists x, In x l /\ f x = Known None.
Proof.
  induction l as [|x l IH]; cbn [each_json]; [discriminate|]. destruct (f x) as [[y|]| |] eqn:F; try discriminate; cbn [wbind].
  - destruct (each_json f l) as [[r'|]| |] eqn:G; try discriminate. intros _. destruct (IH eq_refl) as (z & I & E). exists z. split; [now right|exact E].
  - intros _. exists x. split; [now left|exact F].
Qed.
Lemma each_json_known {A B} (f : A -> walk (option B)) l : (forall x, In x l -> exists r, f x = Known r) -> exists r, each_json f l = Known r.
Proof.
  induction l as [|x l IH]; intros H; cbn [each_json]; [eauto|]. destruct (H x (or_introl eq_refl)) as [[y|] E]; rewrite E; cbn [wbind]; [|eauto].
  destruct IH as [r F]; [intros; apply H; now right|]. rewrite F. cbn [wbind]. eauto.
Qed.

Lemma to_json_encodes h : forall n v j, to_json order n h v = Known (Some j) -> encodes order h v j.
Proof.
  induction n as [|n IH]; intros v j E; [discriminate|]. cbn [to_json] in E. destruct v; try discriminate.
  - injection E as <-. constructor.
  - injection E as <-. constructor.
  - apply Known_inj in E. injection E as <-. constructor. now apply repaired_iff.
  - injection E as <-. constructor.
  - apply Known_inj in E. injection E as <-. destruct (finite f) eqn:F; constructor; [now apply finite_number|]. intros N. apply finite_number in N. congruence.
  - apply Known_inj in E. injection E as <-. constructor. now apply repaired_iff.
  - destruct (each_json (to_json order n h) (arr_get h l)) as [[js|]| |] eqn:Q; try discriminate. injection E as <-.
    apply each_json_some in Q. constructor. eapply Forall2_weaken; [|exact Q]. auto.
  - match type of E with wbind ?x _ = _ => destruct x as [[js|]| |] eqn:Q end; try discriminate. injection E as <-.
    apply each_json_some in Q. constructor. eapply Forall2_weaken; [|exact Q]. cbn beta. intros [k v] [t j] F. cbn [fst snd] in F.
    destruct k; try discriminate. destruct (to_json order n h v) as [[j'|]| |] eqn:V; try discriminate. apply Known_inj in F. injection F as <- <-.
    constructor; [now apply repaired_iff|auto].
Qed.
Lemma to_json_more h n m v r : n <= m -> to_json order n h v = Known r -> to_json order m h v = Known r.
Proof. intros L E. destruct (to_json_le order h n m L v) as [F|F]; congruence. Qed.
Lemma fuel_for2 {A B} (P : nat -> A -> B -> Prop) l ts : (forall n m x t, n <= m -> P n x t -> P m x t) ->
  Forall2 (fun x t => exists n, P n x t) l ts -> exists n, Forall2 (P n) l ts.
Proof.
  intros M H. induction H as [|x t l ts [n Hn] _ [m Hm]]; [exists 0; constructor|].
  exists (max n m). constructor; [eapply M; [|exact Hn]; lia|].
  eapply Forall2_weaken; [|exact Hm]. intros; eapply M; [|eassumption]; lia.
Qed.
Lemma encodes_to_json h : forall v j, encodes order h v j -> exists n, to_json order n h v = Known (Some j).
Proof.
  fix IH 3. intros v j H. destruct H as [|b|z|f F|f F|b t R|s t R|l js H|l es H].
  - exists 1. reflexivity.
  - exists 1. reflexivity.
  - exists 1. reflexivity.
  - exists 1. cbn [to_json]. apply finite_number in F. now rewrite F.
  - exists 1. cbn [to_json]. destruct (finite f) eqn:Q; [|reflexivity]. apply finite_number in Q. now apply F in Q.
  - exists 1. apply repaired_iff in R. now subst.
  - exists 1. apply repaired_iff in R. now subst.
  - assert (F : Forall2 (fun x t => exists n, to_json order n h x = Known (Some t)) (arr_get h l) js).
    { clear -H IH. induction H as [|x t l' ts' H _ IHl]; constructor; [now apply IH|exact IHl]. }
    apply fuel_for2 with (P := fun n x t => to_json order n h x = Known (Some t)) in F; [|intros; eapply to_json_more; eassumption].
    destruct F as [n F]. apply each_json_some in F. exists (S n). cbn [to_json]. now rewrite F.
  - assert (F : Forall2 (fun (e : value * value) (t : bytes * json) => exists n, exists s, fst e = VStr s /\ fst t = lossy s /\ to_json order n h (snd e) = Known (Some (snd t))) (order (dict_entries h l)) es).
    { clear -H IH. induction H as [|x t l' ts' H _ IHl]; constructor; [|exact IHl]. destruct H as [s t v j R V].
      destruct (IH _ _ V) as [n E]. apply repaired_iff in R. exists n, s. now repeat split. }
    apply fuel_for2 with (P := fun n (e : value * value) (t : bytes * json) => exists s, fst e = VStr s /\ fst t = lossy s /\ to_json order n h (snd e) = Known (Some (snd t))) in F.
    2: { intros n m x t L (s & E1 & E2 & E3). exists s. repeat split; try assumption. eapply to_json_more; eassumption. }
    destruct F as [n F]. exists (S n). cbn [to_json].
    rewrite (proj2 (each_json_some _ _ es)); [reflexivity|]. eapply Forall2_weaken; [|exact F]. cbn beta.
    intros [k v] [t j] (s & E1 & E2 & E3). cbn [fst snd] in *. subst k t. rewrite E3. reflexivity.
Qed.
Lemma encodes_iff h v j : encodes order h v j <-> exists n, to_json order n h v = Known (Some j).
Proof. split; [apply encodes_to_json|]. intros [n E]. eapply to_json_encodes, E. Qed.

Hypothesis HO : forall d, Permutation (order d) d.
Lemma to_json_foreign h : forall n v, to_json order n h v = Known None -> foreign h v.
Proof.
  induction n as [|n IH]; intros v E; [discriminate|]. cbn [to_json] in E. destruct v; try discriminate.
  - destruct (each_json (to_json order n h) (arr_get h l)) as [[js|]| |] eqn:Q; try discriminate.
    apply each_json_none in Q. destruct Q as (x & I & F). eapply fo_array; eauto.
  - match type of E with wbind ?x _ = _ => destruct x as [[js|]| |] eqn:Q end; try discriminate.
    apply each_json_none in Q. destruct Q as ([k v] & I & F). apply (Permutation_in _ (HO _)) in I. cbn [fst snd] in F.
    destruct k; try (eapply fo_key; [exact I|discriminate]).
    destruct (to_json order n h v) as [[j'|]| |] eqn:V; try discriminate. eapply fo_value; eauto.
  - constructor.
  - constructor.
Qed.
Lemma foreign_not_encoded h v : foreign h v -> forall j, ~ encodes order h v j.
Proof.
  induction 1 as [f|d c|l v I F IH|l k v I F IH|l k v I N]; intros j E; inversion E; subst.
  - match goal with H : Forall2 _ _ _ |- _ => rename H into H2 end. destruct (in_split _ _ I) as (a & b & Q). rewrite Q in H2.
    apply Forall2_app_inv_l in H2. destruct H2 as (x & y & _ & H2 & _). inversion H2; subst. eapply IH; eassumption.
  - match goal with H : Forall2 _ _ _ |- _ => rename H into H2 end. apply (Permutation_in _ (Permutation_sym (HO _))) in I. destruct (in_split _ _ I) as (a & b & Q). rewrite Q in H2.
    apply Forall2_app_inv_l in H2. destruct H2 as (x & y & _ & H2 & _). inversion H2 as [|? ? ? ? EE]; subst. inversion EE; subst. eapply IH; eassumption.
  - match goal with H : Forall2 _ _ _ |- _ => rename H into H2 end. apply (Permutation_in _ (Permutation_sym (HO _))) in I. destruct (in_split _ _ I) as (a & b & Q). rewrite Q in H2.
    apply Forall2_app_inv_l in H2. destruct H2 as (x & y & _ & H2 & _). inversion H2 as [|? ? ? ? EE]; subst. inversion EE; subst. eapply N; reflexivity.
Qed.
Lemma showable_known h v : showable h v -> exists n r, to_json order n h v = Known r.
Proof.
  induction 1 as [l _ IH|l _ IHk _ IHv|d c _ [t IH]|v Hv].
  - assert (F : exists n, forall v, In v (arr_get h l) -> exists r, to_json order n h v = Known r).
    { revert IH. generalize (arr_get h l). induction l0 as [|x r IHr]; intros IH; [exists 0; intros v []|].
      destruct IHr as [n F]; [intros; apply IH; now right|]. destruct (IH x (or_introl eq_refl)) as (m & r' & E). exists (max n m).
      intros v [<-|I]; [exists r'; eapply to_json_more; [|exact E]; lia|]. destruct (F v I) as [r2 E2]. exists r2. eapply to_json_more; [|exact E2]. lia. }
    destruct F as [n F]. exists (S n). cbn [to_json]. destruct (each_json_known (to_json order n h) (arr_get h l) F) as [r ->]. cbn [wbind]. eauto.
  - assert (F : exists n, forall k v, In (k, v) (order (dict_entries h l)) -> exists r, to_json order n h v = Known r).
    { assert (A : forall k v, In (k, v) (order (dict_entries h l)) -> exists n r, to_json order n h v = Known r).
      { intros k v I. apply (Permutation_in _ (HO _)) in I. eauto. }
      revert A. generalize (order (dict_entries h l)). induction l0 as [|[k0 x] r IHr]; intros A; [exists 0; intros k v []|].
      destruct IHr as [n F]; [intros; eapply A; right; eassumption|]. destruct (A k0 x (or_introl eq_refl)) as (m & r' & E). exists (max n m).
      intros k v [[= <- <-]|I]; [exists r'; eapply to_json_more; [|exact E]; lia|]. destruct (F k v I) as [r2 E2]. exists r2. eapply to_json_more; [|exact E2]. lia. }
    destruct F as [n F]. exists (S n). cbn [to_json].
    match goal with |- exists r, wbind (each_json ?f ?l) _ = _ => destruct (each_json_known f l) as [r E] end.
    { intros [k v] I. cbn [fst snd]. destruct k; eauto. destruct (F _ _ I) as [r ->]. cbn [wbind]. eauto. }
    rewrite E. cbn [wbind]. eauto.
  - exists 1. eexists. reflexivity.
  - exists 1. destruct v; try contradiction; eexists; reflexivity.
Qed.
End Encode.

(** ** Decoding *)
Definition grows (h h' : heap) : Prop :=
  (forall l vs, nth_error (h_arrs h) l = Some vs -> nth_error (h_arrs h') l = Some vs) /\
  (forall l vs, nth_error (h_dicts h) l = Some vs -> nth_error (h_dicts h') l = Some vs).
Lemma adds_grows h h' : adds_more h h' -> grows h h'.
Proof.
  intros (a & d & -> & _). cbn. split; intros l vs E; cbn; (rewrite nth_error_app1; [exact E|]; apply nth_error_Some; congruence).
Qed.
Lemma from_json_grows j h v h' : from_json j h = Some (v, h') -> grows h h'.
Proof. intros E. apply from_json_adds, adds_split in E. now apply adds_grows. Qed.
Lemma decodes_grows h h' : grows h h' -> forall j v, decodes h j v -> decodes h' j v.
Proof.
  intros G. fix IH 3. intros j v H. destruct H as [|b|z|f|s|js l vs N F|es l d N D K S L]; try constructor.
  - apply dc_array with vs; [now apply G|]. clear N. induction F; constructor; auto.
  - apply dc_object with d; try assumption; [now apply G|]. intros before k j after E A.
    destruct (L before k j after E A) as (v & I & V). exists v. split; [exact I|]. now apply IH.
Qed.

Lemma from_json_decodable : forall j h, (exists r, from_json j h = Some r) <-> decodable j.
Proof.
  induction j as [|b|z|f|s|l IH|l IH] using json_nested; intros h; split.
  1,3,7,9: intros _; constructor.
  1,2,5,6: intros _; eexists; reflexivity.
  - cbn [from_json]. destruct (z <=? i64_max)%Z eqn:E; [|intros [r Q]; discriminate]. intros _. constructor. now apply Z.leb_le.
  - intros D. inversion D as [| |? L| | | |]; subst. cbn [from_json]. apply Z.leb_le in L. rewrite L. eauto.
  - rewrite from_arr. intros [r E]. constructor. revert E. generalize (@nil value). revert h r. induction IH as [|x l H _ IHl]; intros h r acc E; [constructor|].
    cbn [from_items] in E. destruct (from_json x h) as [[v h1]|] eqn:F; [|discriminate]. constructor; [apply (H h); eauto|eapply IHl, E].
  - rewrite from_arr. intros D. inversion D as [| | | | |? A|]; subst. generalize (@nil value). revert h. clear D.
    induction IH as [|x l H _ IHl]; intros h acc; [cbn; eauto|]. inversion A as [|? ? Dx A']; subst. cbn [from_items].
    destruct (proj2 (H h) Dx) as [[v h1] ->]. now apply IHl.
  - rewrite from_obj. intros [r E]. constructor. revert E. generalize (@nil (value * value)). revert h r. induction IH as [|[k x] l H _ IHl]; intros h r acc E; [constructor|].
    cbn [from_entries] in E. destruct (from_json x h) as [[v h1]|] eqn:F; [|discriminate]. constructor; [apply (H h); eauto|eapply IHl, E].
  - rewrite from_obj. intros D. inversion D as [| | | | | |? A]; subst. generalize (@nil (value * value)). revert h. clear D.
    induction IH as [|[k x] l H _ IHl]; intros h acc; [cbn; eauto|]. inversion A as [|? ? Dx A']; subst. cbn [from_entries].
    cbn [snd] in *. destruct (proj2 (H h) Dx) as [[v h1] ->]. now apply IHl.
Qed.

(** The dict built so far *)
Definition keyed (d : list (value * value)) : Prop := NoDup (map fst d) /\ Forall (fun e : value * value => exists k, fst e = VStr k) d.
Lemma insert_keys k v d : forall x, In x (map fst (insert_key k v d)) <-> x = VStr k \/ In x (map fst d).
Proof.
  induction d as [|[a w] d IH]; intros x; cbn [insert_key]; [cbn; intuition congruence|].
  assert (O : In x (map fst ((a, w) :: insert_key k v d)) <-> x = VStr k \/ In x (map fst ((a, w) :: d))).
  { cbn [map fst In]. rewrite IH. tauto. }
  destruct a; try exact O. destruct (bytes_eqb k s) eqn:E; [|exact O]. apply bytes_eqb_eq in E. subst. cbn. intuition congruence.
Qed.
Lemma insert_keyed k v d : keyed d -> keyed (insert_key k v d).
Proof.
  intros [N F]. revert N. induction F as [|[a w] d [k' E] F IH]; intros N; cbn [insert_key]; [split; repeat constructor; cbn; eauto; tauto|].
  cbn [fst] in E. subst a. inversion N as [|? ? NI N']; subst. destruct (bytes_eqb k k') eqn:Q.
  - split; [exact N|]. constructor; cbn; eauto.
  - destruct (IH N') as [N2 F2]. split; [|constructor; cbn; eauto]. cbn [map fst]. constructor; [|exact N2].
    rewrite insert_keys. intros [[= ->]|I]; [|now apply NI]. assert (bytes_eqb k k = true) by now apply bytes_eqb_eq. congruence.
Qed.
Lemma insert_holds k v d : In (VStr k, v) (insert_key k v d).
Proof.
  induction d as [|[a w] d IH]; cbn [insert_key]; [now left|]. destruct a; try (right; exact IH).
  destruct (bytes_eqb k s) eqn:E; [|right; exact IH]. apply bytes_eqb_eq in E. subst. now left.
Qed.
Lemma insert_keeps k v d k' w : k' <> k -> In (VStr k', w) d -> In (VStr k', w) (insert_key k v d).
Proof.
  intros N. induction d as [|[a x] d IH]; intros I; [destruct I|]. cbn [insert_key].
  assert (O : In (VStr k', w) ((a, x) :: insert_key k v d)) by (destruct I as [E|I]; [now left|right; auto]).
  destruct a; try exact O. destruct (bytes_eqb k s) eqn:E; [|exact O]. apply bytes_eqb_eq in E. subst.
  destruct I as [[= -> ->]|I]; [congruence|now right].
Qed.

(** What the dict holds after some of the entries *)
Definition stored (h : heap) (es : list (bytes * json)) (d : list (value * value)) : Prop :=
  keyed d /\ (forall k, In (VStr k) (map fst d) -> In k (map fst es)) /\
  (forall before k j after, es = before ++ (k, j) :: after -> ~ In k (map fst after) -> exists v, In (VStr k, v) d /\ decodes h j v).
Lemma stored_grows h h' es d : grows h h' -> stored h es d -> stored h' es d.
Proof.
  intros G (K & S & L). split; [exact K|]. split; [exact S|]. intros b k j a E N. destruct (L b k j a E N) as (v & I & D). exists v.
  split; [exact I|]. eapply decodes_grows; eassumption.
Qed.
Lemma stored_more h es d k j v : stored h es d -> decodes h j v -> stored h (es ++ [(k, j)]) (insert_key k v d).
Proof.
  intros (K & S & L) D. split; [now apply insert_keyed|]. split.
  - intros k' I. apply insert_keys in I. rewrite map_app. apply in_or_app. destruct I as [[= ->]|I]; [right; now left|left; auto].
  - intros b k' j' a E N. destruct (bytes_eqb k' k) eqn:Q.
    + apply bytes_eqb_eq in Q. subst k'. destruct a as [|e a _] using rev_ind.
      * apply app_inj_tail in E. destruct E as [_ [= <-]]. exists v. split; [apply insert_holds|exact D].
      * exfalso. rewrite app_comm_cons, app_assoc in E. apply app_inj_tail in E. destruct E as [_ <-]. apply N. rewrite map_app. apply in_or_app. right. now left.
    + assert (NE : k' <> k) by (intros ->; assert (bytes_eqb k k = true) by (now apply bytes_eqb_eq); congruence).
      destruct a as [|e a _] using rev_ind.
      * apply app_inj_tail in E. destruct E as [_ [= <- _]]. now destruct NE.
      * rewrite app_comm_cons, app_assoc in E. apply app_inj_tail in E. destruct E as [E _]. rewrite map_app in N.
        destruct (L b k' j' a E) as (w & I & W); [intros I; apply N, in_or_app; now left|]. exists w. split; [now apply insert_keeps|exact W].
Qed.

Lemma from_json_decodes : forall j h v h', from_json j h = Some (v, h') -> decodes h' j v.
Proof.
  induction j as [|b|z|f|s|l IH|l IH] using json_nested; intros h v h' E.
  1-2: injection E as <- <-; constructor.
  - cbn [from_json] in E. destruct (z <=? _)%Z; [|discriminate]. injection E as <- <-; constructor.
  - injection E as <- <-; constructor.
  - injection E as <- <-; constructor.
  - rewrite from_arr in E.
    assert (G : forall l, Forall (fun x => forall h v h', from_json x h = Some (v, h') -> decodes h' x v) l -> forall done acc h, Forall2 (decodes h) done acc -> from_items l acc h = Some (v, h') ->
              exists n vs, v = VArr n /\ nth_error (h_arrs h') n = Some vs /\ Forall2 (decodes h') (done ++ l) vs).
    { clear. intros l IH. induction IH as [|x l H _ IHl]; intros done acc h F E; cbn [from_items] in E.
      - unfold new_arr in E. injection E as <- <-. eexists _, acc. split; [reflexivity|]. cbn [h_arrs]. rewrite nth_error_app2, Nat.sub_diag; [|lia]. split; [reflexivity|].
        rewrite app_nil_r. eapply Forall2_weaken; [|exact F]. intros j u. apply decodes_grows.
        intros; split; intros k vs Q; [|exact Q]. cbn. rewrite nth_error_app1; [exact Q|]. apply nth_error_Some. congruence.
      - destruct (from_json x h) as [[u h1]|] eqn:Q; [|discriminate]. pose proof (from_json_grows _ _ _ _ Q) as A.
        replace (done ++ x :: l) with ((done ++ [x]) ++ l) by (rewrite <- app_assoc; reflexivity). apply (IHl (done ++ [x]) (acc ++ [u]) h1); [|exact E].
        apply Forall2_app; [|repeat constructor; eapply H, Q]. eapply Forall2_weaken; [|exact F]. intros j u'. now apply decodes_grows. }
    destruct (G _ IH [] [] h (Forall2_nil _) E) as (n & vs & -> & N & F). now apply dc_array with vs.
  - rewrite from_obj in E.
    assert (G : forall l, Forall (fun x : bytes * json => forall h v h', from_json (snd x) h = Some (v, h') -> decodes h' (snd x) v) l -> forall done acc h, stored h done acc -> from_entries l acc h = Some (v, h') ->
              exists n d, v = VDict n /\ nth_error (h_dicts h') n = Some d /\ stored h' (done ++ l) d).
    { clear. intros l IH. induction IH as [|[k x] l H _ IHl]; intros done acc h F E; cbn [from_entries] in E.
      - unfold new_dict in E. injection E as <- <-. eexists _, acc. split; [reflexivity|]. cbn [h_dicts]. rewrite nth_error_app2, Nat.sub_diag; [|lia]. split; [reflexivity|].
        rewrite app_nil_r. eapply stored_grows; [|exact F].
        split; intros i vs Q; [exact Q|]. cbn. rewrite nth_error_app1; [exact Q|]. apply nth_error_Some. congruence.
      - destruct (from_json x h) as [[u h1]|] eqn:Q; [|discriminate]. pose proof (from_json_grows _ _ _ _ Q) as A.
        replace (done ++ (k, x) :: l) with ((done ++ [(k, x)]) ++ l) by (rewrite <- app_assoc; reflexivity). apply (IHl (done ++ [(k, x)]) (insert_key k u acc) h1); [|exact E].
        apply stored_more; [eapply stored_grows; eassumption|exact (H _ _ _ Q)]. }
    assert (S0 : stored h [] []). { split; [split; constructor|]. split; [intros k []|]. intros b k j a B. now destruct b. }
    destruct (G _ IH [] [] h S0 E) as (n & d & -> & N & (K1 & K2) & S1 & S2). now apply dc_object with d.
Qed.

(** ** There and back *)
Lemma arr_get_nth h l vs : nth_error (h_arrs h) l = Some vs -> arr_get h l = vs.
Proof. intros E. unfold arr_get. now apply nth_error_nth. Qed.
Lemma dict_get_nth h l vs : nth_error (h_dicts h) l = Some vs -> dict_entries h l = vs.
Proof. intros E. unfold dict_entries. now apply nth_error_nth. Qed.
Lemma portable_number h f j order : portable h (VFloat f) -> encodes order h (VFloat f) j -> j = JFloat f.
Proof. intros P E. inversion P; subst. inversion E; subst; [reflexivity|contradiction]. Qed.

Lemma text_same s t : repaired s t -> text s -> t = s.
Proof. intros R T. apply repaired_iff in R. subst. now apply lossy_unchanged. Qed.

Section Back.
Variable order : list (value * value) -> list (value * value).
Hypothesis HO : forall d, Permutation (order d) d.

Lemma portable_decodable h : forall v j, encodes order h v j -> portable h v -> decodable j.
Proof.
  fix IH 3. intros v j H P. destruct H as [|b|z|f F|f F|b t R|s t R|l js H|l es H]; try constructor.
  - inversion P as [| |? I| | | |]; subst. unfold in_i64 in I. apply andb_prop in I. destruct I as [_ I]. now apply Z.leb_le in I.
  - inversion P as [| | | | |? vs N F|]; subst. rewrite (arr_get_nth _ _ _ N) in H. clear P N. induction H as [|x y a b E _ IHl]; [constructor|].
    inversion F; subst. constructor; [eapply IH; eassumption|]. now apply IHl.
  - inversion P as [| | | | | |? d N D F]; subst. rewrite (dict_get_nth _ _ _ N) in H. clear P N D.
    assert (F' : Forall (portable_entry h) (order d)) by (eapply Permutation_Forall; [apply Permutation_sym, HO|exact F]). clear F.
    induction H as [|x y a b E _ IHl]; [constructor|]. inversion F' as [|? ? PE]; subst. constructor; [|now apply IHl].
    destruct E as [s t v j R V]. inversion PE; subst. cbn [snd]. eapply IH; eassumption.
Qed.

Lemma NoDup_keys {A B} (d : list (A * B)) k v w : NoDup (map fst d) -> In (k, v) d -> In (k, w) d -> v = w.
Proof.
  induction d as [|[a b] d IH]; intros N I J; [destruct I|]. inversion N as [|? ? NI N']; subst.
  destruct I as [E|I], J as [E'|J]; try congruence.
  - injection E as -> ->. destruct NI. apply in_map_iff. exists (k, w). now split.
  - injection E' as -> ->. destruct NI. apply in_map_iff. exists (k, v). now split.
  - eauto.
Qed.
Lemma Forall2_exists {A B} (P : A -> B -> Prop) l : Forall (fun x => exists y, P x y) l -> exists r, Forall2 P l r.
Proof. induction 1 as [|x l [y H] _ [r IH]]; [exists []; constructor|exists (y :: r); now constructor]. Qed.
Lemma Forall2_pick {A B} (P : A -> B -> Prop) l r x : Forall2 P l r -> In x l -> exists y, In y r /\ P x y.
Proof. induction 1 as [|a b l r H _ IH]; [intros []|]; intros [<-|I]; [exists b; split; [now left|exact H]|]. destruct (IH I) as (y & J & Q). exists y. split; [now right|exact Q]. Qed.
Lemma Forall2_pick_r {A B} (P : A -> B -> Prop) l r y : Forall2 P l r -> In y r -> exists x, In x l /\ P x y.
Proof. induction 1 as [|a b l r H _ IH]; [intros []|]; intros [<-|I]; [exists a; split; [now left|exact H]|]. destruct (IH I) as (x & J & Q). exists x. split; [now right|exact Q]. Qed.
Lemma NoDup_Forall2 {A B C} (f : A -> C) (g : B -> C) l r : Forall2 (fun x y => f x = g y) l r -> NoDup (map f l) -> NoDup (map g r).
Proof.
  intros H. assert (E : map f l = map g r) by (induction H; cbn; congruence). now rewrite E.
Qed.

Lemma back h h' : grows h h' -> forall v j v', encodes order h v j -> portable h v -> decodes h' j v' -> alike h' v v'.
Proof.
  intros G. fix IH 4. intros v j v' H P D. destruct H as [|b|z|f F|f F|b t R|s t R|l js H|l es H].
  1-3: inversion D; subst; now constructor.
  - inversion D; subst. now constructor.
  - inversion P; subst. contradiction.
  - inversion P.
  - inversion P; subst. apply text_same in R; [|assumption]. subst. inversion D; subst. now constructor.
  - inversion P as [| | | | |? vs N F|]; subst. inversion D as [| | | | |? l' vs' N' F'|]; subst. constructor.
    rewrite (arr_get_nth h' l vs), (arr_get_nth h' l' vs'); [|exact N'|now apply G].
    rewrite (arr_get_nth h l vs N) in H. clear P D N N'. revert vs' F'. induction H as [|x y a b E _ IHl]; intros vs' F'.
    + inversion F'. constructor.
    + inversion F as [|? ? PX PR]; subst. inversion F' as [|? v1 ? r DX DR]; subst. constructor; [exact (IH _ _ _ E PX DX)|now apply IHl].
  - inversion P as [| | | | | |? d N ND F]; subst. inversion D as [| | | | | |? l' d' N' ND' K' S' L']; subst.
    rewrite (dict_get_nth h l d N) in H.
    assert (F' : Forall (portable_entry h) (order d)) by (eapply Permutation_Forall; [apply Permutation_sym, HO|exact F]).
    assert (NO : NoDup (map fst (order d))) by (eapply Permutation_NoDup; [apply Permutation_map, Permutation_sym, HO|exact ND]).
    assert (KE : Forall2 (fun (e : value * value) (t : bytes * json) => fst e = VStr (fst t)) (order d) es).
    { clear -H F'. induction H as [|x y a b E _ IHl]; constructor; inversion F' as [|? ? PE FF]; subst; [|auto].
      destruct E as [s t v j R V]. inversion PE; subst. apply text_same in R; [|assumption]. now subst. }
    assert (NE : NoDup (map fst es)).
    { apply NoDup_Forall2 with (g := fun t : bytes * json => VStr (fst t)) in KE; [|exact NO]. rewrite <- (map_map fst VStr) in KE. now apply NoDup_map_inv in KE. }
    assert (EX : Forall (fun e => exists e', alike_entry h' e e' /\ In e' d') (order d)).
    { assert (L2 : forall k j, In (k, j) es -> exists v, In (VStr k, v) d' /\ decodes h' j v).
      { intros k j I. apply in_split in I. destruct I as (b & a & E). apply (L' b k j a E). intros I. rewrite E, map_app in NE. apply NoDup_remove_2 in NE.
        apply NE. apply in_or_app. now right. }
      clear -H F' L2 IH KE. induction H as [|x y a b E _ IHl]; [constructor|]. inversion F' as [|? ? PE FF]; subst. inversion KE as [|? ? ? ? K KK]; subst. constructor.
      - destruct E as [s t v j R V]. inversion PE as [? ? TX PV]; subst. cbn [fst] in K. injection K as ->.
        destruct (L2 t j (or_introl eq_refl)) as (v' & I & DV). exists (VStr t, v'). split; [constructor; exact (IH _ _ _ V PV DV)|exact I].
      - apply IHl; try assumption. intros k j I. apply L2. now right. }
    eapply Permutation_Forall in EX; [|apply HO]. apply Forall2_exists in EX. destruct EX as [es' EX].
    apply ak_dict with es'; rewrite ?(dict_get_nth h' l d), ?(dict_get_nth h' l' d'); try exact N'; try (now apply G).
    + assert (KK : Forall2 (fun (e e' : value * value) => fst e = fst e') d es').
      { eapply Forall2_weaken; [|exact EX]. intros e e' [A _]. now destruct A. }
      pose proof (NoDup_Forall2 _ _ _ _ KK ND) as NS.
      apply NoDup_Permutation; [now apply NoDup_map_inv in NS|now apply NoDup_map_inv in ND'|].
      intros [k v]. split.
      * intros I. apply (Forall2_pick_r _ _ _ _ EX) in I. destruct I as (e & _ & _ & I). exact I.
      * intros I. rewrite Forall_forall in K'. destruct (K' _ I) as [s E]. cbn [fst] in E. subst k.
        assert (IS : In s (map fst es)) by (apply S', in_map_iff; exists (VStr s, v); now split).
        apply in_map_iff in IS. destruct IS as ([s' j] & E & IS). cbn [fst] in E. subst s'. apply (Forall2_pick_r _ _ _ _ KE) in IS. destruct IS as ([k w] & IS & E). cbn [fst] in E. subst k.
        apply (Permutation_in _ (HO d)) in IS. destruct (Forall2_pick _ _ _ _ EX IS) as ([k2 w2] & I2 & A & I3). inversion A; subst.
        now rewrite (NoDup_keys _ _ _ _ ND' I I3).
    + eapply Forall2_weaken; [|exact EX]. now intros e e' [A _].
Qed.
End Back.

(** ** Copies are equal *)
Lemma number_equal f : a_number f -> float_eqb f f = true.
Proof.
  intros [N _]. unfold float_eqb, SFeqb. destruct f as [b|b| |b m e]; cbn; try reflexivity; [now destruct b|now destruct N|].
  destruct b; rewrite Z.compare_refl, ?Pos.compare_cont_refl; reflexivity.
Qed.
Lemma eqv_more h n m bits a b r : n <= m -> eqv h n bits a b = Known r -> eqv h m bits a b = Known r.
Proof. intros L E. destruct (eqv_le h n m L bits a b) as [F|F]; congruence. Qed.
Lemma find_string h n k v d : Forall (fun e : value * value => exists k, fst e = VStr k) d -> NoDup (map fst d) -> In (VStr k, v) d ->
  find_entry (eqv h (S n) true) (VStr k) d = Known (Some v).
Proof.
  induction 1 as [|[a w] d [k' E] F IH]; intros N I; [destruct I|]. cbn [fst] in E. subst a. cbn [find_entry eqv wbind]. inversion N as [|? ? NI N']; subst.
  destruct (bytes_eqb k k') eqn:Q.
  - apply bytes_eqb_eq in Q. subst k'. destruct I as [[= ->]|I]; [reflexivity|]. destruct NI. apply in_map_iff. exists (VStr k, v). now split.
  - destruct I as [[= -> ->]|I]; [|now apply IH]. assert (bytes_eqb k k = true) by now apply bytes_eqb_eq. congruence.
Qed.
Lemma portable_grows h h' : grows h h' -> forall v, portable h v -> portable h' v.
Proof.
  intros G. fix IH 2. intros v H. destruct H as [|b|z I|f F|s T|l vs N F|l es N ND F]; try (constructor; assumption).
  - apply po_array with vs; [now apply G|]. clear N. induction F; constructor; auto.
  - apply po_dict with es; [now apply G|exact ND|]. clear N ND. induction F as [|e es E _ IHl]; constructor; [|exact IHl]. destruct E. constructor; auto.
Qed.
Lemma alike_equal h : forall v v', alike h v v' -> portable h v -> exists n, eqv h n false v v' = Known true.
Proof.
  fix IH 3. intros v v' A P. destruct A as [v S|l l' F|l l' es Q F].
  - exists 1. destruct v; try contradiction; cbn [eqv]; f_equal.
    + apply Bool.eqb_reflx.
    + apply Z.eqb_refl.
    + inversion P; subst. now apply number_equal.
    + now apply bytes_eqb_eq.
  - inversion P as [| | | | |? vs N PF|]; subst. rewrite <- (arr_get_nth _ _ _ N) in PF. clear P N.
    assert (E : exists n, all2 (eqv h n false) (arr_get h l) (arr_get h l') = Known true).
    { induction F as [|x y a b E _ IHl]; [exists 0; reflexivity|]. inversion PF as [|? ? PX PR]; subst. destruct (IH _ _ E PX) as [n En]. destruct (IHl PR) as [m Em].
      exists (max n m). cbn [all2]. rewrite (eqv_more h n (max n m) false x y true); [|lia|exact En]. cbn [wbind].
      assert (L : m <= max n m) by lia. destruct (all2_le _ _ (fun x y => eqv_le h m (max n m) L false x y) a b) as [W|W]; fold (all2 (eqv h (max n m) false) a b) in *; congruence. }
    destruct E as [n E]. exists (Datatypes.S n). cbn [eqv]. rewrite (Forall2_len _ _ _ F), Nat.eqb_refl. exact E.
  - inversion P as [| | | | | |? d N ND PF]; subst. rewrite <- (dict_get_nth _ _ _ N) in *. clear P N d.
    assert (K : Forall2 (fun (e e' : value * value) => fst e = fst e') (dict_entries h l) es).
    { eapply Forall2_weaken; [|exact F]. intros e e' []. reflexivity. }
    assert (KD : NoDup (map fst (dict_entries h l'))).
    { eapply Permutation_NoDup; [apply Permutation_map, Q|]. eapply NoDup_Forall2; eassumption. }
    assert (KS : Forall (fun e : value * value => exists k, fst e = VStr k) (dict_entries h l')).
    { eapply Permutation_Forall; [exact Q|]. clear -K PF. induction K as [|x y a b E _ IHl]; constructor; inversion PF as [|? ? PE PR]; subst; [|auto]. destruct PE. cbn [fst] in E. eauto. }
    assert (E : exists n, forall m, n <= m -> Forall2 (fun e e' : value * value => exists s, fst e = VStr s /\ fst e' = VStr s /\ eqv h m false (snd e) (snd e') = Known true) (dict_entries h l) es).
    { clear -F PF IH. induction F as [|x y a b E _ IHl]; [exists 0; constructor|]. inversion PF as [|? ? PX PR]; subst. destruct (IHl PR) as [m Em].
      destruct E as [k v v' A]. inversion PX as [s ? T PV]; subst. destruct (IH _ _ A PV) as [n En]. exists (max n m). intros i L. constructor.
      - exists s. cbn [fst snd]. repeat split. eapply eqv_more; [|exact En]. lia.
      - apply Em. lia. }
    destruct E as [n E]. exists (Datatypes.S (Datatypes.S n)). specialize (E (Datatypes.S n) (Nat.le_succ_diag_r n)).
    assert (EL : length (dict_entries h l) = length (dict_entries h l')) by (rewrite (Forall2_len _ _ _ K); now apply Permutation_length).
    pose proof (find_string h n) as FS. revert E FS. generalize (Datatypes.S n). clear n. intros n E FS.
    cbn [eqv]. rewrite EL, Nat.eqb_refl.
    assert (SUB : forall e, In e es -> In e (dict_entries h l')) by (intros e; apply Permutation_in, Q).
    clear - E FS SUB KS KD. revert KS KD SUB. generalize (dict_entries h l') as d'. intros d' KS KD SUB.
    induction E as [|[k v] [k' v'] a b (s & E1 & E2 & E3) _ IHl]; [reflexivity|]. cbn [fst snd] in *. subst k k'.
    rewrite (FS s v' d' KS KD (SUB _ (or_introl eq_refl))). cbn [wbind]. rewrite E3. cbn [wbind]. apply IHl. intros e I. apply SUB. now right.
Qed.
