(** Proofs about the text of values and of panics. *)
From Coq Require Import Strings.String Sorting.Permutation Lia.
From Verif Require Import Base Lexer Ast Program Value Text StdLib SpecText TextProofs SpecLib SpecNames NamesProofs SpecShow FuelProofs.

Lemma Forall2_weaken {A B} (P Q : A -> B -> Prop) l k : (forall a b, P a b -> Q a b) -> Forall2 P l k -> Forall2 Q l k.
Proof. intros H. induction 1; constructor; auto. Qed.
Lemma Known_inj {A} (a b : A) : Known a = Known b -> a = b.
Proof. congruence. Qed.

(** ** Numbers *)
Lemma digit_byte_of d : (d < 10)%N -> byte_of (48 + d) = digit d.
Proof.
  intros H. assert (In d (map N.of_nat (seq 0 10))) as I.
  { rewrite <- (N2Nat.id d). apply in_map, in_seq. lia. }
  cbn in I. decompose [or] I; subst; try reflexivity; contradiction.
Qed.
Lemma digits_go_numeral n : forall x acc, (x < 2 ^ N.of_nat n)%N -> 0 < n -> exists t, numeral x t /\ digits_go n x acc = t ++ acc.
Proof.
  induction n as [|n IH]; intros x acc B P; [lia|]. cbn [digits_go].
  assert (R : (x mod 10 < 10)%N) by (apply N.mod_lt; lia).
  rewrite (digit_byte_of _ R). pose proof (N.div_mod x 10) as DM.
  destruct (x / 10 =? 0)%N eqn:Z0.
  - apply N.eqb_eq in Z0. exists [digit (x mod 10)]. split; [|reflexivity].
    replace x with (x mod 10)%N at 1 by lia. now constructor.
  - apply N.eqb_neq in Z0.
    assert (Bn : (x / 10 < 2 ^ N.of_nat n)%N).
    { apply N.div_lt_upper_bound; [lia|]. rewrite Nat2N.inj_succ, N.pow_succ_r' in B. lia. }
    assert (Pn : 0 < n). { destruct n; [|lia]. cbn in Bn. lia. }
    destruct (IH (x / 10)%N (digit (x mod 10) :: acc) Bn Pn) as (t & T & E).
    exists (t ++ [digit (x mod 10)]). rewrite E, <- app_assoc. split; [|reflexivity].
    replace x with (10 * (x / 10) + x mod 10)%N at 1 by lia. now constructor.
Qed.
Lemma size_bound x : (x < 2 ^ N.of_nat (S (N.size_nat x)))%N.
Proof.
  assert (x < 2 ^ N.of_nat (N.size_nat x))%N.
  { replace (N.of_nat (N.size_nat x)) with (N.size x).
    - destruct x as [|x]; [reflexivity|]. apply N.size_gt.
    - destruct x as [|x]; [reflexivity|]. cbn. induction x; cbn; lia || rewrite ?IHx; try lia. }
  rewrite Nat2N.inj_succ, N.pow_succ_r'. lia.
Qed.
Lemma digits_numeral x : numeral x (digits_of x).
Proof.
  unfold digits_of. destruct (digits_go_numeral (S (N.size_nat x)) x [] (size_bound x) ltac:(lia)) as (t & T & E).
  rewrite E, app_nil_r. exact T.
Qed.
Lemma numeral_fun x t : numeral x t -> forall t', numeral x t' -> t = t'.
Proof.
  induction 1 as [d D|x d t Z D N IH]; intros t' H.
  - remember d as y eqn:Y. destruct H as [d' D'|x' d' t' Z' D' N']; [now subst|]. exfalso. lia.
  - remember (10 * x + d)%N as y eqn:Y. destruct H as [d' D'|x' d' t' Z' D' N']; [exfalso; lia|].
    assert (x' = x) by lia. assert (d' = d) by lia. subst. f_equal. now apply IH.
Qed.
Lemma int_text_integer z : integer z (int_text z).
Proof.
  unfold int_text. destruct (z <? 0)%Z eqn:S.
  - apply Z.ltb_lt in S. replace z with (- Z.of_N (Z.to_N (- z)))%Z at 1 by lia. constructor; [lia|apply digits_numeral].
  - apply Z.ltb_ge in S. replace z with (Z.of_N (Z.to_N z)) at 1 by lia. constructor. apply digits_numeral.
Qed.
Lemma integer_fun z t t' : integer z t -> integer z t' -> t = t'.
Proof.
  intros H H'. inversion H; subst; inversion H'; subst; try lia.
  - assert (x0 = x) by lia. subst. eapply numeral_fun; eassumption.
  - assert (x0 = x) by lia. subst. f_equal. eapply numeral_fun; eassumption.
Qed.
Lemma integer_text z t : integer z t <-> t = int_text z.
Proof. split; [|intros ->; apply int_text_integer]. intros H. eapply integer_fun; [exact H|apply int_text_integer]. Qed.
Lemma numeral_text x t : numeral x t <-> t = digits_of x.
Proof. split; [|intros ->; apply digits_numeral]. intros H. eapply numeral_fun; [exact H|apply digits_numeral]. Qed.

Section Show.
Context {W : Type}.
Variable X : ext W.

Lemma tinted_paint c t u : tinted X c t u <-> u = paint X c t.
Proof.
  unfold paint. split.
  - intros [E|E]; rewrite E; reflexivity.
  - intros ->. destruct (x_tty X) eqn:E; [now apply ti_color|now apply ti_plain].
Qed.
Lemma placed_text p t : placed X p t <-> t = spos_text X p.
Proof.
  split.
  - intros H. inversion H; subst. match goal with T : tinted _ _ _ _ |- _ => apply tinted_paint in T end.
    repeat match goal with N : numeral _ _ |- _ => apply numeral_text in N end. subst. reflexivity.
  - intros ->. destruct p as [path [l c]]. unfold spos_text, symbol_text, green. cbn [sp_path sp_pos line column]. constructor.
    + now apply tinted_paint.
    + now apply numeral_text.
    + now apply numeral_text.
Qed.

(** ** Values *)
Lemma items_listing {A} (f : A -> walk bytes) l : forall t, items_text f l = Known t ->
  exists ts, Forall2 (fun x t => f x = Known t) l ts /\ t ++ bs " " = listing ts.
Proof.
  assert (G : forall l t,
    (fix go (first : bool) l := match l with [] => Known [] | x :: l' => wbind (f x) (fun t => wbind (go false l') (fun r =>
       Known ((if first then bs " " else bs ", ") ++ t ++ r))) end) false l = Known t ->
    exists ts, Forall2 (fun x t => f x = Known t) l ts /\ t = concat (map (fun t => bs ", " ++ t) ts)).
  { induction l0 as [|x r IH]; intros t E.
    - injection E as <-. exists []. now split.
    - destruct (f x) as [a| |] eqn:F; try discriminate. cbn [wbind] in E.
      match type of E with wbind ?y _ = _ => destruct y as [b| |] eqn:Q end; try discriminate.
      injection E as <-. destruct (IH _ eq_refl) as (ts & H & ->). exists (a :: ts). split; [now constructor|].
      cbn [map concat]. rewrite <- app_assoc. reflexivity. }
  intros t E. unfold items_text in E. destruct l as [|x r].
  - injection E as <-. exists []. now split.
  - destruct (f x) as [a| |] eqn:F; try discriminate. cbn [wbind] in E.
    match type of E with wbind ?y _ = _ => destruct y as [b| |] eqn:Q end; try discriminate.
    assert (t = bs " " ++ a ++ b) as -> by (now inversion E). clear E. destruct (G _ _ Q) as (ts & H & ->). exists (a :: ts). split; [now constructor|].
    unfold listing. rewrite <- !app_assoc. f_equal.
    assert (J : forall ts a, a ++ concat (map (fun t => bs ", " ++ t) ts) ++ bs " " = join (bs ", ") (a :: ts) ++ bs " ").
    { clear. induction ts as [|b ts IH]; intros a; [reflexivity|]. cbn [map concat]. change (join (bs ", ") (a :: b :: ts)) with (a ++ bs ", " ++ join (bs ", ") (b :: ts)).
      rewrite <- !app_assoc. do 2 f_equal. apply IH. }
    apply J.
Qed.
Lemma items_known {A} (f : A -> walk bytes) l ts : Forall2 (fun x t => f x = Known t) l ts -> exists t, items_text f l = Known t.
Proof.
  intros H. unfold items_text. match goal with |- exists t, ?g true _ = _ => set (go := g) end.
  assert (G : forall b, exists t, go b l = Known t); [|apply G].
  induction H as [|x y l ts F _ IH]; intros b; [now exists []|].
  unfold go. rewrite F. cbn [wbind]. fold go. destruct (IH false) as [r E]. rewrite E. cbn [wbind]. eauto.
Qed.
Lemma listing_items {A} (f : A -> walk bytes) l ts : Forall2 (fun x t => f x = Known t) l ts ->
  exists t, items_text f l = Known t /\ t ++ bs " " = listing ts.
Proof.
  intros H. destruct (items_text f l) as [t| |] eqn:E.
  - exists t. split; [reflexivity|]. destruct (items_listing f l t E) as (ts' & H' & ->). f_equal.
    clear E. revert ts' H'. induction H as [|x y l ts E _ IH]; intros ts' H'; inversion H'; subst; [reflexivity|].
    f_equal; [congruence|now apply IH].
  - destruct (items_known f l ts H) as [t Q]. congruence.
  - destruct (items_known f l ts H) as [t Q]. congruence.
Qed.
Lemma char_utf8 b : char_text b = utf8 (Byte.to_N b).
Proof. destruct b; vm_compute; reflexivity. Qed.

Lemma show_shown h : forall n v t, show X n h v = Known t -> shown X h v t.
Proof.
  induction n as [|n IH]; intros v t E; [discriminate|]. cbn [show] in E. destruct v.
  - apply Known_inj in E; subst t. constructor.
  - apply Known_inj in E; subst t. destruct b; constructor.
  - apply Known_inj in E; subst t. rewrite char_utf8. constructor.
  - apply Known_inj in E; subst t. constructor. apply int_text_integer.
  - apply Known_inj in E; subst t. constructor.
  - apply Known_inj in E; subst t. constructor.
  - destruct (items_text (show X n h) (arr_get h l)) as [t'| |] eqn:Q; try discriminate. apply Known_inj in E; subst t.
    destruct (items_listing _ _ _ Q) as (ts & H & L). change (bs " ]") with (bs " " ++ bs "]"). rewrite (app_assoc t' (bs " ")), L.
    constructor. eapply Forall2_weaken; [|exact H]. cbn. auto.
  - match type of E with wbind ?y _ = _ => destruct y as [t'| |] eqn:Q end; try discriminate. apply Known_inj in E; subst t.
    destruct (items_listing _ _ _ Q) as (ts & H & L). change (bs " ]") with (bs " " ++ bs "]"). rewrite (app_assoc t' (bs " ")), L.
    constructor. eapply Forall2_weaken; [|exact H]. cbn beta. intros [k v] t F. cbn [fst snd] in F.
    destruct (show X n h k) as [a| |] eqn:K; try discriminate. cbn [wbind] in F.
    destruct (show X n h v) as [b| |] eqn:V; try discriminate. apply Known_inj in F; subst t. constructor; auto.
  - destruct f; injection E as <-; constructor; [now apply placed_text|apply native_named].
  - destruct (show X n h v) as [a| |] eqn:V; try discriminate. apply Known_inj in E; subst t. unfold str_text.
    pose proof (sh_error X h description v a (IH _ _ V)) as R. cbn [app] in R |- *. rewrite <- ?app_assoc in *. exact R.
Qed.

(** Enough fuel for all items *)
Lemma fuel_for {A} (P : nat -> A -> bytes -> Prop) l ts : (forall n m x t, n <= m -> P n x t -> P m x t) ->
  Forall2 (fun x t => exists n, P n x t) l ts -> exists n, Forall2 (P n) l ts.
Proof.
  intros M H. induction H as [|x t l ts [n Hn] _ [m Hm]]; [exists 0; constructor|].
  exists (max n m). constructor; [eapply M; [|exact Hn]; lia|].
  eapply Forall2_weaken; [|exact Hm]. intros; eapply M; [|eassumption]; lia.
Qed.
Lemma show_more h n m v t : n <= m -> show X n h v = Known t -> show X m h v = Known t.
Proof. intros L E. destruct (show_le X h n m L v) as [F|F]; congruence. Qed.

Lemma shown_show h : forall v t, shown X h v t -> exists n, show X n h v = Known t.
Proof.
  fix IH 3. intros v t H. destruct H as [| | |z t I|f|b|s|l ts H|l ts H|u params fi b c p t P|f t P|d c t H].
  - exists 1. reflexivity.
  - exists 1. reflexivity.
  - exists 1. reflexivity.
  - exists 1. apply integer_text in I. now subst.
  - exists 1. reflexivity.
  - exists 1. cbn [show]. now rewrite char_utf8.
  - exists 1. reflexivity.
  - assert (F : Forall2 (fun x t => exists n, show X n h x = Known t) (arr_get h l) ts).
    { clear -H IH. induction H as [|x t l' ts' H _ IHl]; constructor; [now apply IH|exact IHl]. }
    apply fuel_for with (P := fun n x t => show X n h x = Known t) in F; [|intros; eapply show_more; eassumption].
    destruct F as [n F]. exists (S n). cbn [show]. destruct (listing_items _ _ _ F) as (t & E & L). rewrite E. cbn [wbind].
    rewrite <- L, <- app_assoc. reflexivity.
  - assert (F : Forall2 (fun (e : value * value) t => exists n, (exists a b, show X n h (fst e) = Known a /\ show X n h (snd e) = Known b /\ t = a ++ bs ": " ++ b)) (x_order X (dict_entries h l)) ts).
    { clear -H IH. induction H as [|x t l' ts' H _ IHl]; constructor; [|exact IHl].
      destruct H as [k v kt vt Hk Hv]. destruct (IH _ _ Hk) as [n1 E1], (IH _ _ Hv) as [n2 E2]. exists (max n1 n2), kt, vt.
      cbn [fst snd]. split; [|split; [|reflexivity]]; (eapply show_more; [|eassumption]); lia. }
    apply fuel_for with (P := fun n (e : value * value) t => exists a b, show X n h (fst e) = Known a /\ show X n h (snd e) = Known b /\ t = a ++ bs ": " ++ b) in F.
    2: { intros n m x t L (a & b & E1 & E2 & ->). exists a, b. repeat split; eapply show_more; eassumption. }
    destruct F as [n F]. exists (S n). cbn [show].
    destruct (listing_items (fun e : value * value => wbind (show X n h (fst e)) (fun k => wbind (show X n h (snd e)) (fun t => Known (k ++ bs ": " ++ t)))) (x_order X (dict_entries h l)) ts) as (t & E & L).
    { eapply Forall2_weaken; [|exact F]. cbn beta. intros e t (a & b & -> & -> & ->). reflexivity. }
    rewrite E. cbn [wbind]. rewrite <- L, <- app_assoc. reflexivity.
  - exists 1. apply placed_text in P. now subst.
  - exists 1. apply native_name_only in P. now subst.
  - destruct (IH _ _ H) as [n E]. exists (S n). cbn [show]. rewrite E. cbn [wbind]. unfold str_text. cbn [app]. rewrite <- ?app_assoc. reflexivity.
Qed.
Lemma shown_iff h v t : shown X h v t <-> exists n, show X n h v = Known t.
Proof. split; [apply shown_show|]. intros [n E]. eapply show_shown, E. Qed.
Lemma shown_fun h v t t' : shown X h v t -> shown X h v t' -> t = t'.
Proof.
  intros H H'. destruct (shown_show _ _ _ H) as [n E], (shown_show _ _ _ H') as [m E'].
  apply (show_more h n (max n m)) in E; [|lia]. apply (show_more h m (max n m)) in E'; [|lia]. congruence.
Qed.

Lemma showable_shown h v : some_order X -> showable h v -> exists t, shown X h v t.
Proof.
  intros HO. induction 1 as [l _ IH|l _ IHk _ IHv|d c _ [t IH]|v Hv].
  - assert (F : exists ts, Forall2 (shown X h) (arr_get h l) ts).
    { revert IH. generalize (arr_get h l). induction l0 as [|x r IHr]; intros IH; [exists []; constructor|].
      destruct IHr as [ts F]; [intros; apply IH; now right|]. destruct (IH x (or_introl eq_refl)) as [t Ht]. exists (t :: ts). now constructor. }
    destruct F as [ts F]. eexists. constructor. exact F.
  - assert (F : exists ts, Forall2 (entry_shown X h) (x_order X (dict_entries h l)) ts).
    { assert (A : forall k v, In (k, v) (x_order X (dict_entries h l)) -> exists t, entry_shown X h (k, v) t).
      { intros k v I. apply (Permutation_in _ (HO _)) in I. destruct (IHk _ _ I) as [a Ha], (IHv _ _ I) as [b Hb]. eexists. now constructor; eauto. }
      revert A. generalize (x_order X (dict_entries h l)). induction l0 as [|[k v] r IHr]; intros A; [exists []; constructor|].
      destruct IHr as [ts F]; [intros; apply A; now right|]. destruct (A k v (or_introl eq_refl)) as [t Ht]. exists (t :: ts). now constructor. }
    destruct F as [ts F]. eexists. constructor. exact F.
  - eexists. constructor. exact IH.
  - destruct v; try contradiction; try (eexists; constructor; fail).
    + destruct b; eexists; constructor.
    + eexists. constructor. apply int_text_integer.
    + destruct f; eexists; constructor; [now apply placed_text|apply native_named].
Qed.

Lemma items_deep {A} (f : A -> walk bytes) x l : f x = Deep -> items_text f (x :: l) = Deep.
Proof. intros E. unfold items_text. now rewrite E. Qed.
Lemma self_shown h l r : arr_get h l = VArr l :: r -> forall n, show X n h (VArr l) = Deep.
Proof.
  intros E. induction n as [|n IH]; [reflexivity|]. cbn [show]. rewrite E, (items_deep _ _ _ IH). reflexivity.
Qed.

(** ** Panics *)
Definition headed (p : panic) (t : bytes) : bytes :=
  red X (bs "Panic") ++ bs " in " ++ spos_text X (fst (says X p)) ++ bs ": " ++ t.
Lemma message_made h p ts : Forall2 (told X h) (snd (says X p)) ts -> message X h p (headed p (concat ts)).
Proof. intros F. constructor; [now apply tinted_paint|now apply placed_text|exact F]. Qed.
Lemma message_parts h p t : message X h p t -> exists ts, Forall2 (told X h) (snd (says X p)) ts /\ t = headed p (concat ts).
Proof.
  intros H. destruct H as [head place ts T P F]. apply tinted_paint in T. apply placed_text in P. subst. now exists ts.
Qed.

Definition tell (n : nat) (h : heap) (c : piece) : walk bytes :=
  match c with
  | Say t => Known t
  | Point t => Known (yellow X t)
  | Name s => Known (yellow X (symbol_text X s))
  | Number z => Known (int_text z)
  | Code z => Known (yellow X (int_text z))
  | What v => wbind (show X n h v) (fun t => Known (yellow X t))
  end.
Lemma tell_told n h c t : tell n h c = Known t -> told X h c t.
Proof.
  destruct c; cbn [tell]; intros E; try (apply Known_inj in E; subst t).
  - constructor.
  - constructor. now apply tinted_paint.
  - econstructor; apply tinted_paint; reflexivity.
  - constructor. apply int_text_integer.
  - econstructor; [apply int_text_integer|apply tinted_paint; reflexivity].
  - destruct (show X n h v) as [u| |] eqn:Q; try discriminate. apply Known_inj in E; subst t.
    econstructor; [eapply show_shown, Q|now apply tinted_paint].
Qed.
Lemma told_tell h c t : told X h c t -> exists n, tell n h c = Known t.
Proof.
  destruct 1 as [t|t u P|s t u P Q|z t P|z t u P Q|v t u P Q]; repeat match goal with
    | T : tinted _ _ _ _ |- _ => apply tinted_paint in T; subst
    | T : integer _ _ |- _ => apply integer_text in T; subst
    end; try (now exists 0).
  destruct (shown_show _ _ _ P) as [n E]. exists n. cbn [tell]. now rewrite E.
Qed.
Lemma tell_more n m h c t : n <= m -> tell n h c = Known t -> tell m h c = Known t.
Proof.
  intros L. destruct c; cbn [tell]; try (intros E; exact E). intros E.
  destruct (show X n h v) as [u| |] eqn:Q; try discriminate. now rewrite (show_more _ _ _ _ _ L Q).
Qed.
Fixpoint tell_all (n : nat) (h : heap) (l : list piece) : walk bytes :=
  match l with
  | [] => Known []
  | c :: l' => wbind (tell n h c) (fun t => wbind (tell_all n h l') (fun r => Known (t ++ r)))
  end.
Lemma tell_all_told n h l t : tell_all n h l = Known t <-> exists ts, Forall2 (fun c t => tell n h c = Known t) l ts /\ t = concat ts.
Proof.
  revert t. induction l as [|c l IH]; intros t; cbn [tell_all]; split.
  - intros E. apply Known_inj in E. subst. exists []. now split.
  - intros (ts & F & ->). inversion F; subst. reflexivity.
  - intros E. destruct (tell n h c) as [a| |] eqn:Q; try discriminate. cbn [wbind] in E.
    destruct (tell_all n h l) as [r| |] eqn:R; try discriminate. cbn [wbind] in E. apply Known_inj in E. subst.
    destruct (proj1 (IH r) eq_refl) as (ts & F & ->). exists (a :: ts). split; [now constructor|reflexivity].
  - intros (ts & F & ->). inversion F as [|? a ? r A B]; subst. rewrite A. cbn [wbind].
    rewrite (proj2 (IH (concat r))); [reflexivity|eauto].
Qed.
Lemma panic_text_tell n h p : panic_text X n h p = wbind (tell_all n h (snd (says X p))) (fun t => Known (headed p t)).
Proof.
  destruct p; unfold panic_text, headed; cbn [says fst snd tell_all tell wbind]; try (rewrite ?app_nil_r; reflexivity);
    match goal with |- context [show X n h ?v] => destruct (show X n h v) as [t| |] end;
    cbn [wbind]; try reflexivity; rewrite ?app_nil_r, <- ?app_assoc; reflexivity.
Qed.

Lemma panic_text_message n h p t : panic_text X n h p = Known t -> message X h p t.
Proof.
  rewrite panic_text_tell. intros E. destruct (tell_all n h (snd (says X p))) as [r| |] eqn:R; try discriminate.
  cbn [wbind] in E. apply Known_inj in E. subst t. apply tell_all_told in R. destruct R as (ts & F & ->). apply message_made.
  eapply Forall2_weaken; [|exact F]. intros c u E. exact (tell_told n h c u E).
Qed.
Lemma message_panic_text h p t : message X h p t -> exists n, panic_text X n h p = Known t.
Proof.
  intros H. destruct (message_parts _ _ _ H) as (ts & F & ->).
  assert (G : Forall2 (fun c t => exists n, tell n h c = Known t) (snd (says X p)) ts).
  { eapply Forall2_weaken; [|exact F]. intros; now apply told_tell. }
  apply fuel_for with (P := fun n c t => tell n h c = Known t) in G; [|intros; eapply tell_more; eassumption].
  destruct G as [n G]. exists n. rewrite panic_text_tell. rewrite (proj2 (tell_all_told n h _ (concat ts))); [reflexivity|eauto].
Qed.
Lemma panic_text_more h p n m t : n <= m -> panic_text X n h p = Known t -> panic_text X m h p = Known t.
Proof. intros L E. destruct (panic_text_le X h n m p L) as [F|F]; congruence. Qed.
Lemma message_fun h p t t' : message X h p t -> message X h p t' -> t = t'.
Proof.
  intros H H'. destruct (message_panic_text _ _ _ H) as [n E], (message_panic_text _ _ _ H') as [m E'].
  apply (panic_text_more h p n (max n m)) in E; [|lia]. apply (panic_text_more h p m (max n m)) in E'; [|lia]. congruence.
Qed.
Lemma messageable_message h p : some_order X -> messageable X h p -> exists t, message X h p t.
Proof.
  intros HO HM. assert (F : exists ts, Forall2 (told X h) (snd (says X p)) ts).
  { unfold messageable in HM. revert HM. generalize (snd (says X p)). induction l as [|c l IH]; intros HM; [exists []; constructor|].
    destruct IH as [ts F]; [intros; apply HM; now right|].
    assert (T : exists t, told X h c t).
    { destruct c as [t|t|s|z|z|v].
      - exists t. constructor.
      - eexists. constructor. now apply tinted_paint.
      - eexists. econstructor; apply tinted_paint; reflexivity.
      - eexists. constructor. apply int_text_integer.
      - eexists. econstructor; [apply int_text_integer|apply tinted_paint; reflexivity].
      - destruct (showable_shown h v HO (HM v (or_introl eq_refl))) as [t Ht]. eexists. econstructor; [exact Ht|apply tinted_paint; reflexivity]. }
    destruct T as [t T]. exists (t :: ts). now constructor. }
  destruct F as [ts F]. eexists. exact (message_made _ _ _ F).
Qed.
Lemma panic_text_not_busy n h p : panic_text X n h p <> Busy.
Proof.
  assert (I : forall A (f : A -> walk bytes) l, (forall x, f x <> Busy) -> items_text f l <> Busy).
  { intros A f l F. unfold items_text. match goal with |- ?g true _ <> _ => set (go := g) end.
    assert (G : forall b, go b l <> Busy); [|apply G]. induction l as [|x l IH]; intros b; [discriminate|].
    unfold go. destruct (f x) as [t| |] eqn:Q; [|now apply F in Q|discriminate]. cbn [wbind]. fold go.
    destruct (go false l) eqn:R; [discriminate|now apply IH in R|discriminate]. }
  assert (S : forall n v, show X n h v <> Busy).
  { clear -I. induction n as [|n IH]; intros v; [discriminate|]. cbn [show]. destruct v; try discriminate.
    - pose proof (I _ (show X n h) (arr_get h l) IH) as N. destruct (items_text _ _); [discriminate|congruence|discriminate].
    - match goal with |- wbind (items_text ?f ?l) _ <> _ => assert (N : items_text f l <> Busy) end.
      + apply I. intros [k v]. cbn [fst snd]. pose proof (IH k). pose proof (IH v). destruct (show X n h k); [|congruence|discriminate].
        cbn [wbind]. destruct (show X n h v); [discriminate|congruence|discriminate].
      + destruct (items_text _ _); [discriminate|congruence|discriminate].
    - destruct f; discriminate.
    - pose proof (IH v). destruct (show X n h v); [discriminate|congruence|discriminate]. }
  destruct p; unfold panic_text; try discriminate; match goal with |- context [show X n h ?v] => pose proof (S n v); destruct (show X n h v) end;
    discriminate || congruence.
Qed.
End Show.
