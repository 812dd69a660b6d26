(** The semantic analyser on expressions, statements and whole programs. *)
From Coq Require Import Strings.String.
From Verif Require Import Base Lexer Ast Program Sema SpecLexer SpecParser SpecSema LexerProofs SemaProofs.
From Coq Require Import Lia Permutation.
Local Open Scope sema_scope.

(** Only the innermost block of the innermost frame has new variables. *)
Inductive moved : stack -> stack -> Prop :=
| moved_intro f f' st st' :
    grow f f' -> tl (map user (fr_scopes f')) = tl (map user (fr_scopes f)) ->
    fr_scopes f <> [] -> fr_scopes f' <> [] ->
    kept st st' -> moved (f :: st) (f' :: st').

Definition top (here : list symbol) (st : stack) : Prop :=
  match st with
  | f :: _ => match fr_scopes f with sc :: _ => forall x, plain_name x -> In x here <-> In x (map fst sc) | [] => False end
  | [] => False
  end.
Definition vis (here outer : list symbol) (st : stack) : Prop := names (here ++ outer) st /\ top here st.

Lemma vis_kept here outer st st' : kept st st' -> vis here outer st -> vis here outer st'.
Proof.
  intros Hk [H1 H2]. split.
  - intros x Hx. rewrite (H1 x Hx). now apply visible_kept.
  - destruct Hk as [|f f' st st' [Hg Hu] Hk]; [exact H2|]. cbn in *.
    destruct (fr_scopes f) as [|sc scs]; [contradiction|]. destruct (fr_scopes f') as [|sc' scs']; [discriminate|].
    injection Hu as Hu _. intros x Hx. rewrite H2 by assumption. rewrite <- (in_user x sc), <- (in_user x sc'), Hu by assumption. tauto.
Qed.

Lemma moved_trans a b c : moved a b -> moved b c -> moved a c.
Proof.
  intros H1 H2. destruct H1 as [f f' st st' Hg Hu Hn Hn' Hk]. inversion H2 as [? f2 ? st2 Hg2 Hu2 _ Hn2 Hk2]; subst.
  constructor; [eapply grow_trans; eauto|congruence|auto|auto|eapply kept_trans; eauto].
Qed.

Lemma moved_kept a b : top [] a \/ (exists D Ds, okst (D :: Ds) a) -> kept a b -> moved a b.
Proof.
  intros Hn Hk. destruct Hk as [|f f' st st' [Hg Hu] Hk].
  - destruct Hn as [[]|(D & Ds & H)]. destruct H.
  - assert (Hne : fr_scopes f <> []).
    { destruct Hn as [Hn|(D & Ds & H & _)]; [cbn in Hn; destruct (fr_scopes f); [contradiction|congruence]|].
      apply H. }
    constructor; auto; [congruence|]. intros E. rewrite E in Hu. destruct (fr_scopes f); [congruence|discriminate].
Qed.

Lemma ext_moved st st' Fs : moved st st' -> Forall2 ext st' Fs -> Forall2 ext st Fs.
Proof.
  intros H HF. destruct H as [f f' st st' Hg Hu Hn Hn' Hk]. inversion HF; subst. constructor.
  - eapply ext_grow; eauto.
  - eapply ext_kept; eauto.
Qed.

Definition gspec {X} (m : M (option X)) (L : Prop) (A : env -> X -> list slot -> env -> Prop) (Q : stack -> Prop) (st : stack) : Prop :=
  forall s D Ds, kept st (ss_stack s) -> okst (D :: Ds) (ss_stack s) ->
  exists r s' es ds,
    m s = Some (r, s') /\ ss_errors s' = ss_errors s ++ es /\
    okst ((D ++ ds) :: Ds) (ss_stack s') /\ moved (ss_stack s) (ss_stack s') /\ Q (ss_stack s') /\
    (L -> Forall dupkey es) /\
    (es = [] -> L /\ exists x, r = Some x /\
       forall Fs, Forall2 ext (ss_stack s') Fs -> A (envs Fs st) x ds (envs Fs (ss_stack s'))).

Definition gweak {X} (m : M (option X)) (L : Prop) (Q : stack -> Prop) (st : stack) : Prop :=
  forall s D Ds, kept st (ss_stack s) -> okst (D :: Ds) (ss_stack s) ->
  exists r s' es ds,
    m s = Some (r, s') /\ ss_errors s' = ss_errors s ++ es /\
    okst ((D ++ ds) :: Ds) (ss_stack s') /\ moved (ss_stack s) (ss_stack s') /\ Q (ss_stack s') /\
    (L -> Forall dupkey es).

Lemma g_weak {X} (m : M (option X)) L A Q st : gspec m L A Q st -> gweak m L Q st.
Proof.
  intros H s D Ds Hk Hok. destruct (H s D Ds Hk Hok) as (r & s' & es & ds & H1 & H2 & H3 & H4 & H5 & H6 & _).
  exists r, s', es, ds. auto 7.
Qed.

Lemma g_conseq {X} (m : M (option X)) L L' (A A' : env -> X -> list slot -> env -> Prop) (Q Q' : stack -> Prop) st :
  gspec m L A Q st -> (L <-> L') -> (forall en x ds en', A en x ds en' -> A' en x ds en') -> (forall st', Q st' -> Q' st') ->
  gspec m L' A' Q' st.
Proof.
  intros H HL HA HQ s D Ds Hk Hok. destruct (H s D Ds Hk Hok) as (r & s' & es & ds & H1 & H2 & H3 & H4 & H5 & H6 & H7).
  exists r, s', es, ds. do 4 (split; [assumption|]). split; [auto|]. split; [tauto|]. intros He.
  destruct (H7 He) as (HL' & x & Hx & HF). split; [tauto|]. exists x. split; auto.
Qed.

Lemma g_of_spec {X} (m : M (option X)) L A st :
  spec m L A st -> gspec m L (fun en x ds en' => A en x ds /\ en' = en) (kept st) st.
Proof.
  intros H s D Ds Hk Hok. destruct (H s D Ds Hk Hok) as (r & s' & es & ds & H1 & H2 & H3 & H4 & H5 & H6).
  exists r, s', es, ds. do 3 (split; [assumption|]). split; [apply moved_kept; eauto|]. split; [eapply kept_trans; eauto|].
  split; [assumption|]. intros He. destruct (H6 He) as (HL & x & Hx & HF). split; [assumption|]. exists x. split; [assumption|].
  intros Fs HFs. split; [auto|]. apply envs_kept. eapply kept_trans; eauto.
Qed.

Lemma g_bind {X Y} (m : M (option X)) (k : option X -> M (option Y)) L1 L2 A1
    (A2 : X -> env -> Y -> list slot -> env -> Prop) Q1 Q2 st :
  gspec m L1 A1 Q1 st ->
  (forall st' r, Q1 st' -> gweak (k r) L2 Q2 st') -> (forall st' a, Q1 st' -> gspec (k (Some a)) L2 (A2 a) Q2 st') ->
  gspec (bind m k) (L1 /\ L2)
    (fun en y ds en2 => exists a d1 d2 en1, ds = d1 ++ d2 /\ A1 en a d1 en1 /\ A2 a en1 y d2 en2) Q2 st.
Proof.
  intros H Hw Hs s D Ds Hk Hok.
  destruct (H s D Ds Hk Hok) as (r & s1 & es1 & ds1 & E1 & Eerr & Hok1 & Hk1 & HQ1 & Hl1 & Hg1).
  unfold bind. rewrite E1. destruct es1 as [|e es1].
  - destruct (Hg1 eq_refl) as (HL1 & a & -> & HA1).
    destruct (Hs _ a HQ1 s1 (D ++ ds1) Ds (kept_refl _) Hok1) as (r2 & s2 & es2 & ds2 & E2 & Eerr2 & Hok2 & Hk2 & HQ2 & Hl2 & Hg2).
    exists r2, s2, es2, (ds1 ++ ds2). rewrite (app_assoc D). split; [assumption|]. split; [rewrite Eerr2, Eerr, app_nil_r; reflexivity|].
    split; [assumption|]. split; [eapply moved_trans; eauto|]. split; [assumption|]. split; [tauto|].
    intros He. destruct (Hg2 He) as (HL2 & y & Hy & HA2). split; [tauto|]. exists y. split; [assumption|].
    intros Fs HF. exists a, ds1, ds2, (envs Fs (ss_stack s1)). split; [reflexivity|]. split; [|now apply HA2].
    apply HA1. eapply ext_moved; eauto.
  - destruct (Hw _ r HQ1 s1 (D ++ ds1) Ds (kept_refl _) Hok1) as (r2 & s2 & es2 & ds2 & E2 & Eerr2 & Hok2 & Hk2 & HQ2 & Hl2).
    exists r2, s2, ((e :: es1) ++ es2), (ds1 ++ ds2). rewrite (app_assoc D). split; [assumption|].
    split; [rewrite Eerr2, Eerr, app_assoc; reflexivity|]. split; [assumption|]. split; [eapply moved_trans; eauto|].
    split; [assumption|]. split; [|discriminate]. intros [HL1 HL2]. apply Forall_app. split; auto.
Qed.

Lemma gweak_bind {X Y} (m : M (option X)) (k : option X -> M (option Y)) (L1 L2 L : Prop) Q1 Q2 st :
  gweak m L1 Q1 st -> (forall st' r, Q1 st' -> gweak (k r) L2 Q2 st') -> (L -> L1 /\ L2) -> gweak (bind m k) L Q2 st.
Proof.
  intros H Hw HL s D Ds Hk Hok.
  destruct (H s D Ds Hk Hok) as (r & s1 & es1 & ds1 & E1 & Eerr & Hok1 & Hk1 & HQ1 & Hl1).
  unfold bind. rewrite E1.
  destruct (Hw _ r HQ1 s1 (D ++ ds1) Ds (kept_refl _) Hok1) as (r2 & s2 & es2 & ds2 & E2 & Eerr2 & Hok2 & Hk2 & HQ2 & Hl2).
  exists r2, s2, (es1 ++ es2), (ds1 ++ ds2). rewrite (app_assoc D). split; [assumption|].
  split; [rewrite Eerr2, Eerr, app_assoc; reflexivity|]. split; [assumption|]. split; [eapply moved_trans; eauto|].
  split; [assumption|]. intros HL'. apply Forall_app. split; tauto.
Qed.

Lemma gweak_ret {X} (r : option X) L (Q : stack -> Prop) st :
  (forall st', kept st st' -> Q st') -> gweak (ret r) L Q st.
Proof.
  intros HQ s D Ds Hk Hok. exists r, s, [], []. rewrite !app_nil_r. do 2 (split; [reflexivity|]). split; [assumption|].
  split; [apply moved_kept; eauto using kept_refl|]. split; auto.
Qed.

Lemma g_ret {X} (x : X) (A : env -> X -> list slot -> env -> Prop) (Q : stack -> Prop) st :
  (forall en, A en x [] en) -> (forall st', kept st st' -> Q st') -> gspec (ret (Some x)) True A Q st.
Proof.
  intros HA HQ s D Ds Hk Hok. exists (Some x), s, [], []. rewrite !app_nil_r. do 2 (split; [reflexivity|]). split; [assumption|].
  split; [apply moved_kept; eauto using kept_refl|]. split; auto. split; [constructor|]. intros _. split; [exact I|].
  exists x. split; auto. intros Fs HF. rewrite (envs_kept st (ss_stack s) Fs Hk). apply HA.
Qed.

Lemma spec_at {X} (m : M (option X)) L A st st' : kept st st' -> spec m L A st -> spec m L A st'.
Proof.
  intros Hk H s D Ds Hk' Hok. destruct (H s D Ds (kept_trans _ _ _ Hk Hk') Hok) as (r & s' & es & ds & H1 & H2 & H3 & H4 & H5 & H6).
  exists r, s', es, ds. do 5 (split; [assumption|]). intros He. destruct (H6 He) as (HL & x & Hx & HF). split; [assumption|].
  exists x. split; [assumption|]. intros Fs HFs. rewrite (envs_kept st st'); auto.
Qed.

(** ** Blocks *)

Definition in_block {X} (m : M (option X)) : M (option X) :=
  _ <- enter_block ;; r <- m ;; _ <- exit_block ;; ret r.

Lemma last_cons {A} (x : A) l d : l <> [] -> last (x :: l) d = last l d.
Proof. destruct l; [congruence|reflexivity]. Qed.

Lemma frame_ok_scopes D f st (scs : list scope) :
  scs <> [] -> last scs [] = last (fr_scopes f) [] -> frame_ok D f st -> frame_ok D (set_scopes f scs) st.
Proof. intros Hn Hl [H1 H2 H3 H4]. split; cbn [set_scopes fr_slots fr_captures fr_self fr_scopes]; auto. now setoid_rewrite Hl. Qed.

Lemma in_block_spec {X} (m : M (option X)) L A Q f st :
  fr_scopes f <> [] ->
  gspec m L A Q (frame_enter_block f :: st) ->
  spec (in_block m) L (fun en x ds => exists en', A (enter en) x ds en') (f :: st).
Proof.
  intros Hne H s D Ds Hk Hok. destruct (ss_stack s) as [|f1 st1] eqn:Es; [inversion Hk|].
  assert (Hk0 := Hk). inversion Hk as [|? ? ? ? [Hg Hu] Hk1]; subst. destruct Hok as [Hf1 Hok1].
  assert (Hn1 : fr_scopes f1 <> []) by apply Hf1.
  pose (s1 := mksstate (frame_enter_block f1 :: st1) (ss_keys s) (ss_errors s)).
  destruct (H s1 D Ds) as (r & s2 & es & ds & E & Eerr & Hok2 & Hm & HQ & HL & HA).
  - constructor; auto. split; [exact Hg|]. cbn. now rewrite Hu.
  - split; [|exact Hok1]. apply frame_ok_scopes; auto; [discriminate|]. now apply last_cons.
  - inversion Hm as [? f2 ? st2 Hg2 Hu2 Hn0 Hn2 Hk2 Ea Eb]; subst. destruct (ss_stack s2) as [|f2' st2'] eqn:Es2; [discriminate|].
    injection Eb as -> ->. destruct Hok2 as [Hf2 Hok2]. cbn [fr_scopes frame_enter_block set_scopes map tl] in Hu2.
    destruct (fr_scopes f2') as [|sc2 scs2] eqn:Esc; [congruence|]. cbn [map tl] in Hu2.
    assert (Hn3 : scs2 <> []) by (intros ->; destruct (fr_scopes f1); [congruence|discriminate]).
    exists r, (mksstate (set_scopes f2' scs2 :: st2') (ss_keys s2) (ss_errors s2)), es, ds.
    split.
    { unfold in_block, bind, enter_block. rewrite Es. fold s1. rewrite E. unfold exit_block. rewrite Es2.
      unfold frame_exit_block. rewrite Esc. reflexivity. }
    split; [exact Eerr|]. split.
    { split; [|exact Hok2]. apply frame_ok_scopes; auto. rewrite Esc. symmetry. now apply last_cons. }
    assert (Hkeep : kept (f1 :: st1) (set_scopes f2' scs2 :: st2')).
    { constructor; auto. split; [exact Hg2|exact Hu2]. }
    split; [exact Hkeep|]. split; [exact HL|]. intros He. destruct (HA He) as (HL' & x & Hx & HF). split; auto.
    exists x. split; auto. intros Fs HFs. destruct Fs as [|F Fs]; [inversion HFs|].
    exists (envs (F :: Fs) (f2' :: st2')). cbn [ss_stack] in HFs. inversion HFs; subst.
    change (enter (envs (F :: Fs) (f :: st))) with (envs (F :: Fs) (frame_enter_block f :: st)). apply HF.
    constructor; auto.
Qed.

Lemma vis_enter here outer f st : vis here outer (f :: st) -> vis [] (here ++ outer) (frame_enter_block f :: st).
Proof.
  intros [H1 H2]. split; [|cbn; tauto]. intros x Hx. cbn [app]. rewrite (H1 x Hx). unfold visible.
  rewrite !Exists_cons. reflexivity.
Qed.

Lemma enter_block_eq {X Y} (m : M (option X)) (k : option X -> M Y) s :
  (_ <- enter_block ;; r <- m ;; _ <- exit_block ;; k r) s = (r <- in_block m ;; k r) s.
Proof.
  unfold in_block, bind. destruct (enter_block s) as [[[] s1]|]; [|reflexivity]. destruct (m s1) as [[r s2]|]; [|reflexivity].
  destruct (exit_block s2) as [[[] s3]|]; reflexivity.
Qed.

(** ** Declarations *)

Definition declared (x : symbol) (en : env) (i : slot) (ds : list slot) (en' : env) : Prop :=
  exists fi sc scs en0, en = mkenv fi (sc :: scs) :: en0 /\ absent x sc /\ en' = extend en x i /\ ds = [i].

Lemma perm_declare (D C : list slot) n : Permutation (D ++ C) (seq 0 n) -> Permutation ((D ++ [n]) ++ C) (seq 0 (S n)).
Proof.
  intros H. rewrite seq_S. cbn. rewrite <- H. rewrite <- !app_assoc. apply Permutation_app_head. apply Permutation_app_comm.
Qed.

Lemma visible_declare f st sc scs x y :
  fr_scopes f = sc :: scs ->
  visible (mkframe (S (fr_slots f)) (fr_captures f) (fr_self f) (((x, fr_slots f) :: sc) :: scs) :: st) y <->
  x = y \/ visible (f :: st) y.
Proof.
  intros E. unfold visible. rewrite !Exists_cons. unfold frame_resolve. cbn [fr_scopes]. rewrite E. cbn [scopes_resolve assoc].
  destruct (bytes_eqb x y) eqn:Ex.
  - apply bytes_eqb_eq in Ex. split; [auto|]. intros _. left. discriminate.
  - apply beq_neq in Ex. tauto.
Qed.

Lemma frame_declare_ok D f st sc scs x :
  plain_name x -> frame_ok D f st -> fr_scopes f = sc :: scs ->
  frame_ok (D ++ [fr_slots f]) (mkframe (S (fr_slots f)) (fr_captures f) (fr_self f) (((x, fr_slots f) :: sc) :: scs)) st.
Proof.
  intros Hx [H1 H2 H3 H4] E. split; cbn [fr_slots fr_captures fr_self fr_scopes]; auto; [now apply perm_declare|discriminate|].
  intros y i Hy. destruct scs as [|sc' scs]; cbn [last].
  - cbn [assoc]. destruct (bytes_eqb x (closed_symbol y)) eqn:Ex.
    + apply bytes_eqb_eq in Ex. subst. apply plainb_iff in Hx. rewrite closed_not_plain in Hx. discriminate.
    + intros Hi. apply (H3 y i Hy). rewrite E. exact Hi.
  - intros Hi. apply (H3 y i Hy). rewrite E. exact Hi.
Qed.

Lemma declare_spec here outer x p st : plain_name x -> vis here outer st ->
  gspec (declare x p) (~ In x here) (declared x) (vis (x :: here) outer) st.
Proof.
  intros Hx Hv s D Ds Hk Hok. assert (Hv' := vis_kept _ _ _ _ Hk Hv). unfold declare.
  destruct (ss_stack s) as [|f1 st1] eqn:Es; [destruct Hok|]. destruct Hok as [Hf1 Hok1]. destruct Hv' as [Hn Ht].
  cbn [top] in Ht. unfold frame_declare. destruct (fr_scopes f1) as [|sc scs] eqn:Esc; [contradiction|].
  unfold scope_declare. destruct (assoc x sc) as [i|] eqn:Ea.
  - assert (Hin : In x here).
    { apply Ht; auto. destruct (in_dec (list_eq_dec Byte.byte_eq_dec) x (map fst sc)) as [|N]; auto. apply assoc_none in N. congruence. }
    eexists _, _, [_], []. rewrite app_nil_r. split; [reflexivity|]. cbn [ss_errors ss_stack]. split; [reflexivity|]. rewrite Es.
    split; [split; auto|]. split; [apply moved_kept; [right; exists D, Ds; split; auto|apply kept_refl]|].
    split; [|split; [tauto|discriminate]]. split.
    + intros y Hy. cbn [app]. rewrite <- (Hn y Hy). cbn [In]. rewrite in_app_iff. intuition (subst; auto).
    + cbn. rewrite Esc. intros y Hy. rewrite <- (Ht y Hy). cbn. intuition (subst; auto).
  - assert (Hno : ~ In x here) by (rewrite Ht by auto; now apply assoc_none).
    eexists _, _, [], [fr_slots f1]. rewrite !app_nil_r. split; [reflexivity|]. cbn [ss_errors ss_stack]. split; [reflexivity|].
    split; [split; auto; now apply frame_declare_ok|].
    split; [constructor; cbn; auto using kept_refl; try congruence; [split; [apply incl_refl|auto]|now rewrite Esc]|].
    split; [split|].
    + intros y Hy. rewrite visible_declare by eassumption. cbn [app In]. rewrite (Hn y Hy). reflexivity.
    + cbn. intros y Hy. rewrite (Ht y Hy). reflexivity.
    + split; [constructor|]. intros _. split; [exact Hno|]. exists (fr_slots f1). split; [reflexivity|].
      intros Fs HF. inversion HF as [|? F ? Fs' ? ?]; subst. rewrite <- (envs_kept st (f1 :: st1)) by assumption.
      cbn [envs map fr_scopes]. rewrite Esc. cbn [map]. eexists F, (user sc), (map user scs), _. split; [reflexivity|].
      split; [|split; [|reflexivity]].
      * apply assoc_none. now rewrite assoc_user.
      * cbn [extend]. unfold user at 1. cbn [filter fst]. apply plainb_iff in Hx. now rewrite Hx.
Qed.

(** ** Expressions, statements, blocks *)

Definition EP (e : expr) : Prop := forall fn lp here outer st,
  wf_expr e -> vis here outer st ->
  spec (analyze_expr fn lp e) (legal_expr fn lp here outer e) (fun en x ds => addr_expr fn lp en e x ds) st.

Definition EP' (e : expr) : Prop := EP e /\ match e with EAccess o f _ => EP o /\ EP f | _ => True end.

Definition SP (s : statement) : Prop := forall fn lp here outer st,
  wf_statement s -> vis here outer st ->
  gspec (analyze_statement fn lp s) (legal_statement fn lp outer here s)
    (fun en x ds en' => addr_statement fn lp en s x ds en') (vis (declares s ++ here) outer) st.

Definition BP (b : block) : Prop := forall fn lp here outer st,
  wf_block b -> vis here outer st ->
  gspec (analyze_block fn lp b) (legal_block fn lp here outer b)
    (fun en xs ds _ => addr_block fn lp en b xs ds) (fun _ => True) st.

Lemma each_Forall {A} (f : A -> Prop) l : each f l <-> Forall f l.
Proof.
  induction l; cbn; split; auto.
  - intros [H1 H2]. constructor; [auto|]. apply IHl; auto.
  - intros H; inversion H; subst. split; auto. apply IHl; auto.
Qed.
Lemma all_Forall {A} (f : A -> Prop) l : all_of f l <-> Forall f l.
Proof.
  induction l; cbn; split; auto.
  - intros [H1 H2]. constructor; [auto|]. apply IHl; auto.
  - intros H; inversion H; subst. split; auto. apply IHl; auto.
Qed.

Lemma insert_key_spec x p st : plain_name x -> spec (insert_key x p) True (fun _ k ds => k = x /\ ds = []) st.
Proof.
  intros Hx s D Ds Hk Hok. unfold insert_key. rewrite plain_not_ill by assumption.
  destruct (existsb (bytes_eqb x) (ss_keys s)).
  - eexists _, _, [_], []. rewrite app_nil_r. split; [reflexivity|]. cbn. split; [reflexivity|]. split; [assumption|].
    split; [apply kept_refl|]. split; [|discriminate]. intros _. constructor; [|constructor]. eexists; reflexivity.
  - eexists _, _, [], []. rewrite !app_nil_r. split; [reflexivity|]. cbn. split; [reflexivity|]. split; [assumption|].
    split; [apply kept_refl|]. split; [constructor|]. intros _. split; [exact I|]. eauto.
Qed.

Lemma spec_clear {X} (m : M (option X)) L A st : spec m L A st -> spec (_ <- clear_keys ;; m) L A st.
Proof.
  intros H s D Ds Hk Hok. unfold bind at 1. cbn [clear_keys].
  destruct (H (mksstate (ss_stack s) [] (ss_errors s)) D Ds Hk Hok) as (r & s' & es & ds & H1 & H2).
  exists r, s', es, ds. auto.
Qed.

Lemma exprs_spec fn lp here outer st es : vis here outer st -> Forall EP' es -> all_of wf_expr es ->
  spec (items (analyze_expr fn lp) es) (each (legal_expr fn lp here outer) es)
    (fun en xs ds => addr_exprs fn lp en es xs ds) st.
Proof.
  intros Hv HF Hwf. apply all_Forall in Hwf.
  eapply spec_conseq; [apply (spec_items _ (legal_expr fn lp here outer) (fun e en x ds => addr_expr fn lp en e x ds))| |].
  - clear -Hv HF Hwf. induction HF as [|e es [H _] HF IH]; constructor; inversion Hwf; subst; [apply H|]; auto.
  - symmetry. apply each_Forall.
  - clear. intros en xs ds Hm. induction Hm; constructor; auto.
Qed.

Lemma vis_stack here outer st : vis here outer st -> exists f st0, st = f :: st0 /\ fr_scopes f <> [].
Proof.
  intros [_ H]. destruct st as [|f st0]; [destruct H|]. exists f, st0. split; auto. cbn in H. destruct (fr_scopes f); congruence || contradiction.
Qed.

Lemma inner_spec b fn lp here outer st : BP b -> wf_block b -> vis here outer st ->
  spec (in_block (analyze_block fn lp b)) (legal_block fn lp [] (here ++ outer) b)
    (fun en xs ds => addr_block fn lp (enter en) b xs ds) st.
Proof.
  intros Hb Hw Hv. destruct (vis_stack _ _ _ Hv) as (f & st0 & -> & Hne).
  eapply spec_conseq; [eapply in_block_spec; [assumption|apply Hb; [assumption|apply vis_enter; eassumption]]|reflexivity|].
  intros en x ds (en' & H). exact H.
Qed.

Lemma for_spec x p b fn here outer st : BP b -> wf_block b -> plain_name x -> vis here outer st ->
  spec (in_block (ix <- declare x p ;; b <- analyze_block fn true b ;; ret (zip ix b)))
    (legal_block fn true [x] (here ++ outer) b)
    (fun en ixs ds => exists d2, ds = fst ixs :: d2 /\ addr_block fn true (extend (enter en) x (fst ixs)) b (snd ixs) d2) st.
Proof.
  intros Hb Hw Hx Hv. destruct (vis_stack _ _ _ Hv) as (f & st0 & -> & Hne).
  eapply spec_conseq; [eapply in_block_spec; [assumption|]| |].
  - eapply (g_bind _ _ _ (legal_block fn true [x] (here ++ outer) b) _ (fun i en ixs ds _ => exists xs, ixs = (i, xs) /\ addr_block fn true en b xs ds) _ (fun _ => True)).
    + apply declare_spec; [assumption|apply vis_enter; eassumption].
    + intros st' r Hv'. eapply gweak_bind; [eapply g_weak, Hb; eassumption|intros; apply (gweak_ret _ True); auto|tauto].
    + intros st' i Hv'. eapply g_conseq; [eapply (g_bind _ _ _ True _ (fun xs _ ixs ds _ => ixs = (i, xs) /\ ds = []) _ (fun _ => True));
        [apply Hb; eassumption|..]|..].
      * intros; apply gweak_ret; auto.
      * intros st'' xs _. apply g_ret; auto.
      * tauto.
      * cbv beta. intros en ixs ds en' (xs & d1 & d2 & en1 & -> & HA & -> & ->). rewrite app_nil_r. eauto.
      * auto.
  - split.
    + intros [_ H]. exact H.
    + intros H. split; [intros []|exact H].
  - cbv beta. intros en ixs ds (en' & i & d1 & d2 & en1 & -> & (fi & sc & scs & en0 & E & Ha & -> & ->) & xs & -> & HA).
    exists d2. split; [reflexivity|exact HA].
Qed.

(** functions *)
Lemma params_spec ps : Forall (fun sp => plain_name (fst sp)) ps -> forall s f st sc D,
  ss_stack s = f :: st -> fr_scopes f = [sc] -> frame_ok D f st ->
  exists r s' es f' sc' ds,
    declare_params ps s = Some (r, s') /\ ss_errors s' = ss_errors s ++ es /\ ss_stack s' = f' :: st /\
    fr_scopes f' = [sc'] /\ fr_captures f' = fr_captures f /\ fr_self f' = fr_self f /\ frame_ok (D ++ ds) f' st /\
    (forall x, In x (map fst sc') <-> In x (map fst ps) \/ In x (map fst sc)) /\
    (NoDup (map fst ps) /\ (forall x, In x (map fst ps) -> ~ In x (map fst sc)) -> es = []) /\
    (es = [] -> NoDup (map fst ps) /\ (forall x, In x (map fst ps) -> ~ In x (map fst sc)) /\ r = Some tt /\
       sc' = rev (combine (map fst ps) (seq (fr_slots f) (List.length ps))) ++ sc /\
       ds = seq (fr_slots f) (List.length ps)).
Proof.
  induction 1 as [|[x p] ps Hx Hps IH]; intros s f st sc D Es Esc Hf.
  - exists (Some tt), s, [], f, sc, []. rewrite !app_nil_r. cbn. split; [reflexivity|]. split; [reflexivity|]. split; [assumption|].
    split; [assumption|]. do 2 (split; [reflexivity|]). split; [assumption|]. split; [tauto|]. split; [auto|]. intros _.
    split; [constructor|]. split; [tauto|]. auto.
  - cbn [fst] in Hx. cbn [declare_params]. rewrite plain_not_ill by assumption. unfold bind at 1, declare. rewrite Es.
    unfold frame_declare. rewrite Esc. unfold scope_declare. destruct (assoc x sc) as [i|] eqn:Ea.
    + assert (Hin : In x (map fst sc)).
      { destruct (in_dec (list_eq_dec Byte.byte_eq_dec) x (map fst sc)) as [|N]; auto. apply assoc_none in N. congruence. }
      cbn [report bind ret].
      destruct (IH (mksstate (ss_stack s) (ss_keys s) (ss_errors s ++ [mkserror (DuplicateVariable x) p])) f st sc D Es Esc Hf)
        as (r & s' & es & f' & sc' & ds & E & Eerr & Est & Esc' & Ec & Eself & Hf' & Hn & H1 & H2).
      unfold bind. rewrite E. eexists _, s', (_ :: es), f', sc', ds. split; [reflexivity|].
      split; [rewrite Eerr; cbn; rewrite <- app_assoc; reflexivity|]. do 5 (split; [assumption|]).
      split; [|split; [|discriminate]].
      * intros y. rewrite Hn. cbn. intuition (subst; auto).
      * intros [_ N]. exfalso. apply (N x); cbn; auto.
    + assert (Hno : ~ In x (map fst sc)) by now apply assoc_none.
      unfold bind. match goal with |- context [declare_params ps ?s0] => destruct (IH s0
                  _ st ((x, fr_slots f) :: sc) (D ++ [fr_slots f]) eq_refl eq_refl (frame_declare_ok _ _ _ _ _ _ Hx Hf Esc))
        as (r & s' & es & f' & sc' & ds & E & Eerr & Est & Esc' & Ec & Eself & Hf' & Hn & H1 & H2) end.
      rewrite E. eexists _, s', es, f', sc', (fr_slots f :: ds). split; [reflexivity|].
      do 5 (split; [assumption|]). split; [now rewrite <- app_assoc in Hf'|].
      split; [|split].
      * intros y. rewrite Hn. cbn. tauto.
      * cbn [map fst] in *. intros [N1 N2]. inversion N1; subst. apply H1. split; auto.
        intros y Hy [<-|Hy']; [contradiction|]. apply (N2 y); cbn; auto.
      * intros He. destruct (H2 He) as (N1 & N2 & -> & -> & ->). cbn [fr_slots map fst] in *. split; [|split; [|split; [|split]]].
        -- constructor; auto. intros Hin. apply (N2 x Hin). now left.
        -- intros y [<-|Hy] Hin; [contradiction|]. apply (N2 y Hy). now right.
        -- reflexivity.
        -- cbn [List.length seq combine rev]. rewrite <- app_assoc. reflexivity.
        -- reflexivity.
Qed.

Lemma user_plain (sc : scope) : (forall x, In x (map fst sc) -> plain_name x) -> user sc = sc.
Proof.
  unfold user. induction sc as [|[k v] sc IH]; intros H; [reflexivity|]. cbn [filter fst].
  assert (plainb k = true) as -> by (apply plainb_iff, H; now left). f_equal. apply IH. intros; apply H; now right.
Qed.

Lemma map_fst_combine {A B} (l : list A) (l' : list B) : List.length l = List.length l' -> map fst (combine l l') = l.
Proof. revert l'. induction l; intros [|] H; try discriminate; cbn; [reflexivity|]. f_equal. apply IHl. now injection H. Qed.

Lemma frame_new_ok st : frame_ok [] frame_new st.
Proof. split; cbn; auto; try discriminate; try contradiction. Qed.

Lemma function_spec ps b p fn lp here outer st :
  BP b -> all_of wf_name ps -> wf_block b -> vis here outer st ->
  spec (analyze_expr fn lp (EFunction ps b p)) (legal_expr fn lp here outer (EFunction ps b p))
    (fun en x ds => addr_expr fn lp en (EFunction ps b p) x ds) st.
Proof.
  intros Hb Hps Hwf Hv s D Ds Hk Hok. cbn [analyze_expr legal_expr]. apply all_Forall in Hps.
  assert (Hpl : Forall (fun sp => plain_name (fst sp)) ps) by (eapply Forall_impl; [|exact Hps]; intros ? [H _]; exact H).
  unfold bind at 1. cbn [enter_frame].
  destruct (params_spec ps Hpl (mksstate (frame_new :: ss_stack s) (ss_keys s) (ss_errors s)) frame_new (ss_stack s) [] []
    eq_refl eq_refl (frame_new_ok _))
    as (r1 & s1 & es1 & f1 & sc1 & ds1 & E1 & Eerr1 & Est1 & Esc1 & Ec1 & Eself1 & Hf1 & Hn1 & HL1 & HA1).
  unfold bind at 1. rewrite E1.
  assert (Hvs := vis_kept _ _ _ _ Hk Hv).
  assert (Hv1 : vis (map fst ps) (here ++ outer) (f1 :: ss_stack s)).
  { split.
    - intros x Hx. rewrite in_app_iff. unfold visible. rewrite Exists_cons. destruct Hvs as [Hnm _]. rewrite (Hnm x Hx).
      unfold frame_resolve. rewrite Esc1. cbn [scopes_resolve].
      assert (In x (map fst ps) <-> assoc x sc1 <> None) as ->; [|destruct (assoc x sc1); unfold visible; tauto].
      rewrite assoc_none. unfold absent. specialize (Hn1 x). cbn in Hn1.
      destruct (in_dec (list_eq_dec Byte.byte_eq_dec) x (map fst sc1)); tauto.
    - cbn. rewrite Esc1. intros x Hx. specialize (Hn1 x). cbn in Hn1. tauto. }
  assert (Hk1 : kept (f1 :: ss_stack s) (ss_stack s1)) by (rewrite Est1; apply kept_refl).
  destruct (Hb true false (map fst ps) (here ++ outer) (f1 :: ss_stack s) Hwf Hv1 s1 ds1 (D :: Ds) Hk1)
    as (r2 & s2 & es2 & ds2 & E2 & Eerr2 & Hok2 & Hm2 & _ & HL2 & HA2).
  { rewrite Est1. split; auto. }
  unfold bind at 1. rewrite E2. rewrite Est1 in Hm2. inversion Hm2 as [? f2 ? st2 Hg2 Hu2 Hne1 Hne2 Hk2 Ea Eb]. subst.
  destruct (ss_stack s2) as [|f2' st2'] eqn:Est2; [discriminate|]. injection Eb as -> ->. destruct Hok2 as [Hf2 Hok2].
  unfold bind at 1, exit_frame. rewrite Est2. unfold frame_exit_block. destruct (fr_scopes f2') as [|sc2 scs2] eqn:Esc2; [congruence|].
  eexists _, _, (es1 ++ es2), []. rewrite app_nil_r. split; [reflexivity|]. cbn [ss_errors ss_stack].
  split; [rewrite Eerr2, Eerr1, app_assoc; reflexivity|]. split; [exact Hok2|]. split; [exact Hk2|]. split.
  - intros [N HL]. rewrite HL1; [|split; [exact N|cbn; tauto]]. cbn. auto.
  - intros He. apply app_eq_nil in He as [-> ->]. destruct (HA1 eq_refl) as (N1 & _ & -> & -> & ->).
    destruct (HA2 eq_refl) as (HL & xb & -> & HA). split; [split; auto|]. cbn [zip]. eexists. split; [reflexivity|].
    intros Fs HF. cbn [frame_to_info set_scopes fr_slots fr_captures fr_self].
    assert (HF' : Forall2 ext (ss_stack s) Fs) by (eapply ext_kept; eauto).
    specialize (HA (frame_to_info f2' :: Fs)).
    pose proof (fo_slots _ _ _ Hf2) as Hperm. cbn [frame_new fr_slots] in Hperm.
    rewrite <- !app_assoc in Hperm.
    assert (Hpf : forall x, In x (map fst (rev (combine (map fst ps) (seq 0 (List.length ps))))) -> plain_name x).
    { intros x Hx. rewrite map_rev, <- in_rev in Hx. rewrite map_fst_combine in Hx by now rewrite map_length, seq_length.
      apply in_map_iff in Hx as (q & <- & Hq). rewrite Forall_forall in Hpl. auto. }
    apply ae_function with (ds := ds2).
    + exact N1.
    + cbn [envs] in HA. rewrite Esc1 in HA. cbn [frame_new fr_slots map] in HA. rewrite app_nil_r, user_plain in HA by exact Hpf.
      rewrite <- (envs_kept st (ss_stack s)) by assumption. apply HA. constructor; [|exact HF].
      split; [apply incl_refl|auto].
    + cbn [fi_captures fi_self]. eapply Permutation_NoDup; [symmetry; exact Hperm|apply seq_NoDup].
    + intros i. cbn [fi_captures fi_self fi_slots]. rewrite (Permutation_in' eq_refl Hperm), in_seq. cbn.
      split; [intros [_ H]; exact H|intros H; split; [apply Nat.le_0_l|exact H]].
    + intros c Hc. destruct (fo_captures _ _ _ Hf2 c Hc) as (x & Hx & Hd). exists x.
      rewrite <- (envs_kept st (ss_stack s)) by assumption. rewrite <- (envs_kept _ _ _ Hk2). now apply cden_denotes.
Qed.

Lemma self_spec p lp here outer st : vis here outer st ->
  spec (ix <- resolve_self ;; ret (Some (XIdent ix p))) True (fun en x ds => addr_expr true lp en (ESelf p) x ds) st.
Proof.
  intros Hv s D Ds Hk Hok. unfold bind, resolve_self. destruct (ss_stack s) as [|f st1] eqn:Es; [destruct Hok|].
  destruct Hok as [Hf Hok]. unfold frame_self. destruct (fr_self f) as [i|] eqn:Ef.
  - eexists _, _, [], []. rewrite !app_nil_r. split; [reflexivity|]. cbn. split; [reflexivity|]. split; [split; auto|].
    split; [apply kept_refl|]. split; [constructor|]. intros _. split; [exact I|]. eexists. split; [reflexivity|].
    intros Fs HF. inversion HF as [|? F ? Fs' [He1 He2] HF']; subst. rewrite <- (envs_kept st (f :: st1)) by assumption.
    cbn [envs]. apply ae_self. now apply He2.
  - pose (f' := mkframe (S (fr_slots f)) (fr_captures f) (Some (fr_slots f)) (fr_scopes f)).
    eexists _, _, [], []. rewrite !app_nil_r. split; [reflexivity|]. cbn [ss_errors ss_stack]. split; [reflexivity|]. fold f'.
    split; [|split; [|split; [constructor|]]].
    + split; [|exact Hok]. destruct Hf as [H1 H2 H3 H4]. split; cbn [f' fr_slots fr_captures fr_self fr_scopes]; auto.
      rewrite Ef in H1. cbn [option_list] in *. rewrite app_nil_r in H1. rewrite seq_S. cbn. rewrite <- H1, <- app_assoc. reflexivity.
    + constructor; [|apply kept_refl]. split; [|reflexivity]. split; [apply incl_refl|]. intros i E. congruence.
    + intros _. split; [exact I|]. eexists. split; [reflexivity|].
      intros Fs HF. inversion HF as [|? F ? Fs' [He1 He2] HF']; subst. rewrite <- (envs_kept st (f :: st1)) by assumption.
      cbn [envs]. apply ae_self. now apply He2.
Qed.

Lemma dict_spec fn lp here outer st kvs : vis here outer st ->
  Forall (fun kv => EP' (snd kv)) kvs -> all_of (fun kv => wf_name (fst kv) /\ wf_expr (snd kv)) kvs ->
  spec (items (fun kv =>
           k <- insert_key (fst (fst kv)) (snd (fst kv)) ;;
           v <- analyze_expr fn lp (snd kv) ;;
           ret (zip k v)) kvs)
    (each (fun kv => legal_expr fn lp here outer (snd kv)) kvs)
    (fun en xs ds => addr_exprs fn lp en (map snd kvs) (map snd xs) ds /\ map fst xs = map (fun kv => fst (fst kv)) kvs) st.
Proof.
  intros Hv HF Hwf. apply all_Forall in Hwf.
  eapply spec_conseq; [apply (spec_items _ (fun kv => legal_expr fn lp here outer (snd kv))
    (fun kv en x ds => fst x = fst (fst kv) /\ addr_expr fn lp en (snd kv) (snd x) ds))| |].
  - clear -Hv HF Hwf. induction HF as [|kv kvs [H _] HF IH]; constructor; inversion Hwf as [|? ? [[Hn Hp] Hw] Hwf']; subst; auto.
    eapply spec_conseq; [eapply (spec_both _ _ _ pair); [now apply insert_key_spec|apply H; eassumption|reflexivity]|tauto|].
    cbv beta. intros en x ds (a & b & d1 & d2 & -> & -> & (-> & ->) & HA). auto.
  - symmetry. apply each_Forall.
  - clear. intros en xs ds Hm. induction Hm as [|x y xs ys d1 d2 [H1 H2] Hm [IH1 IH2]]; cbn [map].
    + split; constructor.
    + split; [constructor; auto|congruence].
Qed.

Lemma statements_spec fn lp outer ss : Forall SP ss -> all_of wf_statement ss -> forall here st, vis here outer st ->
  gspec (items (analyze_statement fn lp) ss) (in_order (legal_statement fn lp outer) declares here ss)
    (fun en xs ds _ => addr_statements fn lp en ss xs ds) (fun _ => True) st.
Proof.
  intros HF Hwf. apply all_Forall in Hwf. induction HF as [|s ss Hs HF IH]; intros here st Hv.
  - cbn [items in_order]. apply g_ret; auto. intros; constructor.
  - inversion Hwf as [|? ? Hw Hwf']; subst. specialize (IH Hwf'). cbn [items in_order].
    eapply g_conseq; [eapply (g_bind _ _ _ (in_order (legal_statement fn lp outer) declares (declares s ++ here) ss) _ (fun x en ys ds _ => exists xs, ys = x :: xs /\ addr_statements fn lp en ss xs ds) _ (fun _ => True));
      [apply Hs; eassumption|..]| | |].
    + intros st' r Hv'. eapply gweak_bind; [eapply g_weak, IH; eassumption|intros; apply (gweak_ret _ True); auto|tauto].
    + intros st' x Hv'. eapply g_conseq; [eapply (g_bind _ _ _ True _ (fun xs _ ys ds _ => ys = x :: xs /\ ds = []) _ (fun _ => True));
        [apply IH; eassumption|..]|..].
      * intros; apply gweak_ret; auto.
      * intros st'' xs _. apply g_ret; auto.
      * split; [intros [H _]; exact H|intros H; split; [exact H|exact I]].
      * cbv beta. intros en ys ds en' (xs & d1 & d2 & en1 & -> & HA & -> & ->). rewrite app_nil_r. eauto.
      * auto.
    + reflexivity.
    + cbv beta. intros en ys ds en' (x & d1 & d2 & en1 & -> & HA & xs & -> & HB). econstructor; eauto.
    + auto.
Qed.
