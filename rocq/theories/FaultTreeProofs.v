(** The faults of expressions, statements and whole programs. *)
From Coq Require Import Strings.String.
From Verif Require Import Base Lexer Ast Program Sema SpecLexer SpecParser SpecSema SpecFault LexerProofs SemaProofs SemaTreeProofs
  SemaShapeProofs SemaMainProofs FaultProofs.
From Coq Require Import Lia Permutation.
Local Open Scope sema_scope.

Ltac gg := intros; repeat match goal with x : option _ |- _ => destruct x end; cbn;
  repeat match goal with x : prod _ _ |- _ => destruct x end; cbn; intuition congruence.

Lemma in_block_tells {X} (m : M (option X)) P Q f st :
  fr_scopes f <> [] -> gtells m P Q (frame_enter_block f :: st) -> tells (in_block m) P (f :: st).
Proof.
  intros Hne H s D Ds Hk Hok. destruct (ss_stack s) as [|f1 st1] eqn:Es; [inversion Hk|].
  assert (Hk0 := Hk). inversion Hk as [|? ? ? ? [Hg Hu] Hk1]; subst. destruct Hok as [Hf1 Hok1].
  assert (Hn1 : fr_scopes f1 <> []) by apply Hf1.
  pose (s1 := mksstate (frame_enter_block f1 :: st1) (ss_keys s) (ss_errors s)).
  destruct (H s1 D Ds) as (r & s2 & es & ds & E & Eerr & Hok2 & Hm & HQ & HP).
  - constructor; auto. split; [exact Hg|]. cbn. now rewrite Hu.
  - split; [|exact Hok1]. apply frame_ok_scopes; auto; [discriminate|]. now apply last_cons.
  - inversion Hm as [? f2 ? st2 Hg2 Hu2 Hn0 Hn2 Hk2 Ea Eb]; subst. destruct (ss_stack s2) as [|f2' st2'] eqn:Es2; [discriminate|].
    injection Eb as -> ->. destruct Hok2 as [Hf2 Hok2]. cbn [fr_scopes frame_enter_block set_scopes map tl] in Hu2.
    destruct (fr_scopes f2') as [|sc2 scs2] eqn:Esc; [congruence|]. cbn [map tl] in Hu2.
    assert (Hn3 : scs2 <> []) by (intros ->; destruct (fr_scopes f1); [congruence|discriminate]).
    exists r, (mksstate (set_scopes f2' scs2 :: st2') (ss_keys s2) (ss_errors s2)), es, ds.
    split.
    { unfold in_block, bind, enter_block. rewrite Es. fold s1. rewrite E. unfold exit_block. rewrite Es2.
      unfold frame_exit_block. rewrite Esc. reflexivity. }
    split; [exact Eerr|]. split.
    { split; [|exact Hok2]. apply frame_ok_scopes; auto. rewrite Esc. symmetry. now apply last_cons. }
    assert (Hkeep : kept (f1 :: st1) (set_scopes f2' scs2 :: st2')).
    { constructor; auto. split; [exact Hg2|exact Hu2]. }
    split; [exact Hkeep|exact HP].
Qed.

Lemma in_here here sc x : (forall y, plain_name y -> In y here <-> In y (map fst sc)) -> plain_name x ->
  known x here = match assoc x sc with Some _ => true | None => false end.
Proof.
  intros H Hx. destruct (assoc x sc) eqn:Ea.
  - apply known_in. apply H; auto. destruct (in_dec (list_eq_dec Byte.byte_eq_dec) x (map fst sc)) as [|N]; auto.
    apply assoc_none in N. congruence.
  - apply assoc_none in Ea. destruct (known x here) eqn:E; [|reflexivity]. apply known_in in E. apply H in E; auto. contradiction.
Qed.

Definition twice (x : symbol) (p : pos) (here : list symbol) : list serror :=
  if known x here then fault (DuplicateVariable x) p else [].

Lemma declare_tells here outer x p st : plain_name x -> vis here outer st ->
  gtells (declare x p) (exactly (twice x p here)) (vis (x :: here) outer) st.
Proof.
  intros Hx Hv s D Ds Hk Hok.
  destruct (declare_spec here outer x p st Hx Hv s D Ds Hk Hok) as (r & s' & es & ds & E & Eerr & Hok' & Hm & HQ & _).
  exists r, s', (twice x p here), ds. split; [exact E|].
  assert (H : ss_errors s' = ss_errors s ++ twice x p here /\ (r = None <-> twice x p here <> [])).
  { clear Hok' Hm HQ Eerr. assert (Hv' := vis_kept _ _ _ _ Hk Hv). unfold declare in E. destruct Hv' as [_ Ht]. unfold twice.
    destruct (ss_stack s) as [|f1 st1] eqn:Es; [destruct Hok|]. cbn [top] in Ht. unfold frame_declare in E.
    destruct (fr_scopes f1) as [|sc scs] eqn:Esc; [contradiction|]. rewrite (in_here here sc x Ht Hx).
    unfold scope_declare in E. destruct (assoc x sc) as [i|].
    - cbn in E. injection E as <- <-. split; [reflexivity|]. split; [intros _ H; discriminate H|auto].
    - injection E as <- <-. cbn. rewrite app_nil_r. split; [reflexivity|]. split; [intros H; discriminate H|congruence]. }
  split; [apply H|]. split; [exact Hok'|]. split; [exact Hm|]. split; [exact HQ|]. split; [reflexivity|apply H].
Qed.

Lemma params_tells ps : Forall (fun sp => plain_name (fst sp)) ps -> forall s f st sc seen r s',
  ss_stack s = f :: st -> fr_scopes f = [sc] -> (forall y, plain_name y -> In y seen <-> In y (map fst sc)) ->
  declare_params ps s = Some (r, s') ->
  ss_errors s' = ss_errors s ++ declared_twice seen ps /\ (r = None <-> declared_twice seen ps <> []).
Proof.
  induction 1 as [|[x p] ps Hx Hps IH]; intros s f st sc seen r s' Es Esc Hs E.
  - cbn in *. injection E as <- <-. rewrite app_nil_r. split; [reflexivity|]. split; [intros H; discriminate H|congruence].
  - cbn [fst] in Hx. cbn [declare_params declared_twice] in *. rewrite plain_not_ill in E by assumption. unfold bind at 1, declare in E.
    rewrite Es in E. unfold frame_declare in E. rewrite Esc in E. unfold scope_declare in E.
    rewrite (in_here seen sc x Hs Hx). destruct (assoc x sc) as [i|] eqn:Ea.
    + cbn [report bind ret] in E. unfold bind in E.
      match type of E with context [declare_params ps ?s0] => destruct (declare_params ps s0) as [[rs s1]|] eqn:E1; [|discriminate] end.
      cbn [ret] in E. injection E as <- <-.
      assert (Hs' : forall y, plain_name y -> In y (x :: seen) <-> In y (map fst sc)).
      { intros y Hy. cbn [In]. rewrite (Hs y Hy). split; [|tauto]. intros [<-|H]; [|exact H].
        destruct (in_dec (list_eq_dec Byte.byte_eq_dec) x (map fst sc)) as [|N]; auto. apply assoc_none in N. congruence. }
      destruct (IH _ f st sc (x :: seen) _ _ (Es : ss_stack (mksstate (ss_stack s) (ss_keys s) _) = f :: st) Esc Hs' E1) as [H1 H2].
      cbn [ss_errors] in H1. rewrite H1, <- app_assoc. split; [reflexivity|]. split; [intros _ H; discriminate H|auto].
    + unfold bind in E.
      match type of E with context [declare_params ps ?s0] => destruct (declare_params ps s0) as [[rs s1]|] eqn:E1; [|discriminate] end.
      cbn [ret] in E. injection E as <- <-.
      assert (Hs' : forall y, plain_name y -> In y (x :: seen) <-> In y (map fst ((x, fr_slots f) :: sc))).
      { intros y Hy. cbn [In map fst]. rewrite (Hs y Hy). tauto. }
      pose proof (fun h1 h2 => IH _ (mkframe (S (fr_slots f)) (fr_captures f) (fr_self f) [(x, fr_slots f) :: sc]) st ((x, fr_slots f) :: sc) (x :: seen) _ _ h1 h2 Hs' E1) as H0.
      destruct (H0 eq_refl eq_refl) as [H1 H2]. clear H0.
      cbn [ss_errors] in H1. cbn [app]. split; [exact H1|]. rewrite <- H2. destruct rs; split; congruence.
Qed.

(** ** The induction *)

Definition EF (e : expr) : Prop := forall fn lp here outer st,
  wf_expr e -> vis here outer st ->
  tells (analyze_expr fn lp e) (agrees (expr_faults false fn lp here outer e) (expr_faults true fn lp here outer e)) st.
Definition EF' (e : expr) : Prop := EF e /\ match e with EAccess o f _ => EF o /\ EF f | _ => True end.
Definition SF (s : statement) : Prop := forall fn lp here outer st,
  wf_statement s -> vis here outer st ->
  gtells (analyze_statement fn lp s) (agrees (statement_faults false fn lp outer here s) (statement_faults true fn lp outer here s))
    (vis (declares s ++ here) outer) st.
Definition BF (b : block) : Prop := forall fn lp here outer st,
  wf_block b -> vis here outer st ->
  gtells (analyze_block fn lp b) (agrees (block_faults false fn lp here outer b) (block_faults true fn lp here outer b))
    (fun _ => True) st.

Lemma inner_tells b fn lp here outer st : BF b -> wf_block b -> vis here outer st ->
  tells (in_block (analyze_block fn lp b))
    (agrees (block_faults false fn lp [] (here ++ outer) b) (block_faults true fn lp [] (here ++ outer) b)) st.
Proof.
  intros Hb Hw Hv. destruct (vis_stack _ _ _ Hv) as (f & st0 & -> & Hne).
  eapply in_block_tells; [assumption|apply Hb; [assumption|apply vis_enter; eassumption]].
Qed.

Lemma gtells_map {X Y} (m : M (option X)) (g : option X -> option Y) F G Q st :
  gtells m (agrees F G) Q st -> (forall r, g r = None <-> r = None) ->
  gtells (r <- m ;; ret (g r)) (agrees F G) Q st.
Proof.
  intros H Hg s D Ds Hk Hok. destruct (H s D Ds Hk Hok) as (r & s' & es & ds & H1 & H2 & H3 & H4 & H5 & A & B & C).
  exists (g r), s', es, ds. unfold bind. rewrite H1. do 5 (split; [assumption || reflexivity|]). split; [exact A|]. split; [exact B|].
  now rewrite Hg.
Qed.

Lemma ag_nil {X} (x : X) : agrees [] [] [] (Some x).
Proof. apply ag_ex; [apply incl_refl|apply ex_some]. Qed.
Lemma ag_report {X} k p F : In (mkserror k p) F -> @agrees X F (fault k p) (fault k p) None.
Proof. intros H. apply ag_ex; [|apply ex_none]. intros e [<-|[]]. exact H. Qed.

Lemma ag_same {X Y} F G es (a : option X) (b : option Y) : agrees F G es a -> (b = None <-> a = None) -> agrees F G es b.
Proof. intros (A & B & C) H. split; [exact A|]. split; [exact B|]. now rewrite H. Qed.

Lemma for_tells x p b fn here outer st : BF b -> wf_block b -> plain_name x -> vis here outer st ->
  tells (in_block (ix <- declare x p ;; b <- analyze_block fn true b ;; ret (zip ix b)))
    (agrees (block_faults false fn true [x] (here ++ outer) b) (block_faults true fn true [x] (here ++ outer) b)) st.
Proof.
  intros Hb Hw Hx Hv. destruct (vis_stack _ _ _ Hv) as (f & st0 & -> & Hne).
  eapply in_block_tells; [assumption|].
  eapply (gtells_bind _ _ _ (fun ix es r => exists b', agrees (block_faults false fn true [x] (here ++ outer) b) (block_faults true fn true [x] (here ++ outer) b) es b' /\ r = zip ix b') _ (fun _ => True));
    [apply declare_tells; [assumption|apply vis_enter; eassumption]|..].
  - intros st' r Hv' s D Ds Hk Hok. destruct (Hb fn true [x] (here ++ outer) st' Hw Hv' s D Ds Hk Hok) as (b' & s' & es & ds & H1 & H2 & H3 & H4 & H5 & H6).
    unfold bind. rewrite H1. eexists _, s', es, ds. split; [reflexivity|]. do 4 (split; [assumption|]). eauto.
  - intros es1 ix es2 r [-> Hi] (b' & H & ->). cbn [twice known in_dec app list_rec list_rect] in *. destruct ix as [ix|]; [|exfalso; now apply Hi].
    eapply ag_same; [exact H|]. gg.
Qed.

Lemma function_tells ps b p fn lp here outer st :
  BF b -> all_of wf_name ps -> wf_block b -> wf_pos p -> vis here outer st ->
  tells (analyze_expr fn lp (EFunction ps b p))
    (agrees (expr_faults false fn lp here outer (EFunction ps b p)) (expr_faults true fn lp here outer (EFunction ps b p))) st.
Proof.
  intros Hb Hps Hwf Hp Hv.
  eapply tells_of; [eapply spec_weak, (proj1 (proj1 trees (EFunction ps b p))); [cbn [wf_expr]; auto|eassumption]|].
  intros s D Ds r s' Hk Hok E. cbn [analyze_expr expr_faults] in *. apply all_Forall in Hps.
  assert (Hpl : Forall (fun sp => plain_name (fst sp)) ps) by (eapply Forall_impl; [|exact Hps]; intros ? [H _]; exact H).
  unfold bind at 1 in E. cbn [enter_frame] in E.
  destruct (params_spec ps Hpl (mksstate (frame_new :: ss_stack s) (ss_keys s) (ss_errors s)) frame_new (ss_stack s) [] []
    eq_refl eq_refl (frame_new_ok _))
    as (r1 & s1 & es1 & f1 & sc1 & ds1 & E1 & Eerr1 & Est1 & Esc1 & Ec1 & Eself1 & Hf1 & Hn1 & HL1 & HA1).
  unfold bind at 1 in E. rewrite E1 in E.
  destruct (params_tells ps Hpl (mksstate (frame_new :: ss_stack s) (ss_keys s) (ss_errors s)) frame_new (ss_stack s) [] [] r1 s1 eq_refl eq_refl ltac:(reflexivity) E1) as [Ep Hr1].
  assert (Hvs := vis_kept _ _ _ _ Hk Hv).
  assert (Hv1 : vis (map fst ps) (here ++ outer) (f1 :: ss_stack s)).
  { split.
    - intros x Hx. rewrite in_app_iff. unfold visible. rewrite Exists_cons. destruct Hvs as [Hnm _]. rewrite (Hnm x Hx).
      unfold frame_resolve. rewrite Esc1. cbn [scopes_resolve].
      assert (In x (map fst ps) <-> assoc x sc1 <> None) as ->; [|destruct (assoc x sc1); unfold visible; tauto].
      rewrite assoc_none. unfold absent. specialize (Hn1 x). cbn in Hn1.
      destruct (in_dec (list_eq_dec Byte.byte_eq_dec) x (map fst sc1)); tauto.
    - cbn. rewrite Esc1. intros x Hx. specialize (Hn1 x). cbn in Hn1. tauto. }
  assert (Hk1 : kept (f1 :: ss_stack s) (ss_stack s1)) by (rewrite Est1; apply kept_refl).
  destruct (Hb true false (map fst ps) (here ++ outer) (f1 :: ss_stack s) Hwf Hv1 s1 ds1 (D :: Ds) Hk1)
    as (r2 & s2 & es2 & ds2 & E2 & Eerr2 & Hok2 & Hm2 & _ & HP2).
  { rewrite Est1. split; auto. }
  unfold bind at 1 in E. rewrite E2 in E. unfold bind in E. destruct (exit_frame s2) as [[fi s3]|] eqn:E3; [|discriminate].
  assert (ss_errors s3 = ss_errors s2) as Eerr3.
  { unfold exit_frame in E3. destruct (ss_stack s2); [discriminate|]. destruct (frame_exit_block _); [|discriminate].
    injection E3 as <- <-. reflexivity. }
  cbn [ret] in E. injection E as <- <-. cbn [ss_errors] in Ep. exists (declared_twice [] ps ++ es2).
  split; [rewrite Eerr3, Eerr2, Ep, app_assoc; reflexivity|].
  eapply (ag_app r1 r2); [apply ag_ex; [apply incl_refl|split; [reflexivity|exact Hr1]]|exact HP2|].
  destruct r1, r2; cbn; intuition congruence.
Qed.

Lemma unary_tells op e p fn lp here outer st : EF e -> wf_expr e -> vis here outer st ->
  tells (analyze_expr fn lp (EUnary op e p))
    (agrees (expr_faults false fn lp here outer (EUnary op e p)) (expr_faults true fn lp here outer (EUnary op e p))) st.
Proof.
  intros He Hw Hv. cbn [analyze_expr expr_faults].
  set (T := match op with UTry => unless fn (fault TryOutsideFunction p) | _ => [] end).
  eapply (tells_bind _ _ _ (fun x es (y : option xexpr) => match x with None => es = [] /\ y = None | Some _ => es = T /\ (y = None <-> T <> []) end));
    [apply He; eassumption|..].
  - intros [x|]; [|now apply tells_ret]. unfold T.
    destruct op; try (apply tells_ret, ex_some). destruct fn; [apply tells_ret, ex_some|apply tells_report, ex_none].
  - assert (HT : filter told T = []) by (unfold T; destruct op, fn; reflexivity).
    assert (HK : Forall (fun e => is_key_error e = false) T) by (unfold T; destruct op, fn; repeat constructor).
    set (F := expr_faults false fn lp here outer e). set (G := expr_faults true fn lp here outer e). clearbody F G T.
    assert (HG : filter told (behind true G T) = filter told G).
    { unfold behind. destruct G; [exact HT|reflexivity]. }
    assert (HF : behind false F T = F ++ T) by reflexivity.
    intros es1 x es2 y (A & B & C) H. destruct x as [x|].
    + destruct H as [-> Hy]. split; [|split].
      * rewrite HF. apply Forall_app. split; [eapply Forall_impl; [|exact A]; intros e' [H|H]; auto; right; apply in_or_app; auto|].
        apply Forall_forall. intros e' H. right. apply in_or_app. auto.
      * now rewrite HG, filter_app, HT, app_nil_r.
      * intros H. apply Forall_app in H as [H _]. destruct (C H) as [-> Hx].
        destruct G as [|e' G]; [split; [reflexivity|exact Hy]|].
        assert (Some x = None) by (apply Hx; discriminate). discriminate.
    + destruct H as [-> ->]. rewrite app_nil_r. split; [|split].
      * rewrite HF. eapply Forall_impl; [|exact A]; intros e' [H|H]; auto; right; apply in_or_app; auto.
      * now rewrite HG.
      * intros H. destruct (C H) as [-> Hx]. assert (HN : G <> []) by now apply Hx.
        destruct G as [|e' G]; [congruence|]. split; [reflexivity|]. split; [intros _ H'; discriminate H'|auto].
Qed.

Lemma insert_key_tells x p st : plain_name x ->
  tells (insert_key x p) (fun es r => es = [] /\ r = Some x \/ es = fault (DuplicateKey x) p /\ r = None) st.
Proof.
  intros Hx. eapply tells_of; [eapply spec_weak, insert_key_spec; eassumption|].
  intros s D Ds r s' Hk Hok E. unfold insert_key in E. rewrite plain_not_ill in E by assumption.
  destruct (existsb (bytes_eqb x) (ss_keys s)).
  - cbn in E. injection E as <- <-. eexists. split; [reflexivity|]. right. auto.
  - injection E as <- <-. exists []. rewrite app_nil_r. auto.
Qed.

Lemma tells_clear {X} (m : M (option X)) P st : tells m P st -> tells (_ <- clear_keys ;; m) P st.
Proof.
  intros H s D Ds Hk Hok. unfold bind at 1. cbn [clear_keys].
  destruct (H (mksstate (ss_stack s) [] (ss_errors s)) D Ds Hk Hok) as (r & s' & es & ds & H1 & H2).
  exists r, s', es, ds. auto.
Qed.

Lemma dict_tells fn lp here outer st kvs : vis here outer st ->
  Forall (fun kv => EF' (snd kv)) kvs -> all_of (fun kv => wf_name (fst kv) /\ wf_expr (snd kv)) kvs ->
  tells (items (fun kv =>
           k <- insert_key (fst (fst kv)) (snd (fst kv)) ;;
           v <- analyze_expr fn lp (snd kv) ;;
           ret (zip k v)) kvs)
    (agrees (flat_map (fun kv => expr_faults false fn lp here outer (snd kv)) kvs)
            (flat_map (fun kv => expr_faults true fn lp here outer (snd kv)) kvs)) st.
Proof.
  intros Hv HF Hwf. apply all_Forall in Hwf. apply tells_items.
  induction HF as [|kv kvs [H _] HF IH]; constructor; inversion Hwf as [|? ? [[Hn Hp] Hw] Hwf']; subst; auto.
  eapply (tells_bind _ _ _ (fun k es y => exists v, agrees (expr_faults false fn lp here outer (snd kv)) (expr_faults true fn lp here outer (snd kv)) es v /\ y = zip k v));
    [now apply insert_key_tells|..].
  - intros k. eapply (tells_bind _ _ _ (fun v es y => es = [] /\ y = zip k v)); [apply H; eassumption|intros; apply tells_ret; auto|].
    intros es1 v es2 y Hx [-> ->]. rewrite app_nil_r. eauto.
  - intros es1 k es2 y Hk (v & (A & B & C) & ->). destruct Hk as [[-> ->]|[-> ->]].
    + eapply ag_same; [split; [exact A|split; [exact B|exact C]]|]. gg.
    + cbn [app fault]. split; [constructor; [left; reflexivity|exact A]|]. split; [exact B|]. intros H'. inversion H' as [|? ? H0 _]. discriminate H0.
Qed.

Lemma self_tells p (lp : bool) here outer st : vis here outer st ->
  tells (ix <- resolve_self ;; ret (Some (XIdent ix p))) (exactly []) st.
Proof.
  intros Hv. eapply tells_of; [eapply spec_weak, (self_spec p lp); eassumption|].
  intros s D Ds r s' Hk Hok E. unfold bind, resolve_self in E. destruct (ss_stack s); [destruct Hok|]. destruct (frame_self f) as [ix f'].
  cbn in E. injection E as <- <-. exists []. rewrite app_nil_r. split; [reflexivity|apply ex_some].
Qed.

Lemma exprs_tells fn lp here outer st es : vis here outer st -> Forall EF' es -> all_of wf_expr es ->
  tells (items (analyze_expr fn lp) es)
    (agrees (flat_map (expr_faults false fn lp here outer) es) (flat_map (expr_faults true fn lp here outer) es)) st.
Proof.
  intros Hv HF Hwf. apply all_Forall in Hwf. apply tells_items.
  induction HF as [|e es [H _] HF IH]; constructor; inversion Hwf; subst; [apply H|]; auto.
Qed.

Lemma statements_tells fn lp outer ss : Forall SF ss -> all_of wf_statement ss -> forall here st, vis here outer st ->
  gtells (items (analyze_statement fn lp) ss)
    (agrees (sequence (statement_faults false fn lp outer) declares here ss) (sequence (statement_faults true fn lp outer) declares here ss))
    (fun _ => True) st.
Proof.
  intros HF Hwf. apply all_Forall in Hwf. induction HF as [|s ss Hs HF IH]; intros here st Hv.
  - cbn [items sequence]. eapply gtells_conseq; [eapply gtells_of; [apply tells_ret, (ag_nil (@nil xstatement))|eassumption]|auto|auto].
  - inversion Hwf as [|? ? Hw Hwf']; subst. specialize (IH Hwf'). cbn [items sequence].
    eapply (gtells_bind _ _ _ (fun x es y => exists xs, agrees (sequence (statement_faults false fn lp outer) declares (declares s ++ here) ss)
        (sequence (statement_faults true fn lp outer) declares (declares s ++ here) ss) es xs /\
        y = match x, xs with Some b, Some r => Some (b :: r) | _, _ => None end) _ (fun _ => True)); [apply Hs; eassumption|..].
    + intros st' x Hv' s0 D Ds Hk Hok. destruct (IH _ st' Hv' s0 D Ds Hk Hok) as (xs & s' & es & ds & H1 & H2 & H3 & H4 & H5 & H6).
      unfold bind. rewrite H1. eexists _, s', es, ds. split; [reflexivity|]. do 4 (split; [assumption|]). exists xs. split; [exact H6|destruct x; reflexivity].
    + intros es1 x es2 y Hx (xs & Hxs & ->). eapply ag_app; [exact Hx|exact Hxs|]. destruct x, xs; intuition congruence.
Qed.

Lemma assign_tells l r p fn lp here outer st :
  EF' l -> EF r -> wf_expr l -> wf_expr r -> vis here outer st ->
  tells (analyze_statement fn lp (SAssign l r p))
    (agrees (statement_faults false fn lp outer here (SAssign l r p)) (statement_faults true fn lp outer here (SAssign l r p))) st.
Proof.
  intros [Hl Hl'] Hr Wl Wr Hv. cbn [analyze_statement statement_faults].
  match goal with |- tells (bind ?m _) (agrees (?F1 ++ ?F2) (?G1 ++ ?G2)) _ =>
    enough (H : tells m (agrees F1 G1) st) by
      (eapply (tells_both _ _ (fun l r => match zip l r with Some (l, r) => Some (XAssign l r) | None => None end)); [exact H|apply Hr; eassumption|gg]) end.
  destruct l as [|q|x q|lt q|x q|es q|kvs q|ps b q|op e q|e1 op e2 q|c t e q|o f q|f args q|b q];
    try (apply tells_report, ag_report; cbn [behind app fault]; left; reflexivity).
  - cbn [wf_expr] in Wl. destruct Wl as [Wx Wq]. rewrite plain_not_ill by assumption. cbn [behind app expr_faults].
    eapply (tells_map _ (option_map _)); [|gg]. eapply tells_conseq; [apply (resolve_tells (here ++ outer)); [assumption|apply Hv]|].
    intros; now apply ag_ex; [apply incl_refl|].
  - cbn [wf_expr] in Wl. destruct Wl as (Wo & Wf & Wq). destruct Hl' as [Ho Hf]. cbn [behind app expr_faults].
    eapply (tells_both _ _ (fun o f => match zip o f with Some (o, f) => Some (LAccess o f q) | None => None end)); [apply Ho; eassumption|apply Hf; eassumption|gg].
Qed.

Lemma fault_trees : (forall e, EF' e) /\ (forall s, SF s) /\ (forall b, BF b).
Proof.
  apply tree_ind.
  - split; [|exact I]. intros fn lp here outer st [].
  - intros p. split; [|exact I]. intros fn lp here outer st Hw Hv. cbn [analyze_expr expr_faults]. destruct fn; cbn [unless].
    + eapply tells_conseq; [eapply (self_tells p lp); eassumption|]. intros; now apply ag_ex; [apply incl_refl|].
    + apply tells_report, ag_report. now left.
  - intros x p. split; [|exact I]. intros fn lp here outer st [Hx Hp] Hv. cbn [analyze_expr expr_faults]. rewrite plain_not_ill by assumption.
    eapply (tells_map _ (option_map _)); [|gg]. eapply tells_conseq; [apply (resolve_tells (here ++ outer)); [assumption|apply Hv]|].
    intros; now apply ag_ex; [apply incl_refl|].
  - intros l p. split; [|exact I]. intros fn lp here outer st Hw Hv. apply tells_ret, ag_nil.
  - intros x p. split; [|exact I]. intros fn lp here outer st [Hx Hp] Hv. cbn [analyze_expr expr_faults]. rewrite plain_not_ill by assumption.
    apply tells_ret, ag_nil.
  - intros es p HF. split; [|exact I]. intros fn lp here outer st [Hes Hp] Hv. cbn [analyze_expr expr_faults].
    eapply (tells_map _ (option_map _)); [eapply exprs_tells; eassumption|gg].
  - intros kvs p HF. split; [|exact I]. intros fn lp here outer st [Hes Hp] Hv. cbn [analyze_expr expr_faults].
    apply tells_clear. eapply (tells_map _ (option_map _)); [eapply dict_tells; eassumption|gg].
  - intros ps b p Hb. split; [|exact I]. intros fn lp here outer st (H1 & H2 & H3) Hv. now apply function_tells.
  - intros op e p [He _]. split; [|exact I]. intros fn lp here outer st (H1 & H2) Hv. now apply unary_tells.
  - intros l op r p [Hl _] [Hr _]. split; [|exact I]. intros fn lp here outer st (W1 & W2 & W3) Hv. cbn [analyze_expr expr_faults].
    eapply (tells_both _ _ (fun l r => match zip l r with Some (l, r) => Some (XBinary l op r p) | None => None end)); [apply Hl; eassumption|apply Hr; eassumption|gg].
  - intros c t e p [Hc _] Ht He. split; [|exact I]. intros fn lp here outer st Hw Hv.
    cbn [analyze_expr expr_faults]. cbn [wf_expr] in Hw. destruct Hw as (W1 & W2 & W3 & W4).
    assert (S2 := inner_tells t fn lp here outer st Ht W2 Hv). assert (S3 := inner_tells e fn lp here outer st He W3 Hv).
    match goal with |- tells (bind ?m _) (agrees (?F1 ++ ?F2 ++ ?F3) (?G1 ++ ?G2 ++ ?G3)) _ =>
      eapply (tells_bind _ _ _ (fun c' es y => exists t' e', agrees (F2 ++ F3) (G2 ++ G3) es (zip t' e') /\
         y = match zip c' (zip t' e') with Some (c, (t, e)) => Some (XIf c t e p) | None => None end)); [apply Hc; eassumption|..] end.
    + intros c'. eapply tells_ext; [intros s; apply enter_block_eq|].
      match goal with |- tells _ (fun es y => exists t' e', agrees (?F2 ++ ?F3) (?G2 ++ ?G3) _ _ /\ _) _ =>
      eapply (tells_bind _ _ _ (fun t' es y => exists e', agrees F3 G3 es e' /\
         y = match zip c' (zip t' e') with Some (c, (t, e)) => Some (XIf c t e p) | None => None end)); [exact S2|..] end.
      * intros t'. eapply tells_ext; [intros s; apply enter_block_eq|].
        eapply (tells_bind _ _ _ (fun e' es y => es = [] /\ y = match zip c' (zip t' e') with Some (c, (t, e)) => Some (XIf c t e p) | None => None end)); [exact S3|intros; apply tells_ret; auto|].
        intros es1 e' es2 y H [-> ->]. rewrite app_nil_r. eauto.
      * intros es1 t' es2 y Ht' (e' & He' & ->). exists t', e'. split; [|reflexivity]. eapply ag_app; [exact Ht'|exact He'|gg].
    + intros es1 c' es2 y Hc' (t' & e' & H & ->). eapply ag_app; [exact Hc'|exact H|gg].
  - intros o f p [Ho _] [Hf _]. split; [|split; assumption]. intros fn lp here outer st (W1 & W2 & W3) Hv. cbn [analyze_expr expr_faults].
    eapply (tells_both _ _ (fun l r => match zip l r with Some (l, r) => Some (XAccess l r p) | None => None end)); [apply Ho; eassumption|apply Hf; eassumption|gg].
  - intros f args p [Hf _] HF. split; [|exact I]. intros fn lp here outer st (W1 & W2 & W3) Hv. cbn [analyze_expr expr_faults].
    eapply (tells_both _ _ (fun l r => match zip l r with Some (l, r) => Some (XCall l r p) | None => None end)); [apply Hf; eassumption|eapply exprs_tells; eassumption|gg].
  - intros b p. split; [|exact I]. intros fn lp here outer st [W1 W2] Hv. cbn [analyze_expr expr_faults].
    eapply (tells_map _ (option_map _)); [|gg]. eapply tells_conseq; [eapply command_block_tells; [assumption|apply Hv]|].
    intros; now apply ag_ex; [apply command_block_incl|].
  - intros fn lp here outer st [].
  - (* let *)
    intros x e p [He _] fn lp here outer st (Hx & Hw & Hp) Hv. cbn [analyze_statement statement_faults declares app].
    eapply (gtells_bind _ _ _ (fun ix es y => exists e', agrees (expr_faults false fn lp (x :: here) outer e) (expr_faults true fn lp (x :: here) outer e) es e' /\
      y = match zip ix e' with Some (ix, init) => Some (XAssign (LIdent ix p) init) | None => None end) _ (vis (x :: here) outer)); [apply declare_tells; eassumption|..].
    + intros st' ix Hv'. apply gtells_of; [|assumption].
      eapply (tells_bind _ _ _ (fun e' es y => es = [] /\ y = match zip ix e' with Some (ix, init) => Some (XAssign (LIdent ix p) init) | None => None end));
        [apply He; eassumption|intros; apply tells_ret; auto|].
      intros es1 e' es2 y H [-> ->]. rewrite app_nil_r. eauto.
    + intros es1 ix es2 y Hi (e' & H & ->). eapply ag_app; [apply ag_ex; [apply incl_refl|exact Hi]|exact H|gg].
  - (* assignment *)
    intros l r p Hl [Hr _] fn lp here outer st (W1 & W2 & W3) Hv. cbn [declares app].
    apply gtells_of; [|assumption]. now apply assign_tells.
  - (* return *)
    intros e p [He _] fn lp here outer st (W1 & W2) Hv. cbn [declares app analyze_statement statement_faults].
    apply gtells_of; [|assumption].
    eapply (tells_both _ _ (fun ok e => match zip ok e with Some (_, e) => Some (XReturn e) | None => None end)); [|apply He; eassumption|gg].
    destruct fn; cbn [unless]; [apply tells_ret, ag_nil|apply tells_report, ag_report; now left].
  - (* break *)
    intros p fn lp here outer st Hw Hv. cbn [declares app analyze_statement statement_faults].
    apply gtells_of; [|assumption]. destruct lp; cbn [unless]; [apply tells_ret, ag_nil|apply tells_report, ag_report; now left].
  - (* while *)
    intros c b p [Hc _] Hb fn lp here outer st (W1 & W2 & W3) Hv. cbn [declares app analyze_statement statement_faults].
    assert (S2 := inner_tells b fn true here outer st Hb W2 Hv). apply gtells_of; [|assumption].
    eapply tells_ext; [|eapply (tells_both _ _ (fun c b => match zip c b with Some (c, b) => Some (XWhile c b) | None => None end)); [apply Hc; eassumption|exact S2|gg]].
    intros s. unfold bind at 1 5. destruct (analyze_expr fn lp c s) as [[r s1]|]; [|reflexivity]. apply enter_block_eq.
  - (* for *)
    intros x e b p [He _] Hb fn lp here outer st (W1 & W2 & W3 & W4) Hv. cbn [declares app analyze_statement statement_faults].
    rewrite plain_not_ill by assumption.
    assert (S2 := for_tells x p b fn here outer st Hb W3 W1 Hv). apply gtells_of; [|assumption].
    eapply tells_ext; [|eapply (tells_both _ _ (fun e ixb => match zip e ixb with Some (e, (ix, b)) => Some (XFor ix e b) | None => None end)); [apply He; eassumption|exact S2|gg]].
    intros s. unfold bind at 1 6. destruct (analyze_expr fn lp e s) as [[r s1]|]; [|reflexivity].
    unfold in_block, bind. destruct (enter_block s1) as [[[] s2]|]; [|reflexivity]. destruct (declare x p s2) as [[ix s3]|]; [|reflexivity].
    destruct (analyze_block fn true b s3) as [[b' s4]|]; [|reflexivity]. cbn [ret]. destruct (exit_block s4) as [[[] s5]|]; reflexivity.
  - (* expression *)
    intros e [He _] fn lp here outer st Hw Hv. cbn [declares app analyze_statement statement_faults].
    apply gtells_of; [|assumption]. eapply (tells_map _ (option_map _)); [apply He; eassumption|gg].
  - intros fn lp here outer st [].
  - intros ss HF fn lp here outer st Hw Hv. cbn [analyze_block block_faults]. now apply statements_tells.
Qed.

(** ** Whole programs *)

Lemma sema_faults b : wf_block b ->
  exists es, Forall (fun e => is_key_error e = true \/ In e (faults b)) es /\
    filter told es = filter told (shown_faults b) /\
    (Forall (fun e => is_key_error e = false) es -> es = shown_faults b) /\
    ((es = [] /\ exists p, sema b = SemaOk p) \/ (es <> [] /\ sema b = SemaErrors es)).
Proof.
  intros Hwf. destruct (sema_run b) as (r & s & f & E & Est & Hself & Eq).
  destruct (proj2 (proj2 fault_trees) b false false _ _ _ Hwf vis_start start [0] [] (kept_refl _) ok_start)
    as (r' & s' & es & ds & E' & Eerr & Hok & Hm & _ & A & B & C).
  rewrite E in E'. injection E' as <- <-. cbn [start ss_errors app] in Eerr. rewrite Eerr in Eq. exists es.
  split; [exact A|]. split; [exact B|]. split; [intros H; apply (C H)|]. rewrite Eq.
  destruct es as [|e es].
  - left. split; [reflexivity|]. destruct (C ltac:(constructor)) as [HG Hr]. destruct r as [ss|]; [eauto|].
    exfalso. apply (proj1 Hr eq_refl). symmetry. exact HG.
  - right. split; [discriminate|]. destruct r; reflexivity.
Qed.
