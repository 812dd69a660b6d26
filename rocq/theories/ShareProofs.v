(** Consequences of the simulation between captured variables and shared cells. *)
From Coq Require Import Strings.String Lia.
From Verif Require Import Base Lexer Ast Parser Program Sema Value Text StdLib Exec Runtime SpecLexer SpecParser SpecSema SpecProgram
  SpecRun SpecRuntime SoundLibProofs SemaShapeProofs SemaTextProofs SoundRunProofs RunProofs SpecShare ShareLibProofs ShareRunProofs.

Definition no_cells : scope := mkscope (fun _ => True) (fun _ => False).
Lemma initial_inv {W} args (w : W) : inv no_cells [] (initial args w).
Proof.
  split; cbn; auto; try contradiction.
  - repeat split; cbn; auto.
    + repeat constructor. apply Forall_forall. intros v Hv. apply in_map_iff in Hv. destruct Hv as (t & <- & _). exact I.
    + repeat constructor.
  - intros i x H. destruct i; discriminate.
  - intros i j x y H. destruct i; discriminate.
Qed.
Lemma initial_tidy {W} args (w : W) : tidy (initial args w).
Proof. exists no_cells, []. apply initial_inv. Qed.

Lemma wide_now {W} sc cs (s : state W) ix : inv sc cs s -> slot_now s ix = slot_now (wide cs s) ix.
Proof.
  intros Is. unfold slot_now. rewrite wide_slot. destruct (nth_error (st_stack s) ix) as [x|] eqn:E; [|reflexivity]. cbn. f_equal.
  symmetry. apply (slot_same sc cs s ix x Is E).
Qed.
Lemma wide_rest {W} cs (s : state W) : same_rest s (wide cs s).
Proof. repeat split. Qed.
Lemma sim_alike {W A} sc (R : scope -> A -> Prop) (o o' : outcome (state W) A) : sim_out sc R o o' -> alike o o'.
Proof.
  destruct o as [a s|p s|z s|c|]; cbn.
  - intros (sc' & cs & _ & I1 & _ & ->). split; [reflexivity|]. split; [apply wide_rest|]. intros ix. apply (wide_now sc' cs s ix I1).
  - intros (sc' & cs & _ & I1 & ->). split; [reflexivity|]. split; [apply wide_rest|]. intros ix. apply (wide_now sc' cs s ix I1).
  - intros (cs & ->). split; [reflexivity|apply wide_rest].
  - intros ->. reflexivity.
  - intros ->. exact I.
Qed.
Lemma sim_tidy {W A} sc (R : scope -> A -> Prop) (o o' : outcome (state W) A) s : sim_out sc R o o' -> finishes o s -> tidy s.
Proof.
  intros H F. destruct F as [a s|p s]; cbn in H.
  - destruct H as (sc' & cs & _ & I1 & _). exists sc', cs. exact I1.
  - destruct H as (sc' & cs & _ & I1 & _). exists sc', cs. exact I1.
Qed.

Theorem shared_program {W} (X : ext W) (O : os W) : honest X -> blind X ->
  forall src b les pr tail n path args w, analyze src = Analysis b les [] -> sema b = SemaOk pr ->
  alike (run_program X O tail false n path pr args w) (run_program X O tail true n path pr args w).
Proof.
  intros HX BX src b les pr tail n path args w A S. unfold run_program.
  pose proof (sim_program X _ _ (sims_run X O tail HX BX n) no_cells (mkuinfo 0 path) pr (text_valid _ _ _ _ A S) []
    (initial args w) (initial_inv args w)) as H.
  apply sim_alike in H. exact H.
Qed.

Theorem reached_tidy {W} (X : ext W) (O : os W) : honest X -> blind X ->
  (forall args (w : W), tidy (initial args w)) /\
  (forall n u x fn lp k (s s' : state W), valid_statement fn lp k x -> tidy s ->
     finishes (ev_statement (interp X O n) u x s) s' -> tidy s') /\
  (forall src bl les pr n path args w (s' : state W), analyze src = Analysis bl les [] -> sema bl = SemaOk pr ->
     finishes (run_program X O true false n path pr args w) s' -> tidy s').
Proof.
  intros HX BX. split; [apply @initial_tidy|]. split.
  - intros n u x fn lp k s s' V (sc & cs & Is) F.
    exact (sim_tidy _ _ _ _ _ (s_statement _ _ (sims_run X O true HX BX n) sc u x fn lp k V cs s Is) F).
  - intros src bl les pr n path args w s' A S F.
    exact (sim_tidy _ _ _ _ _ (sim_program X _ _ (sims_run X O true HX BX n) no_cells (mkuinfo 0 path) pr (text_valid _ _ _ _ A S) []
      (initial args w) (initial_inv args w)) F).
Qed.

(** ** Assignments *)
Lemma store_seen {W} i v (s s' : state W) x : tidy s -> nth_error (st_stack s) i = Some x -> store i v s = Val tt s' ->
  (forall j y, nth_error (st_stack s) j = Some y ->
     slot_now s' j = if Nat.eqb (slot_id y) (slot_id x) then Some v else slot_now s j) /\
  (forall c, cell_get (st_heap s') c = match x with Closed c' => if Nat.eqb c c' then v else cell_get (st_heap s) c | _ => cell_get (st_heap s) c end).
Proof.
  intros (sc & cs & Is) E H. unfold store in H. rewrite E in H. pose proof (i_slot _ _ _ Is _ _ E) as S.
  destruct (slot_same sc cs s i x Is E) as [_ L]. destruct x as [id u|c]; injection H as <-.
  - split; [|reflexivity]. intros j y Ej. unfold slot_now. cbn [st_stack set_stack st_heap slot_id].
    destruct (Nat.eq_dec i j) as [<-|N].
    + rewrite (nth_error_set_same _ _ _ _ E). rewrite Ej in E. injection E as ->. cbn. rewrite Nat.eqb_refl. reflexivity.
    + rewrite nth_error_set_other by exact N. destruct (Nat.eqb_spec (slot_id y) id) as [Q|]; [|reflexivity].
      destruct (i_apart _ _ _ Is i j _ y E Ej (eq_sym Q)); [contradiction|]. destruct S. contradiction.
  - assert (C : forall c', cell_get (cell_set (st_heap s) c v) c' = if Nat.eqb c' c then v else cell_get (st_heap s) c').
    { intros c'. unfold cell_get. cbn. rewrite (i_length _ _ _ Is) in L. destruct (Nat.eqb_spec c' c) as [->|N].
      - apply nth_set_same, L.
      - apply nth_set_other. congruence. }
    split; [|exact C]. intros j y Ej. unfold slot_now. cbn [st_stack set_heap st_heap slot_id]. rewrite Ej. cbn [option_map].
    destruct y as [id u|c']; cbn [slot_value slot_id].
    + destruct (Nat.eqb_spec id c) as [->|]; [|reflexivity]. destruct (i_slot _ _ _ Is _ _ Ej) as [K _]. contradiction.
    + rewrite C. destruct (Nat.eqb c' c); reflexivity.
Qed.

(** ** Closures *)
Lemma capture_seen {W} ix c (s s' : state W) : tidy s -> capture ix s = Val c s' ->
  tidy s' /\ nth_error (st_stack s') ix = Some (Closed c) /\
  (forall j d, nth_error (st_stack s) j = Some (Closed d) -> nth_error (st_stack s') j = Some (Closed d)) /\
  (forall j, slot_now s' j = slot_now s j).
Proof.
  intros (sc & cs & Is) H. pose proof (sim_capture sc ix cs s Is) as S.
  split; [apply (sim_tidy _ _ _ _ s' S); rewrite H; constructor|].
  unfold capture in H. destruct (nth_error (st_stack s) ix) as [x|] eqn:E; [|discriminate].
  destruct (slot_same sc cs s ix x Is E) as [_ L].
  destruct x as [id v|c']; injection H as <- <-; [|auto]. cbn [st_stack set_heap set_stack].
  split; [apply (nth_error_set_same _ _ _ _ E)|]. split.
  - intros j d Ej. destruct (Nat.eq_dec ix j) as [<-|N]; [congruence|]. rewrite nth_error_set_other by exact N. exact Ej.
  - intros j. unfold slot_now. cbn [st_stack set_heap set_stack st_heap]. destruct (Nat.eq_dec ix j) as [<-|N].
    + rewrite (nth_error_set_same _ _ _ _ E), E. cbn. f_equal. unfold cell_get. cbn. apply nth_set_same.
      rewrite <- (i_length _ _ _ Is). exact L.
    + rewrite nth_error_set_other by exact N. destruct (nth_error (st_stack s) j) as [y|] eqn:Ej; [|reflexivity]. cbn. f_equal.
      destruct y as [id' u|c']; [reflexivity|]. cbn. unfold cell_get. cbn. apply nth_set_other. intros <-.
      pose proof (i_slot _ _ _ Is _ _ E) as [K _]. pose proof (i_slot _ _ _ Is _ _ Ej) as K'. contradiction.
Qed.
Lemma capture_all_seen {W} l : forall ctx (s s' : state W), tidy s -> capture_all l s = Val ctx s' ->
  Forall2 (fun c x => snd x = cap_to c /\ nth_error (st_stack s') (cap_from c) = Some (Closed (fst x))) l ctx /\
  (forall j d, nth_error (st_stack s) j = Some (Closed d) -> nth_error (st_stack s') j = Some (Closed d)) /\
  (forall j, slot_now s' j = slot_now s j).
Proof.
  induction l as [|c l IH]; intros ctx s s' T H; cbn [capture_all] in H.
  - injection H as <- <-. split; [constructor|]. auto.
  - unfold bind at 1 in H. destruct (capture (cap_from c) s) as [x s1| | | |] eqn:C; try discriminate.
    destruct (capture_seen _ _ _ _ T C) as (T1 & A1 & A2 & A3).
    unfold bind in H. destruct (capture_all l s1) as [r s2| | | |] eqn:R; try discriminate. injection H as <- <-.
    destruct (IH _ _ _ T1 R) as (B1 & B2 & B3). split; [constructor; [|exact B1]; split; [reflexivity|apply B2, A1]|].
    split; [auto|]. intros j. rewrite B3. apply A3.
Qed.
Theorem closure_shares {W} (X : ext W) (O : os W) n u params fi body p (s s' : state W) v : tidy s ->
  gives X O n u (XFunction params fi body p) s v s' ->
  exists ctx, v = VFun (FHush (u_number u) params fi body ctx (at_ u p)) /\
    Forall2 (fun c x => snd x = cap_to c /\ nth_error (st_stack s') (cap_from c) = Some (Closed (fst x))) (fi_captures fi) ctx /\
    (forall j d, nth_error (st_stack s) j = Some (Closed d) -> nth_error (st_stack s') j = Some (Closed d)) /\
    (forall j, slot_now s' j = slot_now s j).
Proof.
  intros T (q & obj & H). destruct n as [|n]; [discriminate|]. unfold interp in H. cbn [run step ev_expr eval_expr] in H.
  unfold bind in H. destruct (capture_all (fi_captures fi) s) as [ctx s1| | | |] eqn:C; try discriminate. injection H as <- <- <- <-.
  exists ctx. split; [reflexivity|]. exact (capture_all_seen _ _ _ _ T C).
Qed.

(** ** Calls *)
Lemma place_seen {W} ix c (s s' : state W) : place ix c s = Val tt s' ->
  nth_error (st_stack s') ix = Some (Closed c) /\ (forall j, j <> ix -> nth_error (st_stack s') j = nth_error (st_stack s) j).
Proof.
  unfold place. destruct (nth_error (st_stack s) ix) as [x|] eqn:E; [|discriminate]. intros [= <-]. cbn.
  split; [apply (nth_error_set_same _ _ _ _ E)|]. intros j N. apply nth_error_set_other. congruence.
Qed.
Lemma place_all_seen {W} l : forall (s s' : state W), NoDup (map snd l) -> place_all l s = Val tt s' ->
  Forall (fun x => nth_error (st_stack s') (snd x) = Some (Closed (fst x))) l /\
  (forall j, ~ In j (map snd l) -> nth_error (st_stack s') j = nth_error (st_stack s) j).
Proof.
  induction l as [|[c ix] l IH]; intros s s' N H; cbn [place_all] in H.
  - injection H as <-. split; [constructor|auto].
  - unfold bind in H. destruct (place ix c s) as [[] s1| | | |] eqn:P; try discriminate. destruct (place_seen _ _ _ _ P) as [A1 A2].
    inversion N; subst. destruct (IH _ _ H3 H) as [B1 B2]. split.
    + constructor; [|exact B1]. cbn. rewrite B2 by assumption. exact A1.
    + cbn. intros j Hj. rewrite B2 by tauto. apply A2. intros ->. tauto.
Qed.

(** New variables are not those of anything there is. *)
Lemma tidy_first {W} sc cs (s : state W) : inv sc cs s -> sub sc (first_cells (length (h_cells (st_heap s)))).
Proof. intros Is. split; [cbn; auto|]. intros c Hc. cbn. rewrite <- (i_length _ _ _ Is). apply (i_cell _ _ _ Is c Hc). Qed.
Theorem new_variables {W} (X : ext W) k p (s s' : state W) : tidy s -> Runtime.extend X false k p s = Val tt s' ->
  let n := length (h_cells (st_heap s)) in
  @sound_state (first_cells n) W s /\ tidy s' /\ skipn k (st_stack s') = st_stack s /\
  forall i, i < k -> nth_error (st_stack s') i = Some (Regular (n + i) VNil).
Proof.
  intros (sc & cs & Is) H n. pose proof (sim_extend X sc k p cs s Is) as S.
  split; [|split; [apply (sim_tidy _ _ _ _ s' S); rewrite H; constructor|]].
  - pose proof (tidy_first _ _ _ Is) as U. fold n in U. split; [|split; [exact (values_up U _ (i_args _ _ _ Is))|split]].
    + apply Forall_forall. intros x Hx. apply In_nth_error in Hx. destruct Hx as [i Hi]. pose proof (i_slot _ _ _ Is _ _ Hi) as T.
      destruct x as [id v|c]; [|apply U, T]. destruct T as (_ & T2 & T3). split; [cbn; unfold n; rewrite <- (i_length _ _ _ Is); exact T2|].
      rewrite <- T3. apply (sound_up U). exact (cells_sound sc cs s id Is).
    + exact (heap_up U _ (i_heap _ _ _ Is)).
    + eapply Forall_impl; [|exact (i_modules _ _ _ Is)]. intros m. apply (sound_up U).
  - unfold Runtime.extend in H. destruct (overflows X _); [discriminate|]. injection H as <-. cbn [st_stack].
    assert (L : length (map (new_slot false) (seq (length (h_cells (st_heap s))) k)) = k) by (rewrite map_length, seq_length; reflexivity).
    split; [rewrite <- L at 1; apply map_app_skip|]. intros i Hi. rewrite nth_error_app1 by (rewrite L; exact Hi).
    destruct (nth_error (map (new_slot false) (seq (length (h_cells (st_heap s))) k)) i) as [x|] eqn:E.
    + apply nth_error_seq_map in E. destruct E as [-> _]. reflexivity.
    + apply nth_error_None in E. rewrite L in E. lia.
Qed.

Lemma store_all_seen {W} base l : forall ix (s : state W),
  (forall j, ix <= j < ix + length l -> exists v, nth_error (st_stack s) j = Some (Regular (base + j) v)) ->
  exists st, store_all ix l s = Val tt (set_stack s st) /\ length st = length (st_stack s) /\
    (forall j v, nth_error l j = Some v -> nth_error st (ix + j) = Some (Regular (base + (ix + j)) v)) /\
    (forall j, j < ix \/ ix + length l <= j -> nth_error st j = nth_error (st_stack s) j).
Proof.
  induction l as [|v l IH]; intros ix s H.
  - exists (st_stack s). split; [destruct s; reflexivity|]. split; [reflexivity|]. split; [intros [|j] v; discriminate|auto].
  - cbn [store_all length] in *. destruct (H ix) as [u E]; [lia|]. unfold bind, store. rewrite E.
    set (s1 := set_stack s (list_set (st_stack s) ix (Regular (base + ix) v))).
    destruct (IH (S ix) s1) as (st & A1 & A2 & A3 & A4).
    { intros j Hj. unfold s1. cbn. rewrite nth_error_set_other by lia. apply H. lia. }
    exists st. split; [exact A1|]. split; [rewrite A2; apply length_list_set|]. split.
    + intros [|j] w Hw; cbn in Hw.
      * injection Hw as <-. rewrite Nat.add_0_r, A4 by lia. apply (nth_error_set_same _ _ _ _ E).
      * replace (ix + S j) with (S ix + j) by lia. apply A3, Hw.
    + intros j Hj. rewrite A4 by lia. apply nth_error_set_other. lia.
Qed.

(** The state in which the body of a function begins *)
Theorem call_begins {W} (X : ext W) (O : os W) n obj unit k params fi body ctx fp start p (s : state W) :
  tidy s -> valid_frame k params fi -> map snd ctx = map cap_to (fi_captures fi) -> Forall (fun x => snd x < fi_slots fi) ctx ->
  length (skipn start (st_args s)) = params -> overflows X (length (st_stack s) + fi_slots fi) = false ->
  exists s1,
    ev_call (interp X O (S n)) obj (FHush unit params fi body ctx fp) start p s =
      bind (eval_body true (interp X O n) (mkuinfo unit (sp_path fp)) (fi_slots fi) body)
        (fun f => match f with Reg v | Ret v => ret v | Brk => crash_with CFlow end) s1 /\
    length (st_stack s1) = fi_slots fi + length (st_stack s) /\
    (forall j x, nth_error (st_stack s) j = Some x -> nth_error (st_stack s1) (fi_slots fi + j) = Some x) /\
    Forall (fun x => nth_error (st_stack s1) (snd x) = Some (Closed (fst x))) ctx /\
    (forall i, i < fi_slots fi -> ~ In i (map snd ctx) -> nth_error (st_stack s1) i =
       Some (Regular (length (h_cells (st_heap s)) + i)
         (if match fi_self fi with Some self => Nat.eqb i self | None => false end then obj
          else nth i (skipn start (st_args s)) VNil))).
Proof.
  intros T (V1 & V2 & V3 & V4) Ec Lc La Ov. unfold interp. cbn [run step ev_call call]. unfold call_hush. cbn [bind get put].
  rewrite La, Nat.eqb_refl. set (s0 := set_args s (firstn start (st_args s))). unfold bind at 1.
  destruct (Runtime.extend X false (fi_slots fi) p s0) as [[] s1| | | |] eqn:Ex;
    try (unfold Runtime.extend, s0 in Ex; cbn [st_stack set_args] in Ex; rewrite Ov in Ex; discriminate).
  assert (Ex1 : (forall i, i < fi_slots fi -> nth_error (st_stack s1) i = Some (Regular (length (h_cells (st_heap s)) + i) VNil)) /\
    skipn (fi_slots fi) (st_stack s1) = st_stack s /\ length (st_stack s1) = fi_slots fi + length (st_stack s)).
  { assert (T0 : tidy s0). { destruct T as (sc & cs & Is). exists sc, cs. apply inv_args; [exact Is|]. apply Forall_firstn, Is. }
    destruct (new_variables X (fi_slots fi) p s0 s1 T0 Ex) as (_ & _ & A & B). split; [exact B|]. split; [exact A|].
    unfold Runtime.extend, s0 in Ex; cbn [st_stack set_args] in Ex. rewrite Ov in Ex. injection Ex as <-. cbn.
    rewrite app_length, map_length, seq_length. reflexivity. }
  destruct Ex1 as (E1 & E2 & E3).
  destruct (store_all_seen (length (h_cells (st_heap s))) (skipn start (st_args s)) 0 s1) as (st2 & A1 & A2 & A3 & A4).
  { intros j Hj. exists VNil. apply E1. lia. }
  unfold bind at 1. rewrite A1. set (s2 := set_stack s1 st2).
  assert (B0 : forall i, i < fi_slots fi -> nth_error (st_stack s2) i = Some (Regular (length (h_cells (st_heap s)) + i) (nth i (skipn start (st_args s)) VNil))).
  { intros i Hi. unfold s2. cbn. destruct (nth_error (skipn start (st_args s)) i) as [v|] eqn:Ei.
    - etransitivity; [exact (A3 i v Ei)|]. cbn. f_equal. f_equal. symmetry. apply nth_error_nth, Ei.
    - apply nth_error_None in Ei. rewrite A4 by lia. rewrite E1 by exact Hi. f_equal. f_equal. symmetry. apply nth_overflow, Ei. }
  assert (N : NoDup (map snd ctx)). { rewrite Ec. clear - V3. induction (map cap_to (fi_captures fi)) as [|x l IH]; [constructor|]. inversion V3; subst.
    constructor; [intros Hin; apply H1, in_or_app; left; exact Hin|apply IH; assumption]. }
  assert (PL : exists s3, place_all ctx s2 = Val tt s3 /\ length (st_stack s3) = length (st_stack s2)).
  { assert (L2 : fi_slots fi <= length (st_stack s2)) by (unfold s2; cbn; lia). clearbody s2. clear - Lc L2.
    revert s2 L2. induction Lc as [|[c ix] l H Hl IH]; intros s2 L2; cbn [place_all]; [exists s2; split; reflexivity|].
    unfold bind, place. cbn in H. destruct (nth_error (st_stack s2) ix) as [x|] eqn:Ex; [|apply nth_error_None in Ex; lia].
    destruct (IH (set_stack s2 (list_set (st_stack s2) ix (Closed c)))) as (s3 & P1 & P2); [cbn; rewrite length_list_set; exact L2|].
    exists s3. split; [exact P1|]. rewrite P2. cbn. apply length_list_set. }
  destruct PL as (s3 & P1 & P2). destruct (place_all_seen ctx s2 s3 N P1) as [P3 P4]. unfold bind at 1. rewrite P1.
  assert (L3 : length (st_stack s3) = fi_slots fi + length (st_stack s)) by (rewrite P2; unfold s2; cbn; lia).
  assert (K3 : forall j x, nth_error (st_stack s) j = Some x -> nth_error (st_stack s3) (fi_slots fi + j) = Some x).
  { intros j x Hj. rewrite P4.
    - unfold s2. cbn. rewrite A4 by lia. rewrite <- nth_error_skipn, E2. exact Hj.
    - intros Hin. apply in_map_iff in Hin. destruct Hin as (y & Ey & Hy). rewrite Forall_forall in Lc. specialize (Lc y Hy). cbn in Lc. unfold slot, loc in *. lia. }
  destruct (fi_self fi) as [self|].
  - inversion V4 as [|? ? Vs _]; subst. cbn [option_list] in V3.
    assert (Ns : ~ In self (map snd ctx)).
    { rewrite Ec. intros Hin. apply NoDup_remove_2 in V3. rewrite app_nil_r in V3. contradiction. }
    pose proof (B0 self (proj2 Vs)) as Es. rewrite <- P4 in Es by exact Ns. unfold bind at 1, store. rewrite Es.
    eexists. split; [reflexivity|]. cbn [st_stack set_stack]. rewrite length_list_set. split; [exact L3|]. split; [|split].
    + intros j x Hj. rewrite nth_error_set_other by lia. apply K3, Hj.
    + apply Forall_forall. intros x Hx. rewrite nth_error_set_other.
      * rewrite Forall_forall in P3. apply P3, Hx.
      * intros ->. apply Ns, in_map, Hx.
    + intros i Hi Ni. destruct (Nat.eqb_spec i self) as [->|Nis].
      * apply (nth_error_set_same _ _ _ _ Es).
      * rewrite nth_error_set_other by congruence. rewrite P4 by exact Ni. apply B0, Hi.
  - exists s3. split; [reflexivity|]. split; [exact L3|]. split; [exact K3|]. split; [exact P3|].
    intros i Hi Ni. rewrite P4 by exact Ni. apply B0, Hi.
Qed.

(** ** Which variable a closure captures *)
Lemma later_slots {W} (X : ext W) (O : os W) s s' : honest X -> later X O s s' -> @sound_state anything W s ->
  (st_leaked s = true -> st_leaked s' = true) /\
  (st_leaked s' = false -> map slot_id (st_stack s') = map slot_id (st_stack s)).
Proof.
  intros HX L. induction L as [s|n u st fn lp k s s1 s2 V K F L IH|n obj f start p s s1 s2 So Sf St F L IH]; intros Hs; [auto| |].
  - assert (H : @sound_state anything W s1 /\ stk k s s1).
    { pose proof (g_statement _ (good_run X O true false HX n) anything u st fn lp k V s Hs K) as G.
      destruct F as [a t|e t]; cbn in G.
      - destruct G as (sc' & _ & [(A & B & _) _]). split; [exact (state_up (sub_anything sc') _ A)|exact B].
      - destruct G as (sc' & A & B & _). split; [exact (state_up (sub_anything sc') _ A)|exact B]. }
    destruct H as [H1 (_ & H2 & H3)]. destruct (IH H1) as [H4 H5]. split; [auto|]. intros Q. rewrite (H5 Q).
    apply H3. destruct (st_leaked s1); [rewrite H4 in Q; auto|reflexivity].
  - assert (H : @sound_state anything W s1 /\ stk 0 s s1).
    { pose proof (g_call _ (good_run X O true false HX n) anything obj f start p s So Sf Hs St) as G.
      destruct F as [a t|e t]; cbn in G.
      - destruct G as (sc' & _ & A & B & _). split; [exact (state_up (sub_anything sc') _ A)|exact B].
      - destruct G as (sc' & A & B & _). split; [exact (state_up (sub_anything sc') _ A)|exact B]. }
    destruct H as [H1 (_ & H2 & H3)]. destruct (IH H1) as [H4 H5]. split; [auto|]. intros Q. rewrite (H5 Q).
    apply H3. destruct (st_leaked s1); [rewrite H4 in Q; auto|reflexivity].
Qed.

Lemma capture_ids {W} ix c (s s' : state W) : capture ix s = Val c s' ->
  option_map slot_id (nth_error (st_stack s) ix) = Some c /\ map slot_id (st_stack s') = map slot_id (st_stack s).
Proof.
  unfold capture. destruct (nth_error (st_stack s) ix) as [[id v|c']|] eqn:E; [| |discriminate]; intros [= <- <-].
  - split; [reflexivity|]. cbn [st_stack set_heap set_stack]. clear - E. revert ix E.
    induction (st_stack s) as [|y l IH]; intros [|ix] E; try discriminate; cbn in *.
    + injection E as ->. reflexivity.
    + f_equal. apply IH, E.
  - split; reflexivity.
Qed.
Lemma capture_all_ids {W} l : forall ctx (s s' : state W), capture_all l s = Val ctx s' ->
  Forall2 (fun c x => nth_error (map slot_id (st_stack s)) (cap_from c) = Some (fst x)) l ctx.
Proof.
  induction l as [|c l IH]; intros ctx s s' H; cbn [capture_all] in H.
  - injection H as <- <-. constructor.
  - unfold bind at 1 in H. destruct (capture (cap_from c) s) as [x s1| | | |] eqn:C; try discriminate.
    apply capture_ids in C. destruct C as [C1 C2].
    unfold bind in H. destruct (capture_all l s1) as [r s2| | | |] eqn:R; try discriminate. injection H as <- <-.
    apply IH in R. rewrite C2 in R. constructor; [|exact R]. rewrite nth_error_map. exact C1.
Qed.

Theorem activation_variable {W} (X : ext W) (O : os W) : honest X ->
  forall n u params fi body p (s s1 s2 : state W) v, @sound_state anything W s -> later X O s s1 -> st_leaked s1 = false ->
  gives X O n u (XFunction params fi body p) s1 v s2 ->
  exists ctx, v = VFun (FHush (u_number u) params fi body ctx (at_ u p)) /\
    Forall2 (fun c x => option_map slot_id (nth_error (st_stack s) (cap_from c)) = Some (fst x)) (fi_captures fi) ctx.
Proof.
  intros HX n u params fi body p s s1 s2 v Hs L Q (q & obj & H). destruct n as [|n]; [discriminate|].
  unfold interp in H. cbn [run step ev_expr eval_expr] in H.
  unfold bind in H. destruct (capture_all (fi_captures fi) s1) as [ctx t| | | |] eqn:C; try discriminate. injection H as <- <- <- <-.
  exists ctx. split; [reflexivity|]. apply capture_all_ids in C.
  destruct (later_slots X O _ _ HX L Hs) as [_ E]. rewrite (E Q) in C.
  clear - C. induction C as [|c x l r C1 C2 IH]; constructor; [|exact IH]. rewrite <- nth_error_map. exact C1.
Qed.

Theorem calls_apart {W} (X : ext W) (O : os W) : honest X ->
  forall n u params fi body p k q (s s0 s1 s2 s3 : state W) v i,
  tidy s -> Runtime.extend X false k q s = Val tt s0 -> i < k -> @sound_state anything W s1 ->
  option_map slot_id (nth_error (st_stack s1) i) = option_map slot_id (nth_error (st_stack s0) i) ->
  later X O s1 s2 -> st_leaked s2 = false -> gives X O n u (XFunction params fi body p) s2 v s3 ->
  exists ctx, v = VFun (FHush (u_number u) params fi body ctx (at_ u p)) /\
    Forall2 (fun c x => cap_from c = i -> ~ @sc_cell (first_cells (length (h_cells (st_heap s)))) (fst x)) (fi_captures fi) ctx /\
    @sound_state (first_cells (length (h_cells (st_heap s)))) W s.
Proof.
  intros HX n u params fi body p k q s s0 s1 s2 s3 v i T E Hi Hs Q L K G.
  destruct (new_variables X k q s s0 T E) as (A & _ & _ & B).
  destruct (activation_variable X O HX n u params fi body p s1 s2 s3 v Hs L K G) as (ctx & -> & C).
  exists ctx. split; [reflexivity|]. split; [|exact A]. rewrite (B i Hi) in Q. cbn in Q.
  clear - C Q. induction C as [|c x l r C1 C2 IH]; constructor; [|exact IH]. intros <-. rewrite Q in C1. injection C1 as <-. cbn. lia.
Qed.
