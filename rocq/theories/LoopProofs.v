(** The loop over an array. *)
From Coq Require Import Strings.String Lia.
From Verif Require Import Base Lexer Ast Parser Program Sema Value Text StdLib Exec Runtime SpecSema SpecProgram SemaTextProofs
  SpecRun SpecRuntime SpecLoop TextProofs FuelProofs SoundLibProofs SoundRunProofs.

Section Loop.
Context {W : Type}.
Variable X : ext W.
Variable O : os W.
Hypothesis HX : honest X.

Lemma nth_z_nat {A} (l : list A) k : nth_z l (Z.of_nat k) = nth_error l k.
Proof. unfold nth_z. destruct (Z.ltb_spec (Z.of_nat k) 0); [lia|]. rewrite Nat2Z.id. reflexivity. Qed.

(** A call of the iterator *)
Lemma iterator_call n p a st k (s : state W) :
  iter_get (st_heap s) st = ISInt (Z.of_nat k) ->
  ev_call (interp X O (S n)) VNil (FRust (NIterArr a st)) (length (st_args s)) p s =
    let h := st_heap s in
    match nth_error (arr_get h a) k with
    | Some v =>
        Val (VDict (length (h_dicts h)))
          (set_heap s (mkheap (h_cells h) (h_arrs h)
             (h_dicts h ++ [[(VStr (bs "finished"), VBool false); (VStr (bs "value"), v)]])
             (list_set (h_iters h) st (ISInt (Z.of_nat k + 1)))))
    | None =>
        Val (VDict (length (h_dicts h)))
          (set_heap s (mkheap (h_cells h) (h_arrs h) (h_dicts h ++ [[(VStr (bs "finished"), VBool true)]]) (h_iters h)))
    end.
Proof.
  intros I. unfold interp. cbn [run step ev_call call]. unfold bind, get, truncated. rewrite skipn_all. cbn [native_body].
  unfold lift. cbn [native_call iter_call]. rewrite I, nth_z_nat. cbv zeta.
  destruct (nth_error (arr_get (st_heap s) a) k) as [v|]; unfold iteration, new_dict, iter_set; cbn.
  - rewrite firstn_all. destruct s; reflexivity.
  - rewrite firstn_all. destruct s; reflexivity.
Qed.
Lemma bytes_same a : bytes_eqb a a = true.
Proof. apply TextProofs.bytes_eqb_eq. reflexivity. Qed.
(** Reading a field of the dict made by the iterator *)
Lemma field_first h n l k v d : dict_entries h l = (VStr k, v) :: d -> dict_get h (S n) l (VStr k) = Known (Some v).
Proof. intros D. unfold dict_get. rewrite D. cbn [hash_walk wbind find_entry eqv]. rewrite bytes_same. reflexivity. Qed.
Lemma field_second h n l k k' v v' d :
  dict_entries h l = (VStr k', v') :: (VStr k, v) :: d -> bytes_eqb k k' = false ->
  dict_get h (S n) l (VStr k) = Known (Some v).
Proof. intros D E. unfold dict_get. rewrite D. cbn [hash_walk wbind find_entry eqv]. rewrite E, bytes_same. reflexivity. Qed.
Lemma dict_entries_new cells arrs dicts d iters : dict_entries (mkheap cells arrs (dicts ++ [d]) iters) (length dicts) = d.
Proof. unfold dict_entries. cbn. rewrite app_nth2, Nat.sub_diag; [reflexivity|lia]. Qed.

Lemma for_round E n u ix g p b l v (s s1 : state W) :
  ev_call E VNil g (length (st_args s)) p s = Val (VDict l) s1 ->
  dict_entries (st_heap s1) l = [(VStr (bs "finished"), VBool false); (VStr (bs "value"), v)] ->
  eval_for E (S n) u ix g p b s =
    match store ix v s1 with
    | Val _ s2 =>
        match eval_block E u b s2 with
        | Val (Reg _) s3 => ev_for E u ix g p b s3
        | Val (Ret v) s3 => Val (Ret v) s3
        | Val Brk s3 => Val (Reg VNil) s3
        | o => o
        end
    | Pan e s2 => Pan e s2 | Exit z s2 => Exit z s2 | Crash c => Crash c | Fuel => Fuel
    end.
Proof.
  intros C D. unfold eval_for, bind, get. rewrite C. rewrite (field_first _ _ _ _ _ _ D). cbn [of_walk ret].
  rewrite (field_second _ _ _ _ _ _ _ _ D eq_refl). unfold of_walk, ret.
  destruct (store ix v s1) as [[] s2|e s2|z s2|c|]; try reflexivity.
  destruct (eval_block E u b s2) as [[] s3|e s3|z s3|c|]; reflexivity.
Qed.
Lemma for_finished E n u ix g p b l (s s1 : state W) :
  ev_call E VNil g (length (st_args s)) p s = Val (VDict l) s1 ->
  dict_entries (st_heap s1) l = [(VStr (bs "finished"), VBool true)] ->
  eval_for E (S n) u ix g p b s = Val (Reg VNil) s1.
Proof.
  intros C D. unfold eval_for, bind, get. rewrite C. rewrite (field_first _ _ _ _ _ _ D). reflexivity.
Qed.

Lemma for_in_order fn fr u ix a st p b :
  ix < fr -> each (valid_statement fn true fr) b ->
  forall n k s o, @sound_state (unmentioned st) W s -> fr <= length (st_stack s) ->
  st < length (h_iters (st_heap s)) -> iter_get (st_heap s) st = ISInt (Z.of_nat k) ->
  k <= length (arr_get (st_heap s) a) ->
  ev_for (interp X O n) u ix (FRust (NIterArr a st)) p b s = o -> o <> Fuel ->
  in_order (block_runs X O u b) a st ix k s o.
Proof.
  intros Hix Vb. pose (sc := unmentioned st).
  induction n as [|n IH]; intros k s o Hs Hfr Hst Hi Hk Ho Hnf; [cbn in Ho; congruence|].
  destruct n as [|n]; [cbn in Ho; congruence|].
  change (eval_for (interp X O (S n)) (S n) u ix (FRust (NIterArr a st)) p b s = o) in Ho.
  pose proof (iterator_call n p a st k s Hi) as C. cbv zeta in C.
  destruct (nth_error (arr_get (st_heap s) a) k) as [v|] eqn:N.
  - rewrite (for_round _ _ _ _ _ _ _ _ v _ _ C (dict_entries_new _ _ _ _ _)) in Ho. clear C.
    set (h1 := mkheap _ _ _ _) in Ho. set (s1 := set_heap s h1) in Ho.
    assert (Sv : @sound sc v).
    { apply nth_error_In in N. pose proof (@sound_arr sc (st_heap s) a) as F. rewrite Forall_forall in F.
      apply F; [apply Hs|exact N]. }
    assert (Ws1 : @sound_state sc W s1).
    { destruct Hs as (S1 & S2 & (S3 & S4 & S5 & S6) & S7). repeat split; try assumption; cbn.
      - apply Forall_app. split; [exact S5|]. repeat constructor. exact Sv.
      - apply Forall_list_set; [exact S6|exact I]. }
    destruct (store ix v s1) as [[] s2|e s2|z s2|c|] eqn:St.
    2:{ exfalso. unfold store in St. destruct (nth_error (st_stack s1) ix) as [[]|]; discriminate. }
    2:{ exfalso. unfold store in St. destruct (nth_error (st_stack s1) ix) as [[]|]; discriminate. }
    2:{ exfalso. unfold store in St. destruct (nth_error (st_stack s1) ix) as [[]|] eqn:Nx; try discriminate.
        apply nth_error_None in Nx. cbn in Nx. lia. }
    2:{ exfalso. unfold store in St. destruct (nth_error (st_stack s1) ix) as [[]|]; discriminate. }
    assert (Ws2 : @sound_state sc W s2).
    { destruct Ws1 as (S1 & S2 & S3 & S4). unfold store in St. destruct (nth_error (st_stack s1) ix) as [[id v0|c]|] eqn:Nx; inversion St; subst s2.
      - repeat split; try assumption; try apply S3. cbn. apply Forall_list_set; [exact S1|]. split; [exact I|exact Sv].
      - repeat split; try assumption; apply sound_cell_set; assumption. }
    assert (L2 : length (st_stack s2) = length (st_stack s)).
    { unfold store in St. destruct (nth_error (st_stack s1) ix) as [[]|]; inversion St; cbn; rewrite ?length_list_set; reflexivity. }
    assert (A2 : arr_get (st_heap s2) a = arr_get (st_heap s) a).
    { unfold store in St. destruct (nth_error (st_stack s1) ix) as [[]|]; inversion St; reflexivity. }
    assert (I2 : h_iters (st_heap s2) = h_iters h1).
    { unfold store in St. destruct (nth_error (st_stack s1) ix) as [[]|]; inversion St; reflexivity. }
    assert (Hfr2 : fr <= length (st_stack s2)) by lia.
    assert (B : begins a st ix k s s2).
    { exists v, s1. split; [exact N|]. split; [|exact St]. eexists _, _. reflexivity. }
    pose proof (good_block _ (good_run X O true false HX (S n)) sc u b fn true fr Vb s2 Ws2 Hfr2) as Gb.
    change (run X O true false (S n)) with (interp X O (S n)) in Gb.
    destruct (eval_block (interp X O (S n)) u b s2) as [f s3|e s3|z s3|c|] eqn:Eb; cbn in Gb.
    + destruct Gb as (sc3 & _ & [(S3 & (L3 & _) & ((_ & K3 & K4 & _) & Hsub & G1 & _) & _) _]).
      assert (Lt : st < length (h_iters (st_heap s2))) by (rewrite I2; cbn; rewrite length_list_set; exact Hst).
      assert (I3 : nth_error (h_iters (st_heap s3)) st = Some (ISInt (Z.of_nat (S k)))).
      { rewrite K3; [|cbn; tauto|exact Lt]. rewrite I2. cbn. rewrite nth_error_list_set, Nat.eqb_refl.
        destruct (nth_error (h_iters (st_heap s)) st) eqn:Q; [f_equal; f_equal; lia|apply nth_error_None in Q; lia]. }
      assert (Hs3 : sub sc3 sc).
      { split; [|cbn; auto]. intros i Hi3. destruct (G1 i Hi3) as [Hi4|Hi4]; [exact Hi4|]. cbn. lia. }
      destruct f as [w|w|].
      * destruct (Nat.eq_dec (length (arr_get (st_heap s3) a)) (length (arr_get (st_heap s) a))) as [Le|Ne].
        2:{ eapply io_resized; [exact B| |exact Ne]. split; [discriminate|]. eexists. exact Eb. }
        eapply io_next; [exact B|split; [discriminate|eexists; exact Eb]|exact Le|].
        apply IH; auto.
        -- exact (state_up Hs3 _ S3).
        -- lia.
        -- lia.
        -- unfold iter_get. apply nth_error_nth. exact I3.
        -- rewrite Le. assert (k < length (arr_get (st_heap s) a)) by (apply nth_error_Some; congruence). lia.
      * subst o. eapply io_left; [exact B|split; [discriminate|eexists; exact Eb]|exact I].
      * subst o. eapply io_break; [exact B|split; [discriminate|eexists; exact Eb]].
    + subst o. eapply io_left; [exact B|split; [discriminate|eexists; exact Eb]|exact I].
    + subst o. eapply io_left; [exact B|split; [discriminate|eexists; exact Eb]|exact I].
    + subst o. eapply io_left; [exact B|split; [discriminate|eexists; exact Eb]|exact I].
    + congruence.
  - rewrite (for_finished _ _ _ _ _ _ _ _ _ _ C (dict_entries_new _ _ _ _ _)) in Ho. subst o. apply io_end.
    + apply nth_error_None in N. lia.
    + eexists _, (ISInt (Z.of_nat k)). repeat f_equal.
      assert (Q : nth_error (h_iters (st_heap s)) st = Some (ISInt (Z.of_nat k))).
      { rewrite (nth_error_nth' _ (ISInt 0)) by exact Hst. f_equal. exact Hi. }
      clear -Q. revert st Q. induction (h_iters (st_heap s)) as [|x l IHl]; intros [|st] Q; cbn in *; try discriminate; [congruence|].
      f_equal. apply IHl, Q.
Qed.

(** ** States that mention what exists *)
Lemma inside_steps (s s' : state W) sc' :
  steps (within (length (h_iters (st_heap s))) (length (h_cells (st_heap s)))) sc' (st_heap s) (st_heap s') ->
  sub sc' (within (length (h_iters (st_heap s'))) (length (h_cells (st_heap s')))).
Proof.
  intros ((_ & _ & A & _ & B) & _ & C & D). split; cbn.
  - intros i Hi. destruct (C i Hi) as [H|H]; cbn in *; lia.
  - intros i Hi. destruct (D i Hi) as [H|H]; cbn in *; lia.
Qed.
Lemma initial_inside args (w : W) : inside (initial args w).
Proof.
  split; [constructor|]. split; [constructor|]. split; [|constructor].
  split; [constructor|]. split; [|split; [|constructor]].
  - repeat constructor. apply Forall_forall. intros v Hv. apply in_map_iff in Hv. destruct Hv as (x & <- & _). exact I.
  - cbn. unfold std_dicts. repeat constructor.
Qed.
Lemma statement_inside n u x fn lp k (s s' : state W) :
  valid_statement fn lp k x -> k <= length (st_stack s) -> inside s ->
  finishes (ev_statement (interp X O n) u x s) s' -> inside s'.
Proof.
  intros V K Hs F. pose proof (g_statement _ (good_run X O true false HX n) _ u x fn lp k V s Hs K) as G.
  unfold interp in F. destruct F as [a t|e t]; cbn in G.
  - destruct G as (sc' & _ & [(A & _ & B & _) _]). exact (state_up (inside_steps _ _ _ B) _ A).
  - destruct G as (sc' & (A & _ & B & _)). exact (state_up (inside_steps _ _ _ B) _ A).
Qed.
Lemma expr_inside n u x fn lp k (s s' : state W) r :
  valid_expr fn lp k x -> k <= length (st_stack s) -> inside s ->
  ev_expr (interp X O n) u x s = Val r s' -> inside s' /\ st_args s' = st_args s /\ length (st_stack s) <= length (st_stack s').
Proof.
  intros V K Hs F. pose proof (g_expr _ (good_run X O true false HX n) _ u x fn lp k V s Hs K) as G.
  unfold interp in F. rewrite F in G. cbn in G.
  destruct G as (sc' & _ & [(A & L & B & _) D]). split; [exact (state_up (inside_steps _ _ _ B) _ A)|]. split; [exact D|apply L].
Qed.
Lemma call_inside n obj f start p (s s' : state W) :
  @sound (within (length (h_iters (st_heap s))) (length (h_cells (st_heap s)))) obj ->
  @sound_func (within (length (h_iters (st_heap s))) (length (h_cells (st_heap s)))) f ->
  start <= length (st_args s) -> inside s ->
  finishes (ev_call (interp X O n) obj f start p s) s' -> inside s'.
Proof.
  intros So Sf St Hs F. pose proof (g_call _ (good_run X O true false HX n) _ obj f start p s So Sf Hs St) as G.
  unfold interp in F. destruct F as [a t|e t]; cbn in G.
  - destruct G as (sc' & _ & A & _ & B & _). exact (state_up (inside_steps _ _ _ B) _ A).
  - destruct G as (sc' & A & _ & B & _). exact (state_up (inside_steps _ _ _ B) _ A).
Qed.

Lemma program_inside src bl les pr n path args w (s' : state W) :
  analyze src = Analysis bl les [] -> sema bl = SemaOk pr ->
  finishes (run_program X O true false n path pr args w) s' -> inside s'.
Proof.
  intros A B F. pose proof (text_valid _ _ _ _ A B) as V.
  pose proof (program_ok X false (run X O true false n) (good_run X O true false HX n) _
    (mkuinfo 0 path) pr (initial args w) V (initial_inside args w)) as G.
  unfold run_program in F. destruct F as [v t|e t]; cbn in G.
  - destruct G as (sc' & _ & H1 & H2 & H3 & H4). exact (state_up (inside_steps (initial args w) _ _ H3) _ H1).
  - destruct G as (sc' & H1 & H2 & H3 & H4). exact (state_up (inside_steps (initial args w) _ _ H3) _ H1).
Qed.

Lemma sound_args sc s l : @sound_state sc W s -> Forall (@sound sc) l -> @sound_state sc W (set_args s l).
Proof. intros (A & B & C & D) H. repeat split; try assumption; apply C. Qed.

(** The call of [std.iter] on an array *)
Lemma iter_called n obj a p (s : state W) :
  ev_call (interp X O (S n)) obj (FRust (NStd SIter)) (length (st_args s)) p (set_args s (st_args s ++ [VArr a])) =
    Val (VFun (FRust (NIterArr a (length (h_iters (st_heap s))))))
      (set_heap s (mkheap (h_cells (st_heap s)) (h_arrs (st_heap s)) (h_dicts (st_heap s)) (h_iters (st_heap s) ++ [ISInt 0]))).
Proof.
  unfold interp. cbn [run step ev_call call]. unfold bind, get, truncated. cbn [set_args st_args].
  assert (F : skipn (length (st_args s)) (st_args s ++ [VArr a]) = [VArr a]).
  { rewrite skipn_app, skipn_all, Nat.sub_diag. reflexivity. }
  rewrite F. cbn [native_body]. unfold lift. cbn [native_call std_call new_iter]. cbn.
  rewrite firstn_app, firstn_all, Nat.sub_diag. cbn. rewrite app_nil_r. destruct s; reflexivity.
Qed.

Lemma agree_expr n m u e (s : state W) o : ev_expr (interp X O m) u e s = o -> o <> Fuel ->
  ev_expr (interp X O n) u e s = Fuel \/ ev_expr (interp X O n) u e s = o.
Proof.
  intros Ho Hnf. destruct (Nat.le_ge_cases n m) as [L|L].
  - pose proof (el_expr _ _ (run_le X O true false n m L) u e s) as [H|H]; [left|right; unfold interp in *; congruence]. exact H.
  - pose proof (el_expr _ _ (run_le X O true false m n L) u e s) as [H|H]; unfold interp in *; [congruence|right; congruence].
Qed.

Lemma for_statement fn lp fr m n u ix f e p b a (s s1 s2 : state W) o :
  inside s -> fr <= length (st_stack s) -> valid_statement fn lp fr (XFor ix (XCall f [e] p) b) ->
  gives X O m u f s (VFun (FRust (NStd SIter))) s1 -> gives X O m u e s1 (VArr a) s2 ->
  ev_statement (interp X O n) u (XFor ix (XCall f [e] p) b) s = o -> o <> Fuel ->
  let h := st_heap s2 in let st := length (h_iters h) in
  in_order (block_runs X O u b) a st ix 0
    (set_heap s2 (mkheap (h_cells h) (h_arrs h) (h_dicts h) (h_iters h ++ [ISInt 0]))) o.
Proof.
  intros Hs Hfr (Vix & (Vf & Ve & _) & Vb) (pf & of_ & Ef) (pe & oe & Ee) Ho Hnf. cbv zeta.
  destruct (expr_inside _ _ _ _ _ _ _ _ _ Vf Hfr Hs Ef) as (Hs1 & A1 & L1).
  assert (Hfr1 : fr <= length (st_stack s1)) by lia.
  destruct (expr_inside _ _ _ _ _ _ _ _ _ Ve Hfr1 Hs1 Ee) as (Hs2 & A2 & L2).
  assert (Hfr2 : fr <= length (st_stack s2)) by lia.
  destruct n as [|[|[|n]]]; try (cbn in Ho; congruence).
  set (k := S n) in *.
  assert (Ec : ev_expr (interp X O (S k)) u (XCall f [e] p) s = Fuel \/
    ev_expr (interp X O (S k)) u (XCall f [e] p) s =
      Val (Reg (VFun (FRust (NIterArr a (length (h_iters (st_heap s2)))))), at_ u p, VNil)
        (set_heap s2 (mkheap (h_cells (st_heap s2)) (h_arrs (st_heap s2)) (h_dicts (st_heap s2)) (h_iters (st_heap s2) ++ [ISInt 0])))).
  { unfold interp at 1 2. cbn [run step ev_expr eval_expr]. unfold prepare_call. cbn [push_args].
    destruct (agree_expr k m u f s _ Ef ltac:(discriminate)) as [H|H]; unfold interp in H.
    { left. unfold bind. rewrite H. reflexivity. }
    destruct (agree_expr k m u e s1 _ Ee ltac:(discriminate)) as [H'|H']; unfold interp in H'.
    { left. unfold bind, get. rewrite H. rewrite H'. reflexivity. }
    right. unfold bind, get, put, ret. rewrite H. rewrite H'.
    pose proof (iter_called n of_ a (at_ u p) s2) as C. unfold interp in C. fold k in C.
    replace (length (st_args s1)) with (length (st_args s2)) by congruence. rewrite C. reflexivity. }
  assert (Hrun : ev_statement (interp X O (S (S k))) u (XFor ix (XCall f [e] p) b) s =
     bind (ev_expr (interp X O (S k)) u (XCall f [e] p)) (fun '(f0, p0, _) => match f0 with
      | Reg (VFun g) => ev_for (interp X O (S k)) u ix g p0 b
      | Reg v => throw (PTypeError v (bs "function") p0)
      | f0 => ret f0 end) s) by reflexivity.
  rewrite Hrun in Ho. unfold bind in Ho.
  destruct Ec as [Ec|Ec]; rewrite Ec in Ho; [congruence|]. clear Hrun Ec.
  eapply for_in_order; [exact Vix|exact Vb| | | | |apply Nat.le_0_l|exact Ho|exact Hnf].
  - assert (Hsub : sub (within (length (h_iters (st_heap s2))) (length (h_cells (st_heap s2)))) (unmentioned (length (h_iters (st_heap s2))))).
    { split; cbn; intros; [lia|exact I]. }
    apply (state_up Hsub) in Hs2. destruct Hs2 as (S1 & S2 & (S3 & S4 & S5 & S6) & S7).
    repeat split; try assumption. cbn. apply Forall_app. split; [exact S6|repeat constructor].
  - exact Hfr2.
  - cbn. rewrite app_length. cbn. lia.
  - unfold iter_get. cbn. rewrite app_nth2, Nat.sub_diag; [reflexivity|lia].
Qed.

Lemma reached_inside : (forall args (w : W), inside (initial args w)) /\
  (forall n u x fn lp k (s s' : state W), valid_statement fn lp k x -> k <= length (st_stack s) -> inside s ->
     finishes (ev_statement (interp X O n) u x s) s' -> inside s') /\
  (forall src bl les pr n path args w (s' : state W), analyze src = Analysis bl les [] -> sema bl = SemaOk pr ->
     finishes (run_program X O true false n path pr args w) s' -> inside s').
Proof. split; [exact initial_inside|split; [intros; eapply statement_inside; eauto|exact program_inside]]. Qed.
End Loop.
