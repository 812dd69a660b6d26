(** Whatever is evaluated, a panic names a place of the code that was loaded. *)
From Coq Require Import Strings.String.
From Verif Require Import Base Lexer Ast Parser Program Sema Value Text StdLib Exec Runtime SpecRun SpecPanic
  PanicPlaceProofs PanicLibProofs.

Section Run.
Variable P : spos -> Prop.
Variable Q : panic -> Prop.
Hypothesis HQ : forall e, P (panic_place e) -> Q e.
Context {W : Type}.
Variable X : ext W.
Variable O : os W.
Variables tail eager : bool.
Hypothesis HX : honest X.
Hypothesis HJ : forall i h w e w', x_join X i h w = (inr e, w') -> Q e.
(** The files that can be imported *)
Hypothesis HM : forall f w t b prog, x_file X f w = inr t -> analyze t = Analysis b [] [] -> sema b = SemaOk prog ->
  Q (PStackOverflow (mkspos f (mkpos 0 0))) /\ code P f (flat_map xstatement_places (pr_statements prog)).

Notation held := (held P).
Notation held_func := (held_func P).
Notation held_heap := (held_heap P).

Definition held_slot (x : vslot) : Prop := match x with Regular _ v => held v | Closed _ => True end.
Definition held_state (s : state W) : Prop :=
  Forall held_slot (st_stack s) /\ Forall held (st_args s) /\ held_heap (st_heap s) /\
  Forall (fun m => held (snd m)) (st_modules s).

Definition post {A} (R : A -> Prop) (r : outcome (state W) A) : Prop :=
  match r with
  | Val a s => R a /\ held_state s
  | Pan e s => Q e /\ held_state s
  | _ => True
  end.
Definition ok {A} (m : M (W := W) A) (R : A -> Prop) : Prop := forall s, held_state s -> post R (m s).
Definition every {A} (_ : A) : Prop := True.

Lemma ok_bind {A B} (m : M A) (f : A -> M B) (R : A -> Prop) (S : B -> Prop) :
  ok m R -> (forall a, R a -> ok (f a) S) -> ok (bind m f) S.
Proof.
  intros Hm Hf s Hs. specialize (Hm s Hs). unfold bind. destruct (m s) as [a s1|e s1|z s1|c|]; cbn in Hm |- *; auto.
  destruct Hm as [Ra Hs1]. exact (Hf a Ra s1 Hs1).
Qed.
Lemma ok_ret {A} (a : A) (R : A -> Prop) : R a -> ok (ret a) R.
Proof. intros H s Hs. split; assumption. Qed.
Lemma ok_throw {A} e (R : A -> Prop) : P (panic_place e) -> ok (throw e) R.
Proof. intros H s Hs. split; [apply HQ, H|exact Hs]. Qed.
Lemma ok_get {A} (f : state W -> M A) (R : A -> Prop) :
  (forall s, held_state s -> post R (f s s)) -> ok (bind get f) R.
Proof. intros H s Hs. exact (H s Hs). Qed.
Lemma ok_walk {A} (r : walk A) (R : A -> Prop) : (forall a, r = Known a -> R a) -> ok (of_walk r) R.
Proof. intros H s Hs. destruct r; cbn; auto. Qed.
Lemma ok_sum {A} (r : A + panic) (R : A -> Prop) :
  (forall a, r = inl a -> R a) -> (forall e, r = inr e -> P (panic_place e)) -> ok (of_sum r) R.
Proof. intros H K. destruct r; cbn; [apply ok_ret; auto|apply ok_throw; auto]. Qed.

Lemma state_heap s h w : held_state s -> held_heap h -> held_state (set_world (set_heap s h) w).
Proof. intros (A & B & C & D) H. repeat split; auto; apply H. Qed.
Lemma state_heap' s h : held_state s -> held_heap h -> held_state (set_heap s h).
Proof. intros (A & B & C & D) H. repeat split; auto; apply H. Qed.
Lemma state_args s l : held_state s -> Forall held l -> held_state (set_args s l).
Proof. intros (A & B & C & D) H. repeat split; auto; apply C. Qed.
Lemma state_stack s l : held_state s -> Forall held_slot l -> held_state (set_stack s l).
Proof. intros (A & B & C & D) H. repeat split; auto; apply C. Qed.
Lemma Forall_skipn {A} (R : A -> Prop) j l : Forall R l -> Forall R (skipn j l).
Proof. intros H. rewrite <- (firstn_skipn j l) in H. apply Forall_app in H. apply H. Qed.
Lemma Forall_firstn {A} (R : A -> Prop) j l : Forall R l -> Forall R (firstn j l).
Proof. intros H. rewrite <- (firstn_skipn j l) in H. apply Forall_app in H. apply H. Qed.
Lemma state_shrink k s : held_state s -> held_state (shrink k s).
Proof. intros H. apply state_stack; [exact H|]. apply Forall_skipn, H. Qed.

Lemma ok_lift (f : heap -> W -> outcome (heap * W) value) :
  (forall h w, held_heap h -> told P Q (f h w)) -> ok (lift f) held.
Proof.
  intros H s Hs. unfold lift. specialize (H (st_heap s) (st_world s) (proj1 (proj2 (proj2 Hs)))).
  destruct (f (st_heap s) (st_world s)) as [v [h w]|e [h w]|z x|c|]; cbn in H |- *; auto;
    (split; [apply H|apply state_heap; [exact Hs|apply H]]).
Qed.

(** ** Memory *)
Lemma slot_held s x ix : held_state s -> nth_error (st_stack s) ix = Some x -> held_slot x.
Proof. intros (A & _) H. apply nth_error_In in H. rewrite Forall_forall in A. auto. Qed.
Lemma ok_fetch ix : ok (fetch ix) held.
Proof.
  intros s Hs. unfold fetch. destruct (nth_error (st_stack s) ix) as [x|] eqn:E; [|exact I].
  split; [|exact Hs]. destruct x as [id v|c]; [exact (slot_held _ _ _ Hs E)|apply held_cell, Hs].
Qed.
Lemma ok_store ix v : held v -> ok (store ix v) every.
Proof.
  intros Hv s Hs. unfold store. destruct (nth_error (st_stack s) ix) as [[id v0|c]|] eqn:E; [| |exact I]; (split; [exact I|]).
  - apply state_stack; [exact Hs|]. apply Forall_list_set; [apply Hs|exact Hv].
  - apply state_heap'; [exact Hs|]. apply held_cell_set; [apply Hs|exact Hv].
Qed.
Lemma ok_capture ix : ok (capture ix) every.
Proof.
  intros s Hs. unfold capture. destruct (nth_error (st_stack s) ix) as [[id v0|c]|] eqn:E; [| |exact I]; (split; [exact I|]); [|exact Hs].
  apply state_heap'; [apply state_stack; [exact Hs|]; apply Forall_list_set; [apply Hs|exact I]|].
  apply held_cell_set; [apply Hs|exact (slot_held _ _ _ Hs E)].
Qed.
Lemma ok_place ix c : ok (place ix c) every.
Proof.
  intros s Hs. unfold place. destruct (nth_error (st_stack s) ix) as [x|]; [|exact I]. split; [exact I|].
  apply state_stack; [exact Hs|]. apply Forall_list_set; [apply Hs|exact I].
Qed.
Lemma ok_extend k p : Q (PStackOverflow p) -> ok (extend X eager k p) every.
Proof.
  intros Hp s Hs. unfold extend. destruct (overflows X _); [split; [exact Hp|exact Hs]|]. split; [exact I|].
  destruct Hs as (A & B & (C1 & C2 & C3 & C4) & D). repeat split; auto; cbn.
  - apply Forall_app. split; [|exact A]. apply Forall_forall. intros x Hx. apply in_map_iff in Hx.
    destruct Hx as (i & <- & _). unfold new_slot. destruct eager; exact I.
  - apply Forall_app. split; [exact C1|]. apply Forall_forall. intros x Hx. apply repeat_spec in Hx. subst. exact I.
Qed.
Lemma ok_store_all l : Forall held l -> forall ix, ok (store_all ix l) every.
Proof.
  intros H. induction H as [|v l Hv Hl IH]; intros ix; cbn [store_all]; [apply ok_ret; exact I|].
  eapply ok_bind; [apply ok_store, Hv|]. intros _ _. apply IH.
Qed.
Lemma ok_place_all l : ok (place_all l) every.
Proof.
  induction l as [|[c ix] l IH]; cbn [place_all]; [apply ok_ret; exact I|].
  eapply ok_bind; [apply ok_place|]. intros _ _. exact IH.
Qed.
Lemma ok_capture_all l : ok (capture_all l) every.
Proof.
  induction l as [|c l IH]; cbn [capture_all]; [apply ok_ret; exact I|].
  eapply ok_bind; [apply ok_capture|]. intros x _. eapply ok_bind; [exact IH|]. intros r _. apply ok_ret. exact I.
Qed.

(** ** One step *)
Definition held_flow (f : flow) : Prop := match f with Reg v | Ret v => held v | Brk => True end.
Definition held_result (r : flow * spos * value) : Prop :=
  held_flow (fst (fst r)) /\ P (snd (fst r)) /\ held (snd r).
Definition in_code (u : uinfo) (l : list pos) : Prop := code P (u_path u) l.

Record well (E : evals (W := W)) : Prop := mkwell {
  g_expr : forall u e, in_code u (xexpr_places e) -> ok (ev_expr E u e) held_result;
  g_statement : forall u st, in_code u (xstatement_places st) -> ok (ev_statement E u st) held_flow;
  g_call : forall obj f start p, held obj -> held_func f -> P p -> ok (ev_call E obj f start p) held;
  g_for : forall u ix g p b, held_func g -> P p -> in_code u (flat_map xstatement_places b) ->
    ok (ev_for E u ix g p b) held_flow }.

Section Step.
Variable E : evals (W := W).
Variable n : nat.
Hypothesis HE : well E.

Lemma in_app u l m : in_code u (l ++ m) <-> in_code u l /\ in_code u m.
Proof. apply code_app. Qed.
Lemma in_cons u p l : in_code u (p :: l) <-> P (at_ u p) /\ in_code u l.
Proof. apply code_cons. Qed.

Lemma ok_block u b : in_code u (flat_map xstatement_places b) -> ok (eval_block E u b) held_flow.
Proof.
  induction b as [|s b IH]; cbn [flat_map]; intros H; [apply ok_ret; exact I|]. apply in_app in H as [H1 H2].
  destruct b as [|s' b]; [apply (g_statement _ HE), H1|].
  change (eval_block E u (s :: s' :: b)) with
    (bind (ev_statement E u s) (fun f => match f with Reg _ => eval_block E u (s' :: b) | f => ret f end)).
  eapply ok_bind; [apply (g_statement _ HE), H1|]. intros [v|v|] Hf; [apply IH, H2|apply ok_ret, Hf|apply ok_ret, Hf].
Qed.

Definition sum_held {A} (R : A -> Prop) (r : flow + A) : Prop := match r with inl f => held_flow f | inr a => R a end.

Lemma ok_list u es : in_code u (flat_map xexpr_places es) -> ok (eval_list E u es) (sum_held (Forall held)).
Proof.
  induction es as [|e es IH]; cbn [flat_map eval_list]; intros H; [apply ok_ret; constructor|]. apply in_app in H as [H1 H2].
  eapply ok_bind; [apply (g_expr _ HE), H1|]. intros [[f p] o] (Hf & _ & _). cbn [fst snd] in Hf.
  destruct f as [v|v|]; [|apply ok_ret, Hf|apply ok_ret, Hf].
  eapply ok_bind; [apply IH, H2|]. intros [f|l] Hr; apply ok_ret; [exact Hr|]. constructor; assumption.
Qed.
Lemma symbol_put_held k v d : held v -> Forall (held_entry P) d -> Forall (held_entry P) (symbol_put k v d).
Proof.
  intros Hv Hd. unfold symbol_put. destruct (put_entry _ (VStr k) v d) as [d'| |] eqn:F; try exact Hd.
  eapply put_entry_held; [exact Hd|..|exact F]; [exact I|exact Hv].
Qed.
Lemma ok_dict u items : in_code u (flat_map (fun kv => xexpr_places (snd kv)) items) ->
  forall d, Forall (held_entry P) d -> ok (eval_dict E u items d) (sum_held (Forall (held_entry P))).
Proof.
  induction items as [|[k e] items IH]; cbn [flat_map eval_dict snd]; intros H d Hd; [apply ok_ret; exact Hd|].
  apply in_app in H as [H1 H2]. eapply ok_bind; [apply (g_expr _ HE), H1|]. intros [[f p] o] (Hf & _ & _). cbn [fst snd] in Hf.
  destruct f as [v|v|]; [|apply ok_ret, Hf|apply ok_ret, Hf]. apply IH; [exact H2|]. apply symbol_put_held; assumption.
Qed.

Lemma dict_get_held h l k v : held_heap h -> dict_get h n l k = Known (Some v) -> held v.
Proof.
  intros Hh. unfold dict_get. destruct (hash_walk h n LockNone k) as [[]| |]; cbn; try discriminate.
  apply find_entry_held, held_dict, Hh.
Qed.
Lemma nth_z_held l z v : Forall held l -> nth_z l z = Some v -> held v.
Proof.
  intros H. unfold nth_z. destruct (z <? 0)%Z; [discriminate|]. intros F. apply nth_error_In in F.
  rewrite Forall_forall in H. auto.
Qed.

Lemma ok_access obj op f fp : held obj -> P op -> P fp -> ok (access n obj op f fp) held.
Proof.
  intros Ho Hop Hfp. unfold access. apply ok_get. intros s Hs.
  assert (Hh : held_heap (st_heap s)) by apply Hs.
  assert (HB : forall r : option value, (forall v, r = Some v -> held v) ->
    ok (match r with Some v => ret v | None => throw (PIndexOutOfBounds f fp) end) held).
  { intros [v|] H; [apply ok_ret, H; reflexivity|apply ok_throw; exact Hfp]. }
  assert (G : forall m : M value, ok m held -> post held (m s)) by (intros m Hm; apply Hm; assumption).
  destruct obj as [| |b|z|x|t|l|l|g|d c]; try (apply G, ok_throw; assumption).
  - destruct f; try (apply G, ok_throw; assumption). apply (G (match option_map VByte (nth_z t z) with Some v => ret v | None => throw _ end)).
    apply HB. intros v. destruct (nth_z t z); cbn; [|discriminate]. intros [= <-]. exact I.
  - destruct f; try (apply G, ok_throw; assumption). apply (G (match nth_z (arr_get (st_heap s) l) z with Some v => ret v | None => throw _ end)).
    apply HB. intros v. apply nth_z_held, held_arr, Hh.
  - apply (G (bind (of_walk (dict_get (st_heap s) n l f))
        (fun r => match r with Some v => ret v | None => throw (PIndexOutOfBounds f fp) end))).
    eapply ok_bind; [apply (ok_walk _ (fun r => forall v, r = Some v -> held v))|intros r; apply HB].
    intros a Ha v ->. exact (dict_get_held _ _ _ _ Hh Ha).
  - apply (G (match error_get d c f with Some v => ret v | None => throw (PIndexOutOfBounds f fp) end)).
    apply HB. intros v. unfold error_get. destruct f; try discriminate. destruct (bytes_eqb s0 _); [intros [= <-]; exact I|].
    destruct (bytes_eqb s0 _); [intros [= <-]; exact Ho|discriminate].
Qed.

Definition held_option (o : option flow) : Prop := match o with Some f => held_flow f | None => True end.
Lemma ok_push_args u start args : in_code u (flat_map xexpr_places args) -> ok (push_args E u start args) held_option.
Proof.
  induction args as [|e args IH]; cbn [flat_map push_args]; intros H; [apply ok_ret; exact I|]. apply in_app in H as [H1 H2].
  eapply ok_bind; [apply (g_expr _ HE), H1|]. intros [[f p] o] (Hf & _ & _). cbn [fst snd] in Hf.
  apply ok_get. intros s Hs. destruct f as [v|v|].
  - change (post held_option (push_args E u start args (set_args s (st_args s ++ [v])))). apply (IH H2).
    apply state_args; [exact Hs|]. apply Forall_app. split; [apply Hs|]. constructor; [exact Hf|constructor].
  - split; [exact Hf|]. apply state_args; [exact Hs|]. apply Forall_firstn, Hs.
  - split; [exact I|]. apply state_args; [exact Hs|]. apply Forall_firstn, Hs.
Qed.

Definition held_call (r : value * func * nat) : Prop := held (fst (fst r)) /\ held_func (snd (fst r)).
Lemma ok_prepare u f args : in_code u (xexpr_places f) -> in_code u (flat_map xexpr_places args) ->
  ok (prepare_call E u f args) (sum_held held_call).
Proof.
  intros Hf Ha. unfold prepare_call. eapply ok_bind; [apply (g_expr _ HE), Hf|]. intros [[fl p] obj] (R1 & R2 & R3). cbn [fst snd] in *.
  destruct fl as [v|v|]; [|apply ok_ret, R1|apply ok_ret, R1].
  destruct v as [| | | | | | | |g|]; try (apply ok_throw; exact R2).
  apply ok_get. intros s Hs. refine (ok_bind (push_args E u (length (st_args s)) args) _ held_option _ _ _ s Hs).
  - apply ok_push_args, Ha.
  - intros [f'|] Hr; apply ok_ret; [exact Hr|]. split; [exact R3|exact R1].
Qed.

Lemma ok_binary u l op r p : in_code u (xexpr_places l) -> in_code u (xexpr_places r) -> P p ->
  ok (eval_binary E n u l op r p) held_flow.
Proof.
  intros Hl Hr Hp. unfold eval_binary. eapply ok_bind; [apply (g_expr _ HE), Hl|]. intros [[fl lp] o] (R1 & R2 & _). cbn [fst snd] in *.
  destruct fl as [a|v|]; [|apply ok_ret, R1|apply ok_ret, R1].
  assert (HR : forall k, (forall b rp, held b -> P rp -> ok (k b rp) held) ->
    ok (bind (ev_expr E u r) (fun '(fr, rp, _) => match fr with Reg b => bind (k b rp) (fun v => ret (Reg v)) | f => ret f end)) held_flow).
  { intros k Hk. eapply ok_bind; [apply (g_expr _ HE), Hr|]. intros [[fr rp] o'] (S1 & S2 & _). cbn [fst snd] in *.
    destruct fr as [b|v|]; [|apply ok_ret, S1|apply ok_ret, S1].
    eapply ok_bind; [apply Hk; assumption|]. intros v Hv. apply ok_ret, Hv. }
  assert (HA : forall rp b, P rp -> forall e, arithmetic_op op p a lp b rp = inr e -> P (panic_place e)).
  { intros rp b Hrp e. destruct a, b; cbn; try (intros [= <-]; assumption); try discriminate.
    unfold int_op, checked. destruct op; repeat match goal with |- context [if ?c then _ else _] => destruct c end;
      try discriminate; intros [= <-]; exact Hp. }
  assert (HO : forall rp b, P rp -> forall e, ord_op op a lp b rp = inr e -> P (panic_place e)).
  { intros rp b Hrp e. destruct a, b; cbn; try (intros [= <-]; assumption); discriminate. }
  assert (HC : forall rp b, P rp -> forall e, concat_op a lp b rp = inr e -> P (panic_place e)).
  { intros rp b Hrp e. destruct a, b; cbn; try (intros [= <-]; assumption); discriminate. }
  assert (VA : forall rp b v, arithmetic_op op p a lp b rp = inl v -> held v).
  { intros rp b v. destruct a, b; cbn; try discriminate; try (intros [= <-]; exact I).
    unfold int_op, checked. destruct op; repeat match goal with |- context [if ?c then _ else _] => destruct c end;
      try discriminate; intros [= <-]; exact I. }
  assert (VO : forall rp b v, ord_op op a lp b rp = inl v -> held v).
  { intros rp b v. destruct a, b; cbn; try discriminate; intros [= <-]; exact I. }
  assert (VC : forall rp b v, concat_op a lp b rp = inl v -> held v).
  { intros rp b v. destruct a, b; cbn; try discriminate; intros [= <-]; exact I. }
  assert (HB : forall b rp, held b -> P rp -> ok (match b with VBool _ => ret b | _ => throw (PTypeError b (bs "bool") rp) end) held).
  { intros b rp _ Hrp. destruct b; try (apply ok_throw; exact Hrp). apply ok_ret. exact I. }
  destruct op; try (apply HR; intros b rp Hb Hrp; apply ok_sum; [apply VA|apply HA, Hrp]);
    try (apply HR; intros b rp Hb Hrp; apply ok_sum; [apply VO|apply HO, Hrp]).
  - apply HR. intros b rp Hb Hrp. apply ok_get. intros s Hs.
    refine (ok_bind _ _ every held _ _ s Hs); [apply ok_walk; intros; exact I|intros e _; apply ok_ret; exact I].
  - apply HR. intros b rp Hb Hrp. apply ok_get. intros s Hs.
    refine (ok_bind _ _ every held _ _ s Hs); [apply ok_walk; intros; exact I|intros e _; apply ok_ret; exact I].
  - destruct a as [|[]| | | | | | | |]; try (apply ok_throw; exact R2); [apply HR, HB|apply ok_ret; exact I].
  - destruct a as [|[]| | | | | | | |]; try (apply ok_throw; exact R2); [apply ok_ret; exact I|apply HR, HB].
  - apply HR. intros b rp Hb Hrp. apply ok_sum; [apply VC|apply HC, Hrp].
Qed.

Lemma ok_alloc f : (forall h, held_heap h -> held (fst (f h)) /\ held_heap (snd (f h))) -> ok (alloc f) held.
Proof.
  intros H s Hs. unfold alloc. specialize (H (st_heap s) (proj1 (proj2 (proj2 Hs)))).
  destruct (f (st_heap s)) as [v h]. cbn in H. split; [apply H|]. apply state_heap'; [exact Hs|apply H].
Qed.
Lemma lit_held l : held (lit_value X l).
Proof. destruct l; exact I. Qed.

Lemma ok_eval_expr u e : in_code u (xexpr_places e) -> ok (eval_expr X O E n u e) held_result.
Proof.
  intros H.
  assert (PL : forall p m, P (at_ u p) -> ok m held_flow -> ok (bind m (fun f => ret (f, at_ u p, VNil))) held_result).
  { intros p m Hp Hm. eapply ok_bind; [exact Hm|]. intros f Hf. apply ok_ret. split; [exact Hf|]. split; [exact Hp|exact I]. }
  destruct e as [ix p|l p|s p|es p|items p|params fi body p|op e p|l op r p|c t e p|o f p|f args p|b p];
    cbn [xexpr_places] in H; apply in_cons in H as [Hp H]; cbn [eval_expr].
  - apply PL; [exact Hp|]. eapply ok_bind; [apply ok_fetch|]. intros v Hv. apply ok_ret, Hv.
  - apply PL; [exact Hp|]. apply ok_ret, lit_held.
  - apply PL; [exact Hp|]. apply ok_ret. exact I.
  - apply PL; [exact Hp|]. eapply ok_bind; [apply ok_list, H|]. intros [f|l] Hr; [apply ok_ret, Hr|].
    eapply ok_bind; [apply ok_alloc|intros v Hv; apply ok_ret, Hv]. intros h Hh. split; [exact I|apply held_new_arr; assumption].
  - apply PL; [exact Hp|]. eapply ok_bind; [apply ok_dict; [exact H|constructor]|]. intros [f|l] Hr; [apply ok_ret, Hr|].
    eapply ok_bind; [apply ok_alloc|intros v Hv; apply ok_ret, Hv]. intros h Hh. split; [exact I|apply held_new_dict; assumption].
  - apply PL; [exact Hp|]. eapply ok_bind; [apply ok_capture_all|]. intros ctx _. apply ok_ret. exact H.
  - apply PL; [exact Hp|]. eapply ok_bind; [apply (g_expr _ HE), H|]. intros [[f ep] o] (R1 & R2 & _). cbn [fst snd] in *.
    destruct f as [v|v|]; [|apply ok_ret, R1|apply ok_ret, R1].
    apply ok_sum; intros x; destruct op, v; cbn; try discriminate; intros [= <-]; try exact I; try exact R2; exact R1.
  - apply PL; [exact Hp|]. apply in_app in H as [H1 H2]. apply ok_binary; assumption.
  - apply PL; [exact Hp|]. apply in_app in H as [H1 H2]. apply in_app in H2 as [H2 H3].
    eapply ok_bind; [apply (g_expr _ HE), H1|]. intros [[f cp] o] (R1 & R2 & _). cbn [fst snd] in *.
    destruct f as [v|v|]; [|apply ok_ret, R1|apply ok_ret, R1].
    destruct v as [|b'| | | | | | | |]; try (apply ok_throw; exact R2). apply ok_block. destruct b'; assumption.
  - apply in_app in H as [H1 H2]. eapply ok_bind; [apply (g_expr _ HE), H1|]. intros [[fo op] o'] (R1 & R2 & _). cbn [fst snd] in *.
    assert (RF : forall f, held_flow f -> ok (ret (f, at_ u p, VNil)) held_result).
    { intros g Hg. apply ok_ret. split; [exact Hg|]. split; [exact Hp|exact I]. }
    destruct fo as [obj|v|]; [|apply RF, R1|apply RF, R1].
    eapply ok_bind; [apply (g_expr _ HE), H2|]. intros [[ff fp] o''] (S1 & S2 & _). cbn [fst snd] in *.
    destruct ff as [field|v|]; [|apply RF, S1|apply RF, S1].
    eapply ok_bind; [apply ok_access; assumption|]. intros v Hv. apply ok_ret. split; [exact Hv|]. split; [exact Hp|exact R1].
  - apply PL; [exact Hp|]. apply in_app in H as [H1 H2]. eapply ok_bind; [apply ok_prepare; assumption|].
    intros [fl|[[obj g] start]] Hr; [apply ok_ret, Hr|]. destruct Hr as [Ho Hg]. cbn [fst snd] in *.
    eapply ok_bind; [apply (g_call _ HE); assumption|]. intros v Hv. apply ok_ret, Hv.
  - apply PL; [exact Hp|]. intros s Hs.
    refine (ok_bind _ _ held held_flow _ _ s Hs); [apply ok_lift|intros v Hv; apply ok_ret, Hv].
    intros h w Hh. eapply command_told; eassumption.
Qed.

Lemma ok_assign obj op f fp v p : held f -> held v -> P op -> P fp -> P p -> ok (assign_field n obj op f fp v p) every.
Proof.
  intros Hf Hv Hop Hfp Hp. unfold assign_field. apply ok_get. intros s Hs.
  assert (Hh : held_heap (st_heap s)) by apply Hs.
  assert (HT : forall e, P (panic_place e) -> post every (throw (A := unit) e s)) by (intros e He; apply (ok_throw e every He s Hs)).
  assert (HP : forall h, held_heap h -> post every (put (set_heap s h) s)).
  { intros h H. split; [exact I|]. apply state_heap'; assumption. }
  destruct obj as [| |b|z|x|t|l|l|g|d c]; try (apply HT; assumption).
  - destruct f; try (apply HT; assumption).
    destruct (_ <=? _)%Z; [apply HT; assumption|]. destruct (_ <? _)%Z; [apply HT; assumption|].
    apply HP. apply held_arr_set; [exact Hh|]. apply Forall_list_set; [apply held_arr, Hh|exact Hv].
  - unfold bind, of_walk. destruct (dict_put (st_heap s) n l f v) as [d| |] eqn:D; [|exact I|exact I].
    apply HP. apply held_dict_set; [exact Hh|]. unfold dict_put in D. destruct (hash_walk _ n _ f) as [[]| |]; cbn in D; try discriminate.
    eapply put_entry_held; [apply held_dict, Hh|..|exact D]; assumption.
Qed.

Lemma ok_eval_statement u st : in_code u (xstatement_places st) -> ok (eval_statement E n u st) held_flow.
Proof.
  intros H. destruct st as [l r|e| |c b|ix e b|e]; cbn [xstatement_places eval_statement] in *.
  - assert (Hr : in_code u (xexpr_places r)).
    { destruct l as [ix p|o f p]; apply in_cons in H as [_ H]; [exact H|]. apply in_app in H as [_ H]. apply in_app in H as [_ H]. exact H. }
    eapply ok_bind; [apply (g_expr _ HE), Hr|]. intros [[f p] o] (R1 & _ & _). cbn [fst snd] in *.
    destruct f as [v|v|]; [|apply ok_ret, R1|apply ok_ret, R1].
    destruct l as [ix q|oe fe q]; apply in_cons in H as [Hq H].
    + eapply ok_bind; [apply ok_store, R1|]. intros _ _. apply ok_ret. exact I.
    + apply in_app in H as [H1 H]. apply in_app in H as [H2 _].
      eapply ok_bind; [apply (g_expr _ HE), H1|]. intros [[fo op] o'] (S1 & S2 & _). cbn [fst snd] in *.
      destruct fo as [obj|w|]; [|apply ok_ret, S1|apply ok_ret, S1].
      eapply ok_bind; [apply (g_expr _ HE), H2|]. intros [[ff fp] o''] (T1 & T2 & _). cbn [fst snd] in *.
      destruct ff as [field|w|]; [|apply ok_ret, T1|apply ok_ret, T1].
      eapply ok_bind; [apply ok_assign; assumption|]. intros _ _. apply ok_ret. exact I.
  - eapply ok_bind; [apply (g_expr _ HE), H|]. intros [[f p] o] (R1 & _ & _). cbn [fst snd] in *. apply ok_ret. destruct f; exact R1.
  - apply ok_ret. exact I.
  - pose proof H as H0. apply in_app in H as [H1 H2]. eapply ok_bind; [apply (g_expr _ HE), H1|].
    intros [[f cp] o] (R1 & R2 & _). cbn [fst snd] in *. destruct f as [v|v|]; [|apply ok_ret, R1|apply ok_ret, R1].
    destruct v as [|[]| | | | | | | |]; try (apply ok_throw; exact R2); [|apply ok_ret; exact I].
    eapply ok_bind; [apply ok_block, H2|]. intros [v|v|] Hf; [apply (g_statement _ HE); exact H0|apply ok_ret, Hf|apply ok_ret; exact I].
  - apply in_app in H as [H1 H2]. eapply ok_bind; [apply (g_expr _ HE), H1|].
    intros [[f p] o] (R1 & R2 & _). cbn [fst snd] in *. destruct f as [v|v|]; [|apply ok_ret, R1|apply ok_ret, R1].
    destruct v as [| | | | | | | |g|]; try (apply ok_throw; exact R2). apply (g_for _ HE); assumption.
  - eapply ok_bind; [apply (g_expr _ HE), H|]. intros [[f p] o] (R1 & _ & _). apply ok_ret, R1.
Qed.

Lemma ok_eval_for u ix g p b : held_func g -> P p -> in_code u (flat_map xstatement_places b) ->
  ok (eval_for E n u ix g p b) held_flow.
Proof.
  intros Hg Hp Hb. unfold eval_for. apply ok_get. intros s Hs.
  refine (ok_bind _ _ held held_flow _ _ s Hs); [apply (g_call _ HE); [exact I|exact Hg|exact Hp]|].
  intros r _. destruct r as [| | | | | | |l| |]; try (apply ok_throw; exact Hp).
  assert (HF : forall k, ok (bind get (fun s => bind (of_walk (dict_get (st_heap s) n l (VStr k)))
     (fun r => match r with Some v => ret v | None => throw (PIndexOutOfBounds (VStr k) p) end))) held).
  { intros k. apply ok_get. intros s' Hs'.
    refine (ok_bind _ _ (fun r => forall v, r = Some v -> held v) held _ _ s' Hs').
    - apply ok_walk. intros a Ha v ->. eapply dict_get_held; [|exact Ha]. apply Hs'.
    - intros [v|] Hv; [apply ok_ret, Hv; reflexivity|apply ok_throw; exact Hp]. }
  eapply ok_bind; [apply HF|]. intros fin _. destruct fin as [|[]| | | | | | | |]; try (apply ok_throw; exact Hp); [apply ok_ret; exact I|].
  eapply ok_bind; [apply HF|]. intros v Hv. eapply ok_bind; [apply ok_store, Hv|]. intros _ _.
  eapply ok_bind; [apply ok_block, Hb|]. intros [w|w|] Hf; [apply (g_for _ HE); assumption|apply ok_ret, Hf|apply ok_ret; exact I].
Qed.

Lemma ok_finish {A} slots (m : M A) R : ok m R -> ok (finish slots m) R.
Proof.
  intros H s Hs. specialize (H s Hs). unfold finish. destruct (m s) as [a s'|e s'|z s'|c|]; cbn in H |- *; auto;
    (split; [apply H|apply state_shrink, H]).
Qed.
Lemma ok_tail u slots f args p : in_code u (xexpr_places (XCall f args p)) -> ok (tail_call E u slots f args p) held_flow.
Proof.
  intros H s Hs. cbn [xexpr_places] in H. apply in_cons in H as [Hp H]. apply in_app in H as [H1 H2].
  pose proof (ok_prepare u f args H1 H2 s Hs) as R. unfold tail_call.
  destruct (prepare_call E u f args s) as [[fl|[[obj g] start]] s'|e s'|z s'|c|]; cbn in R |- *; auto.
  - split; [apply R|apply state_shrink, R].
  - destruct R as [[Ro Rg] Hs']. cbn [fst snd] in *.
    refine (ok_bind _ _ held held_flow _ _ (shrink slots s') (state_shrink _ _ Hs')); [apply (g_call _ HE); assumption|].
    intros v Hv. apply ok_ret, Hv.
  - split; [apply R|apply state_shrink, R].
Qed.
Lemma ok_body u slots b : in_code u (flat_map xstatement_places b) -> ok (eval_body tail E u slots b) held_flow.
Proof.
  induction b as [|s b IH]; cbn [flat_map]; intros H; [apply ok_finish, ok_ret; exact I|]. apply in_app in H as [H1 H2].
  destruct b as [|s' b].
  - assert (D : ok (finish slots (ev_statement E u s)) held_flow) by apply ok_finish, (g_statement _ HE), H1.
    cbn [eval_body]. destruct tail; [|exact D]. destruct s as [l r|e| |c b|ix e b|e]; try exact D; destruct e; try exact D.
    + eapply ok_bind; [apply ok_tail, H1|]. intros f Hf. apply ok_ret. destruct f; exact Hf.
    + apply ok_tail, H1.
  - intros st Hst. pose proof (g_statement _ HE u s H1 st Hst) as R.
    change (eval_body tail E u slots (s :: s' :: b) st) with
      (match ev_statement E u s st with
       | Val (Reg _) st => eval_body tail E u slots (s' :: b) st
       | Val f st => Val f (shrink slots st) | Pan p st => Pan p (shrink slots st) | r => r end).
    destruct (ev_statement E u s st) as [[v|v|] st'|e st'|z st'|c|]; cbn in R |- *; auto;
      try (split; [apply R|apply state_shrink, R]).
    apply (IH H2), R.
Qed.

Lemma ok_call_hush obj unit params fi body ctx fp start p :
  held obj -> held_func (FHush unit params fi body ctx fp) -> P p ->
  ok (call_hush X tail eager E obj unit params fi body ctx fp start p) held.
Proof.
  intros Ho Hf Hp. unfold call_hush. apply ok_get. intros s Hs.
  set (s0 := set_args s (firstn start (st_args s))).
  assert (H0 : held_state s0) by (apply state_args; [exact Hs|apply Forall_firstn, Hs]).
  assert (HA : Forall held (skipn start (st_args s))) by apply Forall_skipn, Hs.
  destruct (Nat.eqb (length (skipn start (st_args s))) params).
  2:{ exact (ok_throw (PInvalidArgs _ params p) held Hp s0 H0). }
  refine (ok_bind (extend X eager (fi_slots fi) p) _ every held _ _ s0 H0); [apply ok_extend, HQ, Hp|]. intros _ _.
  eapply ok_bind; [apply ok_store_all, HA|]. intros _ _. eapply ok_bind; [apply ok_place_all|]. intros _ _.
  eapply (ok_bind _ _ every); [destruct (fi_self fi); [apply ok_store, Ho|apply ok_ret; exact I]|]. intros _ _.
  eapply ok_bind; [apply ok_body; exact Hf|]. intros [v|v|] Hv; [apply ok_ret, Hv|apply ok_ret, Hv|]. intros s' _. exact I.
Qed.

Lemma ok_program u prog : Q (PStackOverflow (at_ u (mkpos 0 0))) -> in_code u (flat_map xstatement_places (pr_statements prog)) ->
  ok (eval_program X eager E u prog) held.
Proof.
  intros Hp H. unfold eval_program. eapply ok_bind; [apply ok_extend, Hp|]. intros _ _.
  eapply ok_bind; [apply ok_store; exact I|]. intros _ _ s Hs. pose proof (ok_block u _ H s Hs) as R.
  destruct (eval_block E u (pr_statements prog) s) as [[v|v|] s'|e s'|z s'|c|]; cbn in R |- *; auto.
  split; [apply R|apply state_shrink, R].
Qed.
Lemma ok_leaking {A} (m : M A) R : ok m R -> ok (leaking m) R.
Proof.
  intros H s Hs. specialize (H s Hs). unfold leaking. destruct (m s) as [a s'|e s'|z s'|c|]; try exact H.
Qed.
Lemma ok_load path p : P p -> ok (load X eager E path p) held.
Proof.
  intros Hp. unfold load. apply ok_get. intros s Hs.
  assert (HT : forall e, P (panic_place e) -> post held (throw e s)) by (intros e He; exact (ok_throw e held He s Hs)).
  destruct (x_file X path (st_world s)) as [e|text] eqn:F; [apply HT, Hp|].
  destruct (analyze text) as [b les pes| |] eqn:A; [|exact I|exact I].
  destruct les as [|]; [|apply HT, Hp]. destruct pes as [|]; [|apply HT, Hp].
  destruct (sema b) as [prog|es|] eqn:S; [|apply HT, Hp|exact I].
  destruct (HM _ _ _ _ _ F A S) as [H1 H2]. unfold bind at 1, put.
  apply ok_leaking; [apply ok_program; assumption|exact Hs].
Qed.
Lemma module_held path l v : Forall (fun m : bytes * value => held (snd m)) l -> module_get path l = Some v -> held v.
Proof.
  induction 1 as [|[k x] l Hx Hl IH]; cbn; [discriminate|]. destruct (bytes_eqb path k); [intros [= <-]; exact Hx|exact IH].
Qed.
Lemma ok_import t p : P p -> ok (import X eager E t p) held.
Proof.
  intros Hp. unfold import. apply ok_get. intros s Hs.
  destruct (x_resolve X t (sp_path p) (st_world s)) as [e|path]; [exact (ok_throw (PIo e p) held Hp s Hs)|].
  destruct (module_get path (st_modules s)) as [v|] eqn:F.
  - split; [eapply module_held; [apply Hs|exact F]|exact Hs].
  - refine (ok_bind (load X eager E path p) _ held held _ _ s Hs); [apply ok_load, Hp|]. intros v Hv s1 H1. split; [exact Hv|].
    destruct H1 as (A & B & C & D). repeat split; auto; try apply C. cbn. constructor; assumption.
Qed.

Lemma ok_native g start args p : held_native P g -> P p -> Forall held args -> ok (native_body X eager E n g args start p) held.
Proof.
  intros Hg Hp HA.
  assert (HL : ok (lift (native_call X n args_value g args p)) held).
  { apply ok_lift. intros h w Hh. eapply native_call_told; try eassumption. exact I. }
  assert (HT : forall e, P (panic_place e) -> ok (throw (A := value) e) held) by (intros e He; exact (ok_throw e held He)).
  destruct g as [f|o f|a st|t st|st|st to step|st to step|f pt|st]; try exact HL.
  - destruct f; try exact HL; unfold native_body.
    + destruct args as [|a [|a' l]]; [apply HT, Hp| |destruct a; apply HT, Hp].
      destruct a as [| | | | | | | |g|]; try apply HT, Hp. inversion HA; subst. intros s Hs. unfold catch.
      pose proof (g_call _ HE VNil g (start + 1) p I ltac:(assumption) Hp s Hs) as C.
      destruct (ev_call E VNil g (start + 1) p s) as [v s'|e s'|z s'|c|]; cbn in C |- *; auto.
      destruct (panic_text X n (st_heap s') e); cbn; auto. split; [exact I|apply C].
    + destruct args as [|a [|a' l]]; [apply HT, Hp| |destruct a; apply HT, Hp].
      destruct a as [| | | | |t| | | |]; try apply HT, Hp. apply ok_import, Hp.
  - destruct Hg as [Ho Hf]. apply (g_call _ HE); assumption.
Qed.
Lemma ok_call obj f start p : held obj -> held_func f -> P p -> ok (call X tail eager E n obj f start p) held.
Proof.
  intros Ho Hf Hp. destruct f as [unit params fi body ctx fp|g]; cbn [call].
  - apply ok_call_hush; assumption.
  - apply ok_get. intros s Hs. unfold truncated.
    pose proof (ok_native g start (skipn start (st_args s)) p Hf Hp (Forall_skipn _ _ _ (proj1 (proj2 Hs))) s Hs) as N.
    destruct (native_body X eager E n g (skipn start (st_args s)) start p s) as [v s'|e s'|z s'|c|]; cbn in N |- *; auto;
      (split; [apply N|apply state_args; [apply N|apply Forall_firstn, N]]).
Qed.
End Step.

Lemma well_run n : well (run X O tail eager n).
Proof.
  induction n as [|n IH]; cbn [run].
  - split; intros; intros s Hs; exact I.
  - split; cbn [step ev_expr ev_statement ev_call ev_for].
    + intros. apply ok_eval_expr; assumption.
    + intros. apply ok_eval_statement; assumption.
    + intros. apply ok_call; assumption.
    + intros. apply ok_eval_for; assumption.
Qed.

Lemma std_held : Forall (Forall (held_entry P)) std_dicts.
Proof. unfold std_dicts. cbn [map app std_functions]. repeat (constructor; [repeat (constructor; [split; exact I|]); constructor|]). constructor. Qed.
Lemma initial_held args (w : W) : held_state (initial args w).
Proof.
  split; [constructor|]. split; [constructor|]. split; [|constructor]. split; [constructor|]. split; [|split; [exact std_held|constructor]].
  constructor; [|constructor]. apply map_held. intros x. exact I.
Qed.
End Run.

(** ** A program *)
Section Program.
Context {W : Type} (X : ext W) (O : os W) (path src : bytes).

Definition real (sp : spos) : Prop := exists t, text_of X path src (sp_path sp) t /\ In (sp_pos sp) (text_places t).

Lemma real_code f t b prog : text_of X path src f t -> analyze t = Analysis b [] [] -> sema b = SemaOk prog ->
  code real f (flat_map xstatement_places (pr_statements prog)).
Proof.
  intros T A S. apply Forall_forall. intros p Hp. exists t. split; [exact T|]. cbn [sp_pos].
  exact (program_places_text _ _ _ _ A S p Hp).
Qed.

Lemma panic_named n b prog args w e s :
  honest X -> joins_place X path src ->
  analyze src = Analysis b [] [] -> sema b = SemaOk prog ->
  run_program X O true false n path prog args w = Pan e s -> names_place X path src e.
Proof.
  intros HX HJ A S R.
  assert (HQ : forall e, real (panic_place e) -> names_place X path src e).
  { intros e' (t & T & I'). econstructor; eassumption. }
  assert (T0 : text_of X path src path src) by (constructor; exists b, prog; split; assumption).
  assert (HM : forall f w t b prog, x_file X f w = inr t -> analyze t = Analysis b [] [] -> sema b = SemaOk prog ->
    names_place X path src (PStackOverflow (mkspos f (mkpos 0 0))) /\
    code real f (flat_map xstatement_places (pr_statements prog))).
  { intros f w' t b' prog' F A' S'.
    assert (T : text_of X path src f t) by (eapply tx_module; [exact F|exists b', prog'; split; assumption]).
    split; [econstructor; exact T|exact (real_code _ _ _ _ T A' S')]. }
  assert (G : ok real (names_place X path src) (eval_program X false (run X O true false n) (mkuinfo 0 path) prog) (held real)).
  { eapply ok_program; try eassumption; [eapply well_run; eassumption|econstructor; exact T0|exact (real_code _ _ _ _ T0 A S)]. }
  specialize (G (initial args w) (initial_held real args w)). unfold run_program in R. rewrite R in G. apply G.
Qed.
End Program.
