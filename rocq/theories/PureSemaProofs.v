(** Programs that do not mention the library: their code does not mention its slot. *)
From Coq Require Import Strings.String.
From Verif Require Import Base Lexer Ast Parser Program Sema SpecSema SpecPure LexerProofs SemaProofs.
From Coq Require Import Lia.
Local Open Scope sema_scope.

Notation std := (bs "std"%string).

(** [rt]: code of the program itself, where slot 0 holds the library. *)
Definition free (rt : bool) (ix : slot) : Prop := rt = true -> ix <> 0.
Fixpoint silent (rt : bool) (e : xexpr) : Prop :=
  match e with
  | XIdent ix _ => free rt ix
  | XLit _ _ | XFieldName _ _ => True
  | XArray es _ => each (silent rt) es
  | XDict kvs _ => each (fun kv => silent rt (snd kv)) kvs
  | XFunction _ fi b _ => Forall (fun c => free rt (cap_from c)) (fi_captures fi) /\ each (silent_statement false) b
  | XUnary _ e _ => silent rt e
  | XBinary a _ b _ | XAccess a b _ => silent rt a /\ silent rt b
  | XIf c t e _ => silent rt c /\ each (silent_statement rt) t /\ each (silent_statement rt) e
  | XCall f args _ => silent rt f /\ each (silent rt) args
  | XCommand _ _ => False
  end
with silent_target (rt : bool) (l : lvalue) : Prop :=
  match l with
  | LIdent ix _ => free rt ix
  | LAccess o f _ => silent rt o /\ silent rt f
  end
with silent_statement (rt : bool) (s : xstatement) : Prop :=
  match s with
  | XAssign l e => silent_target rt l /\ silent rt e
  | XReturn e | XExpr e => silent rt e
  | XBreak => True
  | XWhile c b => silent rt c /\ each (silent_statement rt) b
  | XFor ix e b => free rt ix /\ silent rt e /\ each (silent_statement rt) b
  end.

(** ** Frames *)

Definition root_ok (f : frame) : Prop :=
  Forall (fun kv => fst kv <> std -> snd kv <> 0) (concat (fr_scopes f)) /\ fr_slots f <> 0 /\ fr_self f <> Some 0.
Definition okf (n : nat) (f : frame) : Prop :=
  match n with
  | 0 => root_ok f
  | 1 => Forall (fun c => cap_from c <> 0) (fr_captures f)
  | _ => True
  end.
Fixpoint okr (st : stack) : Prop := match st with [] => True | f :: st => okf (List.length st) f /\ okr st end.

Lemma assoc_in s sc i : assoc s sc = Some i -> In (s, i) sc.
Proof.
  induction sc as [|[k v] sc IH]; cbn; [discriminate|]. destruct (bytes_eqb k s) eqn:E.
  - apply bytes_eqb_eq in E. intros [= ->]. left. congruence.
  - auto.
Qed.
Lemma resolve_in s scs i : scopes_resolve s scs = Some i -> In (s, i) (concat scs).
Proof.
  induction scs as [|sc scs IH]; cbn; [discriminate|]. intros H. apply in_or_app.
  destruct (assoc s sc) eqn:E; [left; apply assoc_in; congruence|right; auto].
Qed.

Lemma find_bound st x n i : find_frame st x = Some (n, i) -> n < List.length st.
Proof.
  revert n. induction st as [|f st IH]; intros n; cbn; [discriminate|]. destruct (frame_resolve f x); [intros [= <- _]; lia|].
  destruct (find_frame st x) as [[m j]|]; [|discriminate]. intros [= <- ->]. specialize (IH m eq_refl). lia.
Qed.
Lemma find_root st x n i : okr st -> x <> std -> find_frame st x = Some (n, i) -> S n = List.length st -> i <> 0.
Proof.
  revert n. induction st as [|f st IH]; intros n Ho Hx; cbn [find_frame]; [discriminate|]. destruct Ho as [Hf Hst].
  unfold frame_resolve. destruct (scopes_resolve x (fr_scopes f)) as [j|] eqn:E.
  - intros [= <- ->] L. destruct st; [|discriminate]. destruct Hf as [Hf _]. rewrite Forall_forall in Hf.
    apply resolve_in in E. exact (Hf _ E Hx).
  - destruct (find_frame st x) as [[m j]|] eqn:Ef; [|discriminate]. intros [= <- ->] L. apply (IH m); auto.
Qed.
Lemma install_okr s : forall n st i j st', n < List.length st -> (S n = List.length st -> i <> 0) -> okr st ->
  install_captures n st s i = Some (j, st') -> okr st' /\ List.length st' = List.length st.
Proof.
  induction n as [|n IH]; intros st i j st' Hn Hi Hst; [cbn; intros [= <- <-]; auto|].
  destruct st as [|f st]; cbn [install_captures]; [discriminate|]. destruct Hst as [Hf Hst]. cbn [List.length] in *.
  destruct (install_captures n st s i) as [[j1 st1]|] eqn:E; [|discriminate].
  destruct (IH st i j1 st1) as [H1 H2]; auto; [lia|].
  destruct (frame_capture f s j1) as [[k f']|] eqn:Ec; [|discriminate]. intros [= <- <-]. cbn [okr List.length]. rewrite H2.
  split; [|reflexivity]. split; [|exact H1].
  unfold frame_capture in Ec. destruct (root_scope (fr_scopes f)) as [sc|]; [|discriminate].
  destruct (assoc s sc); [injection Ec as _ <-; exact Hf|]. injection Ec as _ <-.
  destruct st as [|g [|]]; [cbn in Hn; lia| |exact I]. cbn [List.length okf] in *. cbn [fr_captures]. apply Forall_app. split; [exact Hf|].
  constructor; [|constructor]. cbn. destruct n as [|n]; [|lia]. cbn in E. injection E as <- <-. apply Hi. reflexivity.
Qed.
Lemma stack_resolve_okr st x i st' : okr st -> x <> std -> stack_resolve st x = Some (Some (i, st')) ->
  okr st' /\ List.length st' = List.length st /\ (List.length st = 1 -> i <> 0).
Proof.
  intros Hst Hx. unfold stack_resolve. destruct (find_frame st x) as [[n j]|] eqn:E; [|discriminate].
  pose proof (find_bound _ _ _ _ E) as Hb. pose proof (find_root _ _ _ _ Hst Hx E) as Hr. destruct n as [|n].
  - intros [= -> ->]. repeat split; auto.
  - destruct (install_captures (S n) st (closed_symbol x) j) as [[k st1]|] eqn:Ei; [|discriminate]. intros [= -> ->].
    destruct (install_okr _ _ _ _ _ _ Hb Hr Hst Ei). repeat split; auto. lia.
Qed.

(** ** Triples *)

Definition tri {A} (rt : bool) (m : M A) (R : A -> Prop) : Prop :=
  forall s, okr (ss_stack s) -> ss_stack s <> [] -> Nat.eqb (List.length (ss_stack s)) 1 = rt ->
  match m s with
  | Some (a, s') => okr (ss_stack s') /\ List.length (ss_stack s') = List.length (ss_stack s) /\ R a
  | None => True
  end.
Definition opt {A} (R : A -> Prop) (o : option A) : Prop := match o with Some a => R a | None => True end.

Lemma tri_ret {A} rt (a : A) (R : A -> Prop) : R a -> tri rt (ret a) R.
Proof. intros H s Hs _ _. cbn. auto. Qed.
Lemma tri_bind {A B} rt (m : M A) (k : A -> M B) R R' :
  tri rt m R -> (forall a, R a -> tri rt (k a) R') -> tri rt (bind m k) R'.
Proof.
  intros Hm Hk s Hs Hn Hl. unfold bind. specialize (Hm s Hs Hn Hl). destruct (m s) as [[a s1]|]; [|exact I].
  destruct Hm as (H1 & H2 & Ha). assert (Hn1 : ss_stack s1 <> []) by (intros E; rewrite E in H2; destruct (ss_stack s); [auto|discriminate]).
  rewrite <- H2 in Hl. specialize (Hk a Ha s1 H1 Hn1 Hl). destruct (k a s1) as [[b s2]|]; [|exact I]. rewrite <- H2. exact Hk.
Qed.
Lemma tri_report rt k p : tri rt (report k p) (fun _ => True).
Proof. intros s Hs _ _. cbn. auto. Qed.
Lemma tri_refuse {A} rt k p (R : option A -> Prop) : R None -> tri rt (_ <- report k p ;; ret None) R.
Proof. intros H. eapply tri_bind; [apply tri_report|]. intros _ _. now apply tri_ret. Qed.

Lemma tri_declare rt x p : tri rt (declare x p) (opt (free rt)).
Proof.
  intros s Hs Hn Hl. unfold declare. destruct (ss_stack s) as [|f st] eqn:Es; [congruence|]. unfold frame_declare.
  destruct (fr_scopes f) as [|sc scs] eqn:Esc; [exact I|]. unfold scope_declare. destruct (assoc x sc).
  - cbn. rewrite Es. auto.
  - cbn [ss_stack]. destruct Hs as [Hf Hst]. split; [|split; [reflexivity|]].
    + split; [|exact Hst]. destruct st as [|g [|]]; cbn [List.length okf] in *; auto. destruct Hf as (H1 & H2 & H3).
      split; [|split; [discriminate|exact H3]]. cbn [fr_scopes concat app]. rewrite Esc in H1. constructor; auto.
    + cbn. intros ->. destruct st; [|discriminate]. apply Hf.
Qed.
Lemma tri_resolve rt x p : x <> std -> tri rt (resolve x p) (opt (free rt)).
Proof.
  intros Hx s Hs Hn Hl. unfold resolve. destruct (stack_resolve (ss_stack s) x) as [[[i st]|]|] eqn:E; [|cbn; auto|exact I].
  destruct (stack_resolve_okr _ _ _ _ Hs Hx E) as (H1 & H2 & H3). cbn [ss_stack]. split; [exact H1|]. split; [exact H2|].
  cbn. intros ->. apply H3. now apply Nat.eqb_eq.
Qed.
Lemma tri_self rt : tri rt resolve_self (free rt).
Proof.
  intros s Hs Hn Hl. unfold resolve_self. destruct (ss_stack s) as [|f st] eqn:Es; [congruence|]. unfold frame_self.
  destruct Hs as [Hf Hst]. destruct (fr_self f) as [ix|] eqn:Ef; cbn [ss_stack okr List.length].
  - repeat split; auto. intros ->. destruct st; [|discriminate]. destruct Hf as (_ & _ & H). intros ->. auto.
  - split; [split; [|exact Hst]|split; [reflexivity|]].
    + destruct st as [|g [|]]; cbn [List.length okf] in *; auto. destruct Hf as (H1 & H2 & H3). split; [exact H1|]. split; [discriminate|].
      cbn. congruence.
    + intros ->. destruct st; [|discriminate]. apply Hf.
Qed.
Lemma tri_enter rt : tri rt enter_block (fun _ => True).
Proof.
  intros s Hs Hn Hl. unfold enter_block. destruct (ss_stack s) as [|f st]; [exact I|]. cbn [ss_stack okr List.length]. split; [|split; auto].
  destruct Hs as [Hf Hst]. split; [|exact Hst]. destruct st as [|g [|]]; exact Hf.
Qed.
Lemma tri_exit rt : tri rt exit_block (fun _ => True).
Proof.
  intros s Hs Hn Hl. unfold exit_block. destruct (ss_stack s) as [|f st]; [exact I|]. unfold frame_exit_block.
  destruct (fr_scopes f) as [|sc scs] eqn:E; [exact I|]. cbn [ss_stack okr List.length]. split; [|split; auto].
  destruct Hs as [Hf Hst]. split; [|exact Hst]. destruct st as [|g [|]]; [|exact Hf|exact I]. destruct Hf as (H1 & H2).
  split; [|exact H2]. rewrite E in H1. cbn [concat] in H1. apply Forall_app in H1. apply H1.
Qed.
Lemma tri_clear rt : tri rt clear_keys (fun _ => True).
Proof. intros s Hs Hn Hl. cbn. auto. Qed.
Lemma tri_key rt x p : tri rt (insert_key x p) (fun _ => True).
Proof.
  intros s Hs Hn Hl. unfold insert_key. destruct (is_ill_symbol x); [cbn; auto|]. destruct (existsb _ _); cbn; auto.
Qed.
Lemma tri_items {A B} rt (f : A -> M (option B)) (R : B -> Prop) l :
  Forall (fun x => tri rt (f x) (opt R)) l -> tri rt (items f l) (opt (each R)).
Proof.
  induction 1 as [|x l Hx Hl IH]; [now apply tri_ret|]. cbn [items]. eapply tri_bind; [exact Hx|]. intros b Hb.
  eapply tri_bind; [exact IH|]. intros bs Hbs. apply tri_ret. destruct b, bs; cbn in *; auto.
Qed.
Lemma tri_params rt ps : tri rt (declare_params ps) (fun _ => True).
Proof.
  induction ps as [|[x p] ps IH]; [now apply tri_ret|]. cbn [declare_params].
  apply (tri_bind _ _ _ (fun _ => True)).
  - destruct (is_ill_symbol x); [now apply tri_ret|]. intros s Hs Hn Hl. pose proof (tri_declare rt x p s Hs Hn Hl) as H.
    destruct (declare x p s) as [[a s1]|]; [|exact I]. destruct H as (H1 & H2 & _). auto.
  - intros a _. eapply tri_bind; [exact IH|]. intros b _. now apply tri_ret.
Qed.

Lemma tri_function {A B} rt (m : M A) (k : A -> M B) (R : A -> Prop) (R' : B -> Prop) (g : A -> B -> frame_info -> option xexpr) :
  tri false m R -> (forall a, tri false (k a) R') ->
  (forall a b fi, R a -> R' b -> Forall (fun c => free rt (cap_from c)) (fi_captures fi) -> opt (silent rt) (g a b fi)) ->
  tri rt (_ <- enter_frame ;; a <- m ;; b <- k a ;; fi <- exit_frame ;; ret (g a b fi)) (opt (silent rt)).
Proof.
  intros Hm Hk Hg s Hs Hn Hl. unfold bind at 1. cbn [enter_frame].
  assert (H : tri false (a <- m ;; b <- k a ;; ret (a, b)) (fun ab => R (fst ab) /\ R' (snd ab))).
  { eapply tri_bind; [exact Hm|]. intros a Ha. eapply tri_bind; [apply Hk|]. intros b Hb. now apply tri_ret. }
  specialize (H (mksstate (frame_new :: ss_stack s) (ss_keys s) (ss_errors s))). unfold bind in *. cbn [ss_stack] in H.
  assert (Ho : okr (frame_new :: ss_stack s)).
  { split; [|exact Hs]. destruct (ss_stack s) as [|? [|]]; [congruence|constructor|exact I]. }
  assert (Hf1 : Nat.eqb (List.length (frame_new :: ss_stack s)) 1 = false) by (cbn [List.length]; destruct (ss_stack s); [congruence|reflexivity]).
  assert (Hn1 : frame_new :: ss_stack s <> []) by discriminate.
  pose proof (H Ho Hn1 Hf1) as H'.
  destruct (m _) as [[a s1]|]; [|exact I]. destruct (k a s1) as [[b s2]|]; [|exact I]. cbn [ret ss_stack fst snd] in H'.
    destruct H' as (H1 & H2 & Ha & Hb). unfold exit_frame. destruct (ss_stack s2) as [|f st]; [exact I|].
    unfold frame_exit_block. destruct (fr_scopes f); [exact I|]. cbn [ret ss_stack]. destruct H1 as [Hf Hst].
    injection H2 as H2. split; [exact Hst|]. split; [exact H2|]. apply Hg; auto. cbn [frame_to_info fi_captures set_scopes fr_captures].
    destruct rt; [|apply Forall_forall; intros ? _ E; discriminate E].
    apply Nat.eqb_eq in Hl. rewrite Hl in H2. rewrite H2 in Hf. eapply Forall_impl; [|exact Hf]. intros ? E _. exact E.
Qed.

(** ** Trees *)

Definition ET (e : expr) : Prop := forall fn lp rt, unaided e -> tri rt (analyze_expr fn lp e) (opt (silent rt)).
Definition ST (s : statement) : Prop := forall fn lp rt, unaided_statement s -> tri rt (analyze_statement fn lp s) (opt (silent_statement rt)).
Definition BT (b : block) : Prop := forall fn lp rt, unaided_block b -> tri rt (analyze_block fn lp b) (opt (each (silent_statement rt))).
Definition ET' (e : expr) : Prop := ET e /\ match e with EAccess o f _ => ET o /\ ET f | _ => True end.

Lemma all_tri es fn lp rt : Forall ET' es -> each unaided es -> Forall (fun e => tri rt (analyze_expr fn lp e) (opt (silent rt))) es.
Proof. induction 1 as [|e es [He _] _ IH]; intros Hw; constructor; [apply He, Hw|apply IH, Hw]. Qed.

Ltac fin := apply tri_ret; repeat match goal with x : option _ |- _ => destruct x end; cbn in *; auto.
Ltac go := match goal with
  | |- tri _ (_ <- enter_block ;; _) _ => eapply tri_bind; [apply tri_enter|intros _ _]
  | |- tri _ (_ <- exit_block ;; _) _ => eapply tri_bind; [apply tri_exit|intros _ _]
  | H : forall fn lp rt, _ -> tri rt (analyze_expr fn lp ?e) _ |- tri _ (bind (analyze_expr _ _ ?e) _) _ =>
      eapply tri_bind; [apply H; assumption|intros]
  | H : forall fn lp rt, _ -> tri rt (analyze_block fn lp ?e) _ |- tri _ (bind (analyze_block _ _ ?e) _) _ =>
      eapply tri_bind; [apply H; assumption|intros]
  | |- tri _ (ret _) _ => fin
  end.

Lemma tree_tri : (forall e, ET' e) /\ (forall s, ST s) /\ (forall b, BT b).
Proof.
  apply tree_ind; unfold ET', ET, ST, BT.
  - split; [|exact I]. intros fn lp rt _. now apply tri_ret.
  - intros p. split; [|exact I]. intros fn lp rt _. cbn [analyze_expr]. destruct fn; [|now apply tri_refuse].
    eapply tri_bind; [apply tri_self|]. intros; fin.
  - intros x p. split; [|exact I]. intros fn lp rt Hx. cbn [analyze_expr]. destruct (is_ill_symbol x); [now apply tri_ret|].
    eapply tri_bind; [now apply tri_resolve|]. intros; fin.
  - intros l p. split; [|exact I]. intros fn lp rt _. now apply tri_ret.
  - intros x p. split; [|exact I]. intros fn lp rt _. apply tri_ret. now destruct (is_ill_symbol x).
  - intros es p Hes. split; [|exact I]. intros fn lp rt Hw. cbn [analyze_expr].
    eapply tri_bind; [apply tri_items, all_tri; [exact Hes|exact Hw]|]. intros; fin.
  - intros kvs p Hkvs. split; [|exact I]. intros fn lp rt Hw. cbn [analyze_expr].
    eapply tri_bind; [apply tri_clear|intros _ _].
    eapply tri_bind; [apply (tri_items _ _ (fun kv => silent rt (snd kv)))|intros; fin].
    cbn [unaided] in Hw. induction Hkvs as [|kv kvs [Hkv _] _ IH]; constructor; [|apply IH, Hw].
    eapply tri_bind; [apply tri_key|]. intros k _. eapply tri_bind; [apply Hkv, Hw|]. intros; fin.
  - intros ps b p Hb. split; [|exact I]. intros fn lp rt Hw. cbn [analyze_expr].
    apply (tri_function rt _ _ (fun _ => True) (opt (each (silent_statement false)))
      (fun r body fi => match zip r body with Some (_, body) => Some (XFunction (List.length ps) fi body p) | None => None end)).
    + apply tri_params.
    + intros _. apply Hb, Hw.
    + intros r body fi _ Hbody Hfi. destruct r, body; cbn in *; auto.
  - intros op e p [He _]. split; [|exact I]. intros fn lp rt Hw. cbn [analyze_expr unaided] in *. go.
    match goal with |- tri _ (match ?a with _ => _ end) _ => destruct a as [x|] end; [|go].
    destruct op, fn; try go. now apply tri_refuse.
  - intros a op b p [Ha _] [Hb _]. split; [|exact I]. intros fn lp rt [H1 H2]. cbn [analyze_expr]. repeat go.
  - intros c t e p [Hc _] Ht He. split; [|exact I]. intros fn lp rt (H1 & H2 & H3). cbn [analyze_expr]. repeat go.
  - intros o f p [Ho _] [Hf _]. split; [|split; assumption]. intros fn lp rt [H1 H2]. cbn [analyze_expr]. repeat go.
  - intros f args p [Hf _] Hargs. split; [|exact I]. intros fn lp rt [H1 H2]. cbn [analyze_expr]. go.
    eapply tri_bind; [apply tri_items, all_tri; [exact Hargs|exact H2]|]. intros; fin.
  - intros b p. split; [|exact I]. intros fn lp rt [].
  - intros fn lp rt _. now apply tri_ret.
  - intros x e p [He _] fn lp rt Hw. cbn [analyze_statement unaided_statement] in *.
    eapply tri_bind; [apply tri_declare|]. intros; repeat go.
  - intros l e p Hl [He _] fn lp rt [H1 H2]. cbn [analyze_statement].
    eapply (tri_bind _ _ _ (opt (silent_target rt))); [|intros; repeat go].
    destruct l; try (now apply tri_refuse).
    + cbn [unaided] in H1. destruct (is_ill_symbol s); [now apply tri_refuse|].
      eapply tri_bind; [now apply tri_resolve|]. intros; fin.
    + destruct Hl as (_ & Ho & Hf), H1 as (H3 & H4). repeat go.
  - intros e p [He _] fn lp rt Hw. cbn [analyze_statement unaided_statement] in *.
    apply (tri_bind _ _ _ (fun _ => True)); [|intros; repeat go]. destruct fn; [now apply tri_ret|now apply tri_refuse].
  - intros p fn lp rt _. cbn [analyze_statement]. destruct lp; [now apply tri_ret|now apply tri_refuse].
  - intros c b p [Hc _] Hb fn lp rt [H1 H2]. cbn [analyze_statement]. repeat go.
  - intros x e b p [He _] Hb fn lp rt [H1 H2]. cbn [analyze_statement]. repeat go.
    eapply tri_bind; [destruct (is_ill_symbol x); [apply (tri_ret rt None (opt (free rt)) I)|apply tri_declare]|]. intros; repeat go.
  - intros e [He _] fn lp rt Hw. cbn [analyze_statement unaided_statement] in *. repeat go.
  - intros fn lp rt _. now apply tri_ret.
  - intros ss Hss fn lp rt Hw. cbn [analyze_block unaided_block] in *. apply tri_items.
    induction Hss as [|s ss Hs _ IH]; constructor; [apply Hs, Hw|apply IH, Hw].
Qed.

Lemma sema_silent b p : unaided_block b -> sema b = SemaOk p -> each (silent_statement true) (pr_statements p).
Proof.
  intros Hb. unfold sema.
  pose (s0 := mksstate [mkframe 1 [] None [[(std, 0)]]] [] []).
  pose (k := r <- analyze_block false false b ;; fi <- exit_frame ;; ret (r, fi)).
  assert (Ek : (_ <- enter_frame ;; _ <- declare std (mkpos 0 0) ;;
      r <- analyze_block false false b ;; fi <- exit_frame ;; ret (r, fi)) (mksstate [] [] []) = k s0) by reflexivity.
  rewrite Ek. clear Ek. unfold k, bind.
  pose proof (proj2 (proj2 tree_tri) b false false true Hb s0) as H.
  destruct (analyze_block false false b s0) as [[r s1]|]; [|discriminate].
  destruct (exit_frame s1) as [[fi s2]|]; [|discriminate]. cbn [ret]. destruct r as [ss|]; [|discriminate].
  destruct (ss_errors s2); [|discriminate]. intros [= <-]. cbn [pr_statements].
  apply H; [|discriminate|reflexivity]. split; [|exact I]. split; [|split; discriminate].
  constructor; [|constructor]. cbn. congruence.
Qed.
