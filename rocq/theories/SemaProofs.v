(** The semantic analyser accepts legal programs, addresses every variable by its scope, and
    never panics. *)
From Coq Require Import Strings.String.
From Verif Require Import Base Lexer Ast Program Sema SpecLexer SpecParser SpecSema LexerProofs.
From Coq Require Import Lia Permutation.
Local Open Scope sema_scope.

(** ** Induction on syntax trees *)

Section Ind.
  Variables (P : expr -> Prop) (Q : statement -> Prop) (R : block -> Prop).
  Hypotheses
    (P0 : P EIllFormed)
    (P1 : forall p, P (ESelf p))
    (P2 : forall s p, P (EIdent s p))
    (P3 : forall l p, P (ELit l p))
    (P4 : forall s p, P (EFieldName s p))
    (P5 : forall es p, Forall P es -> P (EArray es p))
    (P6 : forall kvs p, Forall (fun kv => P (snd kv)) kvs -> P (EDict kvs p))
    (P7 : forall ps b p, R b -> P (EFunction ps b p))
    (P8 : forall op e p, P e -> P (EUnary op e p))
    (P9 : forall l op r p, P l -> P r -> P (EBinary l op r p))
    (P10 : forall c t e p, P c -> R t -> R e -> P (EIf c t e p))
    (P11 : forall o f p, P o -> P f -> P (EAccess o f p))
    (P12 : forall f args p, P f -> Forall P args -> P (ECall f args p))
    (P13 : forall b p, P (ECommand b p))
    (Q0 : Q SIllFormed)
    (Q1 : forall x e p, P e -> Q (SLet x e p))
    (Q2 : forall l r p, P l -> P r -> Q (SAssign l r p))
    (Q3 : forall e p, P e -> Q (SReturn e p))
    (Q4 : forall p, Q (SBreak p))
    (Q5 : forall c b p, P c -> R b -> Q (SWhile c b p))
    (Q6 : forall x e b p, P e -> R b -> Q (SFor x e b p))
    (Q7 : forall e, P e -> Q (SExpr e))
    (R0 : R BIllFormed)
    (R1 : forall ss, Forall Q ss -> R (BBlock ss)).

  Fixpoint expr_rect' (e : expr) : P e :=
    match e with
    | EIllFormed => P0
    | ESelf p => P1 p
    | EIdent s p => P2 s p
    | ELit l p => P3 l p
    | EFieldName s p => P4 s p
    | EArray es p =>
      P5 es p ((fix go l : Forall P l := match l with [] => Forall_nil _ | x :: l => Forall_cons x (expr_rect' x) (go l) end) es)
    | EDict kvs p =>
      P6 kvs p ((fix go l : Forall (fun kv => P (snd kv)) l :=
        match l with [] => Forall_nil _ | x :: l => Forall_cons x (expr_rect' (snd x)) (go l) end) kvs)
    | EFunction ps b p => P7 ps b p (block_rect' b)
    | EUnary op e p => P8 op e p (expr_rect' e)
    | EBinary l op r p => P9 l op r p (expr_rect' l) (expr_rect' r)
    | EIf c t e p => P10 c t e p (expr_rect' c) (block_rect' t) (block_rect' e)
    | EAccess o f p => P11 o f p (expr_rect' o) (expr_rect' f)
    | ECall f args p =>
      P12 f args p (expr_rect' f)
        ((fix go l : Forall P l := match l with [] => Forall_nil _ | x :: l => Forall_cons x (expr_rect' x) (go l) end) args)
    | ECommand b p => P13 b p
    end
  with statement_rect' (s : statement) : Q s :=
    match s with
    | SIllFormed => Q0
    | SLet x e p => Q1 x e p (expr_rect' e)
    | SAssign l r p => Q2 l r p (expr_rect' l) (expr_rect' r)
    | SReturn e p => Q3 e p (expr_rect' e)
    | SBreak p => Q4 p
    | SWhile c b p => Q5 c b p (expr_rect' c) (block_rect' b)
    | SFor x e b p => Q6 x e b p (expr_rect' e) (block_rect' b)
    | SExpr e => Q7 e (expr_rect' e)
    end
  with block_rect' (b : block) : R b :=
    match b with
    | BIllFormed => R0
    | BBlock ss =>
      R1 ss ((fix go l : Forall Q l := match l with [] => Forall_nil _ | x :: l => Forall_cons x (statement_rect' x) (go l) end) ss)
    end.

  Lemma tree_ind : (forall e, P e) /\ (forall s, Q s) /\ (forall b, R b).
  Proof. repeat split; [exact expr_rect'|exact statement_rect'|exact block_rect']. Qed.
End Ind.

(** ** Names *)

Definition plainb (k : symbol) : bool := forallb word_byte k.

Lemma plainb_iff k : plainb k = true <-> plain_name k.
Proof. unfold plainb, plain_name. rewrite forallb_forall, Forall_forall. reflexivity. Qed.

Lemma closed_not_plain x : plainb (closed_symbol x) = false.
Proof.
  unfold plainb, closed_symbol. rewrite forallb_app.
  assert (forallb word_byte (bs "@closed"%string) = false) as -> by reflexivity. apply andb_false_r.
Qed.

Lemma closed_inj x y : closed_symbol x = closed_symbol y -> x = y.
Proof. unfold closed_symbol. apply app_inv_tail. Qed.

Lemma plain_not_ill x : plain_name x -> is_ill_symbol x = false.
Proof.
  intros H. unfold is_ill_symbol. destruct (bytes_eqb x ill_symbol) eqn:E; [|reflexivity].
  apply bytes_eqb_eq in E as ->. apply plainb_iff in H. discriminate H.
Qed.

Definition user (sc : scope) : scope := filter (fun kv => plainb (fst kv)) sc.

Lemma beq_refl s : bytes_eqb s s = true.
Proof. now apply bytes_eqb_eq. Qed.

Lemma beq_neq a b : bytes_eqb a b = false <-> a <> b.
Proof.
  split.
  - intros H ->. now rewrite beq_refl in H.
  - intros H. destruct (bytes_eqb a b) eqn:E; [|reflexivity]. apply bytes_eqb_eq in E. contradiction.
Qed.

Lemma assoc_user x sc : plain_name x -> assoc x (user sc) = assoc x sc.
Proof.
  intros H. induction sc as [|[k v] sc IH]; [reflexivity|]. unfold user in *. cbn [filter fst].
  destruct (plainb k) eqn:Ek; cbn [assoc].
  - now rewrite IH.
  - rewrite IH. destruct (bytes_eqb k x) eqn:E; [|reflexivity]. apply bytes_eqb_eq in E as ->.
    apply plainb_iff in H. congruence.
Qed.

Lemma resolve_user x scs : plain_name x -> scopes_resolve x (map user scs) = scopes_resolve x scs.
Proof. intros H. induction scs as [|sc scs IH]; [reflexivity|]. cbn. now rewrite assoc_user, IH. Qed.

Lemma assoc_app x l1 l2 : assoc x (l1 ++ l2) = match assoc x l1 with Some i => Some i | None => assoc x l2 end.
Proof. induction l1 as [|[k v] l IH]; [reflexivity|]. cbn. now destruct (bytes_eqb k x). Qed.

Lemma resolve_concat x scs : scopes_resolve x scs = assoc x (concat scs).
Proof. induction scs as [|sc scs IH]; [reflexivity|]. cbn. now rewrite assoc_app, IH. Qed.

Lemma assoc_first x i l : assoc x l = Some i -> first_of x i l.
Proof.
  induction l as [|[k v] l IH]; [discriminate|]. cbn. destruct (bytes_eqb k x) eqn:E.
  - apply bytes_eqb_eq in E as ->. intros [= ->]. constructor.
  - intros H. constructor; [now apply beq_neq|auto].
Qed.

Lemma assoc_none x l : assoc x l = None <-> absent x l.
Proof.
  unfold absent. induction l as [|[k v] l IH]; cbn; [tauto|]. destruct (bytes_eqb k x) eqn:E.
  - apply bytes_eqb_eq in E as ->. split; [discriminate|tauto].
  - apply beq_neq in E. rewrite IH. tauto.
Qed.

Lemma in_user x sc : plain_name x -> In x (map fst (user sc)) <-> In x (map fst sc).
Proof.
  intros H. pose proof (assoc_user x sc H) as E. destruct (assoc x sc) eqn:E2.
  - split; intros _.
    + destruct (in_dec (list_eq_dec Byte.byte_eq_dec) x (map fst sc)) as [|N]; [assumption|].
      apply assoc_none in N. congruence.
    + destruct (in_dec (list_eq_dec Byte.byte_eq_dec) x (map fst (user sc))) as [|N]; [assumption|].
      apply assoc_none in N. congruence.
  - apply assoc_none in E, E2. unfold absent in *. tauto.
Qed.

(** ** Frames *)

Definition grow (f f' : frame) : Prop :=
  incl (fr_captures f) (fr_captures f') /\ (forall i, fr_self f = Some i -> fr_self f' = Some i).
Definition keep (f f' : frame) : Prop := grow f f' /\ map user (fr_scopes f') = map user (fr_scopes f).
Definition kept : stack -> stack -> Prop := Forall2 keep.
Definition ext (f : frame) (F : frame_info) : Prop :=
  incl (fr_captures f) (fi_captures F) /\ (forall i, fr_self f = Some i -> fi_self F = Some i).

Lemma grow_refl f : grow f f.
Proof. split; [apply incl_refl|auto]. Qed.
Lemma grow_trans f g h : grow f g -> grow g h -> grow f h.
Proof. intros [H1 H2] [H3 H4]. split; [eapply incl_tran; eauto|auto]. Qed.
Lemma keep_refl f : keep f f.
Proof. split; [apply grow_refl|reflexivity]. Qed.
Lemma keep_trans f g h : keep f g -> keep g h -> keep f h.
Proof. intros [H1 H2] [H3 H4]. split; [eapply grow_trans; eauto|congruence]. Qed.
Lemma kept_refl st : kept st st.
Proof. induction st; constructor; auto using keep_refl. Qed.
Lemma kept_trans a b c : kept a b -> kept b c -> kept a c.
Proof.
  intros H. revert c. induction H; intros c Hc; inversion Hc; subst; constructor; eauto using keep_trans.
  apply IHForall2. auto.
Qed.
Lemma ext_grow f f' F : grow f f' -> ext f' F -> ext f F.
Proof. intros [H1 H2] [H3 H4]. split; [eapply incl_tran; eauto|auto]. Qed.
Lemma ext_kept st st' Fs : kept st st' -> Forall2 ext st' Fs -> Forall2 ext st Fs.
Proof.
  intros H. revert Fs. induction H as [|f f' st st' H Hs IH]; intros Fs Hf; inversion Hf; subst; constructor; auto.
  destruct H. eapply ext_grow; eauto.
Qed.

Inductive cden : stack -> symbol -> slot -> Prop :=
| cd_own f st x i : frame_resolve f x = Some i -> cden (f :: st) x i
| cd_captured f st x from i :
    frame_resolve f x = None -> In (mkcapture from i) (fr_captures f) -> cden st x from -> cden (f :: st) x i.

Fixpoint envs (Fs : list frame_info) (st : stack) : env :=
  match Fs, st with
  | F :: Fs, f :: st => mkenv F (map user (fr_scopes f)) :: envs Fs st
  | _, _ => []
  end.

Lemma envs_kept st st' Fs : kept st st' -> envs Fs st' = envs Fs st.
Proof.
  intros H. revert Fs. induction H as [|f f' st st' [_ H] Hs IH]; intros [|F Fs]; cbn; auto. now rewrite H, IH.
Qed.

Lemma resolve_keep f f' x : plain_name x -> map user (fr_scopes f') = map user (fr_scopes f) -> frame_resolve f' x = frame_resolve f x.
Proof. intros Hx H. unfold frame_resolve. rewrite <- resolve_user, H, resolve_user; auto. Qed.

Lemma cden_kept st st' x i : plain_name x -> kept st st' -> cden st x i -> cden st' x i.
Proof.
  intros Hx Hk H. revert st' Hk. induction H; intros st' Hk; inversion Hk as [|? f' ? st'' [Hg Hu] Hk']; subst.
  - apply cd_own. now rewrite (resolve_keep f).
  - eapply cd_captured; [now rewrite (resolve_keep f)|apply Hg; eassumption|auto].
Qed.

Lemma cden_denotes st x i Fs : plain_name x -> cden st x i -> Forall2 ext st Fs -> denotes (envs Fs st) x i.
Proof.
  intros Hx H. revert Fs. induction H; intros Fs Hf; inversion Hf as [|? F ? Fs' [He1 He2] Hf']; subst; cbn.
  - apply dn_own. cbn. apply assoc_first. rewrite <- resolve_concat, resolve_user; auto.
  - eapply dn_captured; cbn; [|apply He1; eassumption|auto].
    apply assoc_none. rewrite <- resolve_concat, resolve_user; auto.
Qed.

(** A frame: [D] are the slots of its variables. *)
Record frame_ok (D : list slot) (f : frame) (st : stack) : Prop := {
  fo_slots : Permutation (D ++ map cap_to (fr_captures f) ++ option_list (fr_self f)) (seq 0 (fr_slots f));
  fo_scopes : fr_scopes f <> [];
  fo_closed : forall x i, plain_name x -> assoc (closed_symbol x) (last (fr_scopes f) []) = Some i ->
    exists from, In (mkcapture from i) (fr_captures f) /\ cden st x from;
  fo_captures : forall c, In c (fr_captures f) -> exists x, plain_name x /\ cden st x (cap_from c) }.

Fixpoint okst (Ds : list (list slot)) (st : stack) : Prop :=
  match Ds, st with
  | [], [] => True
  | D :: Ds, f :: st => frame_ok D f st /\ okst Ds st
  | _, _ => False
  end.

Lemma frame_ok_kept D f st st' : kept st st' -> frame_ok D f st -> frame_ok D f st'.
Proof.
  intros Hk [H1 H2 H3 H4]. split; auto.
  - intros x i Hx Hi. destruct (H3 x i Hx Hi) as (from & Hin & Hc). eauto using cden_kept.
  - intros c Hc. destruct (H4 c Hc) as (x & Hx & Hd). eauto using cden_kept.
Qed.

Lemma root_last scs : scs <> [] -> root_scope scs = Some (last scs []).
Proof.
  induction scs as [|sc scs IH]; [congruence|]. intros _. destruct scs as [|sc' scs]; [reflexivity|].
  change (root_scope (sc :: sc' :: scs)) with (root_scope (sc' :: scs)). rewrite IH by discriminate. reflexivity.
Qed.

Lemma set_root_last scs new : scs <> [] -> last (set_root_scope scs new) [] = new.
Proof.
  induction scs as [|sc scs IH]; [congruence|]. intros _. destruct scs as [|sc' scs]; [reflexivity|].
  change (set_root_scope (sc :: sc' :: scs) new) with (sc :: set_root_scope (sc' :: scs) new).
  rewrite <- (IH ltac:(discriminate)) at 2. destruct (set_root_scope (sc' :: scs) new) eqn:E; [|reflexivity].
  destruct scs; discriminate E.
Qed.

Lemma set_root_user scs k i : plainb k = false ->
  map user (set_root_scope scs ((k, i) :: last scs [])) = map user scs.
Proof.
  intros H. induction scs as [|sc scs IH]; [reflexivity|]. destruct scs as [|sc' scs].
  - cbn [set_root_scope last map]. unfold user; cbn [filter fst]. now rewrite H.
  - change (set_root_scope (sc :: sc' :: scs) ((k, i) :: last (sc :: sc' :: scs) []))
      with (sc :: set_root_scope (sc' :: scs) ((k, i) :: last (sc' :: scs) [])).
    change (map user (sc :: ?l)) with (user sc :: map user l). now rewrite <- IH.
Qed.

Lemma set_root_nonempty scs new : scs <> [] -> set_root_scope scs new <> [].
Proof. destruct scs as [|sc [|sc' scs]]; cbn; congruence. Qed.

Lemma perm_snoc (D C o : list slot) n : Permutation (D ++ C ++ o) (seq 0 n) -> Permutation (D ++ (C ++ [n]) ++ o) (seq 0 (S n)).
Proof.
  intros H. rewrite seq_S. cbn. rewrite <- H. rewrite <- !app_assoc.
  do 2 apply Permutation_app_head. apply Permutation_app_comm.
Qed.

Lemma capture_ok D f st x from :
  plain_name x -> frame_ok D f st -> frame_resolve f x = None -> cden st x from ->
  exists i f', frame_capture f (closed_symbol x) from = Some (i, f') /\
    frame_ok D f' st /\ keep f f' /\ cden (f' :: st) x i.
Proof.
  intros Hx [H1 H2 H3 H4] Hr Hc. unfold frame_capture. rewrite root_last by assumption.
  destruct (assoc (closed_symbol x) (last (fr_scopes f) [])) as [i|] eqn:E.
  - exists i, f. split; [reflexivity|]. split; [split; auto|]. split; [apply keep_refl|].
    destruct (H3 x i Hx E) as (from' & Hin & Hd). eapply cd_captured; eauto.
  - eexists _, _. split; [reflexivity|].
    assert (Hu := set_root_user (fr_scopes f) (closed_symbol x) (fr_slots f) (closed_not_plain x)).
    split; [|split].
    + split; cbn.
      * rewrite map_app. cbn. now apply perm_snoc.
      * now apply set_root_nonempty.
      * intros y i Hy. rewrite set_root_last by assumption. cbn [assoc].
        destruct (bytes_eqb (closed_symbol x) (closed_symbol y)) eqn:Ey.
        -- apply bytes_eqb_eq, closed_inj in Ey as ->. intros [= <-]. exists from. split; auto. apply in_or_app. right; now left.
        -- intros Hi. destruct (H3 y i Hy Hi) as (from' & Hin & Hd). exists from'. split; auto. apply in_or_app. now left.
      * intros c Hin. apply in_app_or in Hin as [Hin|[<-|[]]]; eauto.
    + repeat split; cbn; auto. apply incl_appl, incl_refl.
    + eapply cd_captured; [|cbn; apply in_or_app; right; left; reflexivity|exact Hc].
      rewrite (resolve_keep f); auto.
Qed.

Definition visible (st : stack) (x : symbol) : Prop := Exists (fun f => frame_resolve f x <> None) st.

Lemma install_ok x : plain_name x -> forall st Ds n i,
  okst Ds st -> find_frame st x = Some (n, i) ->
  exists j st', install_captures n st (closed_symbol x) i = Some (j, st') /\
    okst Ds st' /\ kept st st' /\ cden st' x j.
Proof.
  intros Hx. induction st as [|f st IH]; intros Ds n i Hok Hf; [discriminate|].
  cbn [find_frame] in Hf. destruct Ds as [|D Ds]; [destruct Hok|]. destruct Hok as [Hf0 Hok].
  destruct (frame_resolve f x) as [ix|] eqn:Er.
  - injection Hf as <- <-. exists ix, (f :: st). cbn. split; [reflexivity|]. split; [split; auto|].
    split; [apply kept_refl|now apply cd_own].
  - destruct (find_frame st x) as [[m ix]|] eqn:Ef; [|discriminate]. injection Hf as <- <-.
    destruct (IH Ds m ix Hok eq_refl) as (j & st' & E & Hok' & Hk & Hd). cbn [install_captures]. rewrite E.
    destruct (capture_ok D f st' x j Hx (frame_ok_kept _ _ _ _ Hk Hf0) Er Hd) as (i' & f' & E' & Hf' & Hk' & Hd').
    rewrite E'. exists i', (f' :: st'). split; [reflexivity|]. split; [split; auto|]. split; [constructor; auto|auto].
Qed.

Lemma find_visible st x : find_frame st x = None <-> ~ visible st x.
Proof.
  unfold visible. induction st as [|f st IH]; cbn.
  - split; [intros _ H; inversion H|auto].
  - destruct (frame_resolve f x) eqn:E.
    + split; [discriminate|]. intros H. exfalso. apply H. left. congruence.
    + destruct (find_frame st x) as [[m ix]|].
      * split; [discriminate|]. intros H. exfalso.
        assert (~ (Some (m, ix) = None)) as N by discriminate. apply N. apply IH. intros G. apply H. now right.
      * split; [|auto]. intros _ H. inversion H; subst; [congruence|]. now apply IH.
Qed.

Lemma stack_resolve_ok x st Ds : plain_name x -> okst Ds st ->
  (stack_resolve st x = Some None /\ ~ visible st x) \/
  exists j st', stack_resolve st x = Some (Some (j, st')) /\ visible st x /\ okst Ds st' /\ kept st st' /\ cden st' x j.
Proof.
  intros Hx Hok. unfold stack_resolve. destruct (find_frame st x) as [[n i]|] eqn:E.
  - right. destruct (install_ok x Hx st Ds n i Hok E) as (j & st' & Ei & Hok' & Hk & Hd).
    exists j, st'. split.
    + destruct n; [|now rewrite Ei]. cbn in Ei. now injection Ei as -> ->.
    + split; auto. destruct (Exists_dec (fun f => frame_resolve f x <> None) st) as [|N]; auto.
      * intros f. destruct (frame_resolve f x); [left; discriminate|right; congruence].
      * exfalso. apply find_visible in N. congruence.
  - left. split; auto. now apply find_visible.
Qed.

(** ** Specifications of computations *)

Definition dupkey (e : serror) : Prop := exists k, se_kind e = DuplicateKey k.

(** [m], run in a state that differs from [st] only by what has been captured, never panics; if
    [L] holds it reports duplicate keys only; if it reports nothing then [L] holds and the
    result is related to the environment by [A]. *)
Definition spec {X} (m : M (option X)) (L : Prop) (A : env -> X -> list slot -> Prop) (st : stack) : Prop :=
  forall s D Ds, kept st (ss_stack s) -> okst (D :: Ds) (ss_stack s) ->
  exists r s' es ds,
    m s = Some (r, s') /\ ss_errors s' = ss_errors s ++ es /\
    okst ((D ++ ds) :: Ds) (ss_stack s') /\ kept (ss_stack s) (ss_stack s') /\
    (L -> Forall dupkey es) /\
    (es = [] -> L /\ exists x, r = Some x /\ forall Fs, Forall2 ext (ss_stack s') Fs -> A (envs Fs st) x ds).

Definition wspec {X} (m : M (option X)) (L : Prop) (st : stack) : Prop :=
  forall s D Ds, kept st (ss_stack s) -> okst (D :: Ds) (ss_stack s) ->
  exists r s' es ds,
    m s = Some (r, s') /\ ss_errors s' = ss_errors s ++ es /\
    okst ((D ++ ds) :: Ds) (ss_stack s') /\ kept (ss_stack s) (ss_stack s') /\
    (L -> Forall dupkey es).

Lemma spec_weak {X} (m : M (option X)) L A st : spec m L A st -> wspec m L st.
Proof.
  intros H s D Ds Hk Hok. destruct (H s D Ds Hk Hok) as (r & s' & es & ds & H1 & H2 & H3 & H4 & H5 & _).
  exists r, s', es, ds. auto.
Qed.

Lemma spec_conseq {X} (m : M (option X)) L L' (A A' : env -> X -> list slot -> Prop) st :
  spec m L A st -> (L <-> L') -> (forall en x ds, A en x ds -> A' en x ds) -> spec m L' A' st.
Proof.
  intros H HL HA s D Ds Hk Hok. destruct (H s D Ds Hk Hok) as (r & s' & es & ds & H1 & H2 & H3 & H4 & H5 & H6).
  exists r, s', es, ds. do 4 (split; [assumption|]). split; [tauto|]. intros He. destruct (H6 He) as (HL' & x & Hx & HF).
  split; [tauto|]. exists x. split; auto.
Qed.

Lemma spec_ext {X} (m m' : M (option X)) L A st : (forall s, m s = m' s) -> spec m' L A st -> spec m L A st.
Proof. intros E H s D Ds Hk Hok. rewrite E. auto. Qed.
Lemma wspec_ext {X} (m m' : M (option X)) L st : (forall s, m s = m' s) -> wspec m' L st -> wspec m L st.
Proof. intros E H s D Ds Hk Hok. rewrite E. auto. Qed.

Lemma wspec_ret {X} (r : option X) L st : wspec (ret r) L st.
Proof.
  intros s D Ds Hk Hok. exists r, s, [], []. rewrite !app_nil_r. repeat split; auto using kept_refl.
Qed.

Lemma spec_ret {X} (x : X) (A : env -> X -> list slot -> Prop) st :
  (forall Fs, Forall2 ext st Fs -> A (envs Fs st) x []) -> spec (ret (Some x)) True A st.
Proof.
  intros H s D Ds Hk Hok. exists (Some x), s, [], []. rewrite !app_nil_r. split; [reflexivity|].
  split; [reflexivity|]. split; [assumption|]. split; [apply kept_refl|]. split; [constructor|].
  intros _. split; [exact I|]. exists x. split; auto. intros Fs HF. apply H. eapply ext_kept; eauto.
Qed.

Lemma spec_report {X} k p (r : option X) L A st :
  ~ L -> spec (_ <- report k p ;; ret r) L A st.
Proof.
  intros HL s D Ds Hk Hok. eexists _, _, [mkserror k p], []. rewrite app_nil_r. cbn.
  split; [reflexivity|]. cbn. split; [reflexivity|]. split; [assumption|]. split; [apply kept_refl|].
  split; [tauto|discriminate].
Qed.

Lemma spec_bind {X Y} (m : M (option X)) (k : option X -> M (option Y)) L1 L2
    (A1 : env -> X -> list slot -> Prop) (A2 : X -> env -> Y -> list slot -> Prop) st :
  spec m L1 A1 st -> (forall r, wspec (k r) L2 st) -> (forall a, spec (k (Some a)) L2 (A2 a) st) ->
  spec (bind m k) (L1 /\ L2) (fun en y ds => exists a d1 d2, ds = d1 ++ d2 /\ A1 en a d1 /\ A2 a en y d2) st.
Proof.
  intros H Hw Hs s D Ds Hk Hok. destruct (H s D Ds Hk Hok) as (r & s1 & es1 & ds1 & E1 & Eerr & Hok1 & Hk1 & Hl1 & Hg1).
  unfold bind. rewrite E1.
  assert (Hk' : kept st (ss_stack s1)) by (eapply kept_trans; eauto).
  destruct es1 as [|e es1].
  - destruct (Hg1 eq_refl) as (HL1 & a & -> & HA1).
    destruct (Hs a s1 (D ++ ds1) Ds Hk' Hok1) as (r2 & s2 & es2 & ds2 & E2 & Eerr2 & Hok2 & Hk2 & Hl2 & Hg2).
    exists r2, s2, es2, (ds1 ++ ds2). rewrite (app_assoc D). split; [assumption|]. split; [rewrite Eerr2, Eerr, app_nil_r; reflexivity|].
    split; [assumption|]. split; [eapply kept_trans; eauto|]. split; [tauto|].
    intros He. destruct (Hg2 He) as (HL2 & y & Hy & HA2). split; [tauto|]. exists y. split; [assumption|].
    intros Fs HF. exists a, ds1, ds2. split; [reflexivity|]. split; [|now apply HA2]. apply HA1. eapply ext_kept; eauto.
  - destruct (Hw r s1 (D ++ ds1) Ds Hk' Hok1) as (r2 & s2 & es2 & ds2 & E2 & Eerr2 & Hok2 & Hk2 & Hl2).
    exists r2, s2, ((e :: es1) ++ es2), (ds1 ++ ds2). rewrite (app_assoc D). split; [assumption|].
    split; [rewrite Eerr2, Eerr, app_assoc; reflexivity|]. split; [assumption|]. split; [eapply kept_trans; eauto|].
    split; [|discriminate]. intros [HL1 HL2]. apply Forall_app. split; auto.
Qed.

Lemma wspec_bind {X Y} (m : M (option X)) (k : option X -> M (option Y)) (L1 L2 L : Prop) st :
  wspec m L1 st -> (forall r, wspec (k r) L2 st) -> (L -> L1 /\ L2) -> wspec (bind m k) L st.
Proof.
  intros H Hw HL s D Ds Hk Hok. destruct (H s D Ds Hk Hok) as (r & s1 & es1 & ds1 & E1 & Eerr & Hok1 & Hk1 & Hl1).
  unfold bind. rewrite E1.
  assert (Hk' : kept st (ss_stack s1)) by (eapply kept_trans; eauto).
  destruct (Hw r s1 (D ++ ds1) Ds Hk' Hok1) as (r2 & s2 & es2 & ds2 & E2 & Eerr2 & Hok2 & Hk2 & Hl2).
  exists r2, s2, (es1 ++ es2), (ds1 ++ ds2). rewrite (app_assoc D). split; [assumption|].
  split; [rewrite Eerr2, Eerr, app_assoc; reflexivity|]. split; [assumption|]. split; [eapply kept_trans; eauto|].
  intros HL'. apply Forall_app. split; tauto.
Qed.

Lemma spec_map {X Y} (m : M (option X)) (g : option X -> option Y) (f : X -> Y) L (A : env -> X -> list slot -> Prop) st :
  spec m L A st -> (forall x, g (Some x) = Some (f x)) ->
  spec (r <- m ;; ret (g r)) L (fun en y ds => exists x, y = f x /\ A en x ds) st.
Proof.
  intros H Hg. eapply spec_conseq; [eapply (spec_bind _ _ _ True _ (fun a _ y ds => y = f a /\ ds = [])); [exact H|..]| |].
  - intros r. apply wspec_ret.
  - intros a. rewrite Hg. apply spec_ret. auto.
  - tauto.
  - intros en y ds (a & d1 & d2 & -> & HA & -> & ->). rewrite app_nil_r. eauto.
Qed.

Lemma spec_both {X Y Z} (m1 : M (option X)) (m2 : M (option Y)) (g : option X -> option Y -> option Z) (f : X -> Y -> Z)
    L1 L2 (A1 : env -> X -> list slot -> Prop) (A2 : env -> Y -> list slot -> Prop) st :
  spec m1 L1 A1 st -> spec m2 L2 A2 st -> (forall a b, g (Some a) (Some b) = Some (f a b)) ->
  spec (a <- m1 ;; b <- m2 ;; ret (g a b)) (L1 /\ L2)
    (fun en z ds => exists a b d1 d2, z = f a b /\ ds = d1 ++ d2 /\ A1 en a d1 /\ A2 en b d2) st.
Proof.
  intros H1 H2 Hg. eapply spec_conseq; [eapply (spec_bind _ _ _ L2 _ (fun a en z ds => exists b, z = f a b /\ A2 en b ds)); [exact H1|..]| |].
  - intros r. eapply wspec_bind; [eapply spec_weak; exact H2|intros; apply (wspec_ret _ True)|tauto].
  - intros a. eapply spec_map; eauto.
  - tauto.
  - intros en z ds (a & d1 & d2 & -> & HA & b & -> & HB). eexists a, b, d1, d2. auto.
Qed.

(** lists *)
Inductive many {X Y} (A : X -> Y -> list slot -> Prop) : list X -> list Y -> list slot -> Prop :=
| many_nil : many A [] [] []
| many_cons x y xs ys d1 d2 : A x y d1 -> many A xs ys d2 -> many A (x :: xs) (y :: ys) (d1 ++ d2).

Lemma spec_items {X Y} (f : X -> M (option Y)) (L : X -> Prop) (A : X -> env -> Y -> list slot -> Prop) st l :
  Forall (fun x => spec (f x) (L x) (A x) st) l ->
  spec (items f l) (Forall L l) (fun en ys ds => many (fun x y d => A x en y d) l ys ds) st.
Proof.
  induction 1 as [|x l H Hl IH].
  - eapply spec_conseq; [apply (spec_ret [] (fun en ys ds => ys = [] /\ ds = []))|..]; auto.
    + split; auto.
    + intros en ys ds [-> ->]. constructor.
  - cbn [items]. eapply spec_conseq; [eapply (spec_both _ _ _ cons); [exact H|exact IH|reflexivity]|..].
    + split; [intros []; constructor; auto|intros HF; inversion HF; auto].
    + intros en ys ds (y & ys' & d1 & d2 & -> & -> & HA & HB). constructor; auto.
Qed.

Lemma many_plain {X Y} (R : X -> Y -> Prop) l ys ds :
  many (fun x y d => d = [] /\ R x y) l ys ds -> ds = [] /\ Forall2 R l ys.
Proof. induction 1 as [|x y xs ys d1 d2 [-> H] Hm [-> IH]]; auto. Qed.

Lemma spec_items_plain {X Y} (f : X -> M (option Y)) (L : X -> Prop) (R : env -> X -> Y -> Prop) st l :
  Forall (fun x => spec (f x) (L x) (fun en y ds => ds = [] /\ R en x y) st) l ->
  spec (items f l) (Forall L l) (fun en ys ds => ds = [] /\ Forall2 (R en) l ys) st.
Proof.
  intros H. eapply spec_conseq; [apply (spec_items f L (fun x en y ds => ds = [] /\ R en x y)), H|tauto|].
  intros en ys ds Hm. eapply many_plain. exact Hm.
Qed.

(** ** Names in scope *)

Definition names (vars : list symbol) (st : stack) : Prop := forall x, plain_name x -> In x vars <-> visible st x.

Lemma visible_kept st st' x : plain_name x -> kept st st' -> visible st x <-> visible st' x.
Proof.
  intros Hx. unfold visible. induction 1 as [|f f' st st' [Hg Hu] Hk IH].
  - tauto.
  - rewrite !Exists_cons, IH, (resolve_keep f f' x Hx Hu). reflexivity.
Qed.

Lemma resolve_spec vars x p st : plain_name x -> names vars st ->
  spec (resolve x p) (In x vars) (fun en i ds => ds = [] /\ denotes en x i) st.
Proof.
  intros Hx Hn s D Ds Hk Hok. unfold resolve.
  destruct (stack_resolve_ok x (ss_stack s) (D :: Ds) Hx Hok) as [[-> Hv]|(j & st' & -> & Hv & Hok' & Hk' & Hd)].
  - eexists _, _, [_], []. rewrite app_nil_r. cbn. split; [reflexivity|]. cbn. split; [reflexivity|].
    split; [assumption|]. split; [apply kept_refl|]. split; [|discriminate].
    intros HL. exfalso. apply Hv. apply (visible_kept st); auto. apply Hn; auto.
  - eexists _, _, [], []. rewrite !app_nil_r. split; [reflexivity|]. cbn. split; [reflexivity|].
    split; [assumption|]. split; [assumption|]. split; [constructor|]. intros _. split.
    + apply Hn; auto. eapply visible_kept; eauto.
    + exists j. split; auto. intros Fs HF. split; auto. rewrite <- (envs_kept st st'); [|eapply kept_trans; eauto].
      now apply cden_denotes.
Qed.

(** ** Commands *)

Lemma unit_spec vars u st : plain_unit u -> names vars st ->
  spec (analyze_unit u) (legal_unit vars u) (fun en x ds => ds = [] /\ addr_unit en u x) st.
Proof.
  intros Hu Hn. destruct u as [s|x p]; cbn [analyze_unit legal_unit].
  - apply spec_ret. intros; split; [auto|constructor].
  - cbn in Hu. rewrite plain_not_ill by assumption.
    eapply spec_conseq; [eapply (spec_map _ _ (fun ix => XUDollar ix p)); [apply (resolve_spec vars); assumption|reflexivity]|tauto|].
    cbv beta. intros en y ds (i & -> & -> & Hd). split; [auto|now constructor].
Qed.

Lemma part_spec vars p st : wf_part p -> names vars st ->
  spec (analyze_part p) (legal_part vars p) (fun en x ds => ds = [] /\ addr_part en p x) st.
Proof.
  intros Hp Hn. destruct p as [u|[]]; cbn [analyze_part legal_part];
    [|apply spec_ret; intros; split; [auto|constructor]..].
  eapply spec_conseq; [eapply (spec_map _ _ XPUnit); [apply (unit_spec vars); assumption|reflexivity]|tauto|].
  cbv beta. intros en y ds (i & -> & -> & Hd). split; [auto|now constructor].
Qed.

Lemma argument_spec vars a st : wf_argument a -> names vars st ->
  spec (analyze_argument a) (legal_argument vars a) (fun en x ds => ds = [] /\ addr_argument en a x) st.
Proof.
  intros [Hp Ha] Hn. unfold analyze_argument, is_ill_argument. destruct a as [ps q]; cbn [arg_parts arg_pos] in *.
  assert (is_ill_pos q = false) as ->.
  { unfold is_ill_pos. unfold wf_pos in Ha. destruct (N.eqb_spec (line q) 0); [lia|reflexivity]. }
  eapply spec_conseq; [eapply (spec_map _ _ (fun ps => mkxarg ps q));
    [apply (spec_items_plain _ (legal_part vars) addr_part)|reflexivity]|reflexivity|].
  - eapply Forall_impl; [|exact Hp]. intros; apply (part_spec vars); assumption.
  - cbv beta. intros en y ds (i & -> & -> & Hd). split; [auto|now constructor].
Qed.

Lemma redirection_spec vars r st : wf_redirection r -> names vars st ->
  spec (analyze_redirection r) (legal_redirection vars r) (fun en x ds => ds = [] /\ addr_redirection en r x) st.
Proof.
  intros Hr Hn. destruct r as [|src [fd|a|a]|lit a]; cbn [analyze_redirection legal_redirection wf_redirection] in *; [contradiction|..].
  - apply spec_ret. intros; split; [auto|constructor].
  - eapply spec_conseq; [eapply (spec_map _ _ (fun a => XOutput src (XOverwrite a))); [apply (argument_spec vars); assumption|reflexivity]|tauto|].
    cbv beta. intros en y ds (i & -> & -> & Hd). split; [auto|now constructor].
  - eapply spec_conseq; [eapply (spec_map _ _ (fun a => XOutput src (XAppend a))); [apply (argument_spec vars); assumption|reflexivity]|tauto|].
    cbv beta. intros en y ds (i & -> & -> & Hd). split; [auto|now constructor].
  - eapply spec_conseq; [eapply (spec_map _ _ (XInput lit)); [apply (argument_spec vars); assumption|reflexivity]|tauto|].
    cbv beta. intros en y ds (i & -> & -> & Hd). split; [auto|now constructor].
Qed.

Lemma env_item_spec vars kv st : plain_unit (fst kv) /\ wf_argument (snd kv) -> names vars st ->
  spec (analyze_env_item kv) (legal_unit vars (fst kv) /\ legal_argument vars (snd kv))
    (fun en x ds => ds = [] /\ addr_unit en (fst kv) (fst x) /\ addr_argument en (snd kv) (snd x)) st.
Proof.
  intros [H1 H2] Hn. unfold analyze_env_item.
  eapply spec_conseq; [eapply (spec_bind _ _ _ _ _ (fun k en y ds => exists v, y = (k, v) /\ ds = [] /\ addr_argument en (snd kv) v));
    [apply (unit_spec vars); eassumption|..]| reflexivity|].
  - intros [k|]; [|apply wspec_ret]. eapply wspec_bind; [eapply spec_weak, (argument_spec vars); eassumption|intros; apply (wspec_ret _ True)|tauto].
  - intros k. eapply (spec_map _ _ (fun v => (k, v))); [apply (argument_spec vars); assumption|reflexivity].
  - cbv beta. intros en y ds (k & d1 & d2 & -> & (-> & Hk) & v & -> & -> & Hv). auto.
Qed.

Lemma builtin_of_iff c b : builtin_of (bc_program c) = Some b <-> calls_builtin b c.
Proof.
  unfold builtin_of, calls_builtin. split.
  - destruct (arg_parts (bc_program c)) as [|[[s|]|] [|]]; try discriminate. intros H. exists s. split; [|reflexivity].
    unfold builtin_of_bytes in H.
    repeat match type of H with (if bytes_eqb s ?t then _ else _) = _ =>
      let E := fresh in destruct (bytes_eqb s t) eqn:E; [apply bytes_eqb_eq in E; injection H as <-; subst; cbn; tauto|] end.
    discriminate.
  - intros (w & Hin & ->). cbn in Hin.
    repeat (destruct Hin as [Hin|Hin]; [injection Hin as <- <-; reflexivity|]). contradiction.
Qed.

Lemma builtin_none c : builtin_of (bc_program c) = None -> forall b, ~ calls_builtin b c.
Proof. intros H b Hb. apply builtin_of_iff in Hb. congruence. Qed.

Lemma basic_spec vars c st : wf_basic c -> names vars st ->
  spec (analyze_basic c) (legal_basic vars c) (fun en x ds => ds = [] /\ addr_basic en c x /\ forall b, ~ calls_builtin b c) st.
Proof.
  intros (H1 & H2 & H3 & H4 & H5) Hn. unfold analyze_basic. destruct (builtin_of (bc_program c)) as [b|] eqn:Eb.
  { apply spec_report. intros [HL _]. apply (HL b). now apply builtin_of_iff. }
  pose proof (builtin_none c Eb) as Hnb. clear Eb.
  assert (S2 := spec_items_plain analyze_env_item (fun kv => legal_unit vars (fst kv) /\ legal_argument vars (snd kv))
    (fun en kv x => addr_unit en (fst kv) (fst x) /\ addr_argument en (snd kv) (snd x)) st (bc_env c)
    ltac:(eapply Forall_impl; [|exact H2]; intros; apply (env_item_spec vars); assumption)).
  assert (S3 := spec_items_plain analyze_argument (legal_argument vars) addr_argument st (bc_arguments c)
    ltac:(eapply Forall_impl; [|exact H3]; intros; apply (argument_spec vars); assumption)).
  assert (S4 := spec_items_plain analyze_redirection (legal_redirection vars) addr_redirection st (bc_redirections c)
    ltac:(eapply Forall_impl; [|exact H4]; intros; apply (redirection_spec vars); assumption)).
  assert (S1 := argument_spec vars (bc_program c) st H1 Hn).
  set (PV := fun en => Forall2 (fun kv x => addr_unit en (fst kv) (fst x) /\ addr_argument en (snd kv) (snd x)) (bc_env c)) in *.
  set (PA := fun en => Forall2 (addr_argument en) (bc_arguments c)) in *.
  set (PR := fun en => Forall2 (addr_redirection en) (bc_redirections c)) in *.
  unfold legal_basic.
  eapply spec_conseq; [eapply (spec_bind _ _ _ _ _ (fun pr en y ds => exists vs args rs,
      y = mkxbasic pr vs args rs (bc_abort c) (bc_pos c) /\ ds = [] /\ PV en vs /\ PA en args /\ PR en rs)); [exact S1|..]| |].
  - intros r. eapply wspec_bind; [eapply spec_weak, S2| |intros HL; exact HL]. intros r2.
    eapply wspec_bind; [eapply spec_weak, S3| |intros HL; exact HL]. intros r3.
    eapply wspec_bind; [eapply spec_weak, S4|intros; apply (wspec_ret _ True)|]. intros HL. split; [exact HL|exact I].
  - intros pr. eapply spec_conseq; [eapply (spec_bind _ _ _ _ _ (fun vs en y ds => exists args rs,
      y = mkxbasic pr vs args rs (bc_abort c) (bc_pos c) /\ ds = [] /\ PA en args /\ PR en rs)); [exact S2|..]| reflexivity|].
    + intros r2. eapply wspec_bind; [eapply spec_weak, S3| |intros HL; exact HL]. intros r3.
      eapply wspec_bind; [eapply spec_weak, S4|intros; apply (wspec_ret _ True)|]. intros HL. split; [exact HL|exact I].
    + intros vs. eapply spec_conseq; [eapply (spec_both _ _ _ (fun args rs => mkxbasic pr vs args rs (bc_abort c) (bc_pos c)));
        [exact S3|exact S4|reflexivity]|reflexivity|].
      cbv beta. intros en y ds (args & rs & d1 & d2 & -> & -> & (-> & Ha) & (-> & Hr)).
      exists args, rs. split; [reflexivity|]. split; [reflexivity|]. split; [|exact Hr]. exact Ha.
    + cbv beta. intros en y ds (vs & d1 & d2 & -> & (-> & Hv) & args & rs & -> & -> & Ha & Hr).
      exists vs, args, rs. split; [reflexivity|]. split; [reflexivity|]. split; [|split; [exact Ha|exact Hr]]. exact Hv.
  - split; [intros (P1 & P2 & P3 & P4); auto|intros (_ & P); exact P].
  - cbv beta. intros en y ds (pr & d1 & d2 & -> & (-> & Hp) & vs & args & rs & -> & -> & Hv & Ha & Hr).
    split; [reflexivity|]. split; [|exact Hnb]. destruct c; cbn in *. constructor; auto.
Qed.

Lemma command_spec vars k c st : wf_command c -> names vars st ->
  spec (analyze_command (negb (is_sync k)) c) (legal_command vars k c) (fun en x ds => ds = [] /\ addr_command en k c x) st.
Proof.
  intros [H1 H2] Hn. unfold analyze_command. destruct c as [c cs]; cbn [cmd_head cmd_tail] in *.
  destruct (builtin_of (bc_program c)) as [b|] eqn:Eb.
  - pose proof (proj1 (builtin_of_iff c b) Eb) as Hb.
    assert (HL : legal_command vars k (mkcommand c cs) <->
      k = Synchronous /\ cs = [] /\ bc_redirections c = [] /\ Forall (legal_argument vars) (bc_arguments c)).
    { unfold legal_command; cbn. split.
      - intros [(b' & ? & P)|((N & _) & _)]; [exact P|]. exfalso. now apply (N b).
      - intros P. left. exists b. tauto. }
    destruct (negb (is_sync k) || negb (match cs with [] => true | _ => false end)
              || negb (match bc_redirections c with [] => true | _ => false end)) eqn:Eg.
    + apply spec_report. rewrite HL. intros (-> & -> & E & _). rewrite E in Eg. discriminate.
    + apply orb_false_iff in Eg as [Eg E3]. apply orb_false_iff in Eg as [E1 E2].
      destruct k; try discriminate. destruct cs; [|discriminate]. destruct (bc_redirections c) eqn:Er; [|discriminate].
      destruct H1 as (_ & _ & H3 & _).
      eapply spec_conseq; [eapply (spec_map _ _ (fun args => XBuiltin b args (bc_abort c) (bc_pos c)));
        [apply (spec_items_plain analyze_argument (legal_argument vars) addr_argument)|reflexivity]| |].
      * eapply Forall_impl; [|exact H3]; intros; apply (argument_spec vars); assumption.
      * rewrite HL. tauto.
      * cbv beta. intros en y ds (args & -> & -> & Ha). split; [reflexivity|]. destruct Hb as (w & Hw & Ep).
        destruct c as [[ps q] vs args' rs ab p]; cbn in *. subst. now constructor.
  - pose proof (builtin_none c Eb) as Hnb.
    eapply spec_conseq; [eapply (spec_both _ _ _ XExternal); [apply (basic_spec vars); assumption|
      apply (spec_items_plain analyze_basic (legal_basic vars) (fun en c x => addr_basic en c x /\ forall b, ~ calls_builtin b c))|reflexivity]| |].
    + eapply Forall_impl; [|exact H2]; intros; apply (basic_spec vars); assumption.
    + unfold legal_command; cbn. split; [auto|]. intros [(b & ? & _)|P]; [exfalso; eapply Hnb; eauto|exact P].
    + cbv beta. intros en y ds (xc & xcs & d1 & d2 & -> & -> & (-> & Hc & _) & (-> & Hcs)). split; [reflexivity|].
      constructor; auto.
      * clear -Hcs. induction Hcs; constructor; auto. apply H.
      * clear -Hcs. induction Hcs; constructor; auto. apply H.
Qed.

Lemma command_block_spec vars b st : wf_command_block b -> names vars st ->
  spec (analyze_command_block b) (legal_command_block vars b) (fun en x ds => ds = [] /\ addr_command_block en b x) st.
Proof.
  intros [H1 H2] Hn. unfold analyze_command_block, legal_command_block. destruct b as [k c cs]; cbn [cb_kind cb_head cb_tail] in *.
  eapply spec_conseq; [eapply (spec_both _ _ _ (mkxblock k)); [apply (command_spec vars); assumption|
    apply (spec_items_plain _ (legal_command vars k) (fun en => addr_command en k))|reflexivity]| reflexivity|].
  - eapply Forall_impl; [|exact H2]; intros; apply (command_spec vars); assumption.
  - cbv beta. intros en y ds (xc & xcs & d1 & d2 & -> & -> & (-> & Hc) & (-> & Hcs)). split; [reflexivity|]. now constructor.
Qed.
