(** Library functions and command blocks panic at the place they are called from or at a place of
    the block. *)
From Coq Require Import Strings.String Sorting.Permutation.
From Verif Require JsonProofs.
From Verif Require Import Base Lexer Ast Program Value Text StdLib Exec Runtime SpecRun SpecPanic PanicPlaceProofs.
From Verif Require SoundLibProofs.

Section Held.
(** The places, and the panics, that are allowed *)
Variable P : spos -> Prop.
Variable Q : panic -> Prop.
Hypothesis HQ : forall e, P (panic_place e) -> Q e.

Definition code (path : bytes) (l : list pos) : Prop := Forall (fun p => P (mkspos path p)) l.

(** Every function in the value has its code at allowed places. *)
Fixpoint held (v : value) : Prop :=
  match v with VFun f => held_func f | VErr _ c => held c | _ => True end
with held_func (f : func) : Prop :=
  match f with
  | FHush _ _ _ body _ fp => code (sp_path fp) (flat_map xstatement_places body)
  | FRust g => held_native g
  end
with held_native (g : native) : Prop :=
  match g with NBind obj f => held obj /\ held_func f | _ => True end.

Definition held_entry (e : value * value) : Prop := held (fst e) /\ held (snd e).
Definition held_iter (i : iter_state) : Prop := match i with ISEntries l => Forall held_entry l | _ => True end.
Definition held_heap (h : heap) : Prop :=
  Forall held (h_cells h) /\ Forall (Forall held) (h_arrs h) /\
  Forall (Forall held_entry) (h_dicts h) /\ Forall held_iter (h_iters h).

Lemma Forall_list_set {A} (R : A -> Prop) l n x : Forall R l -> R x -> Forall R (list_set l n x).
Proof. intros H Hx. revert n. induction H as [|y l Hy Hl IH]; intros [|n]; cbn; constructor; auto. Qed.
Lemma Forall_nth_default {A} (R : A -> Prop) l n d : Forall R l -> R d -> R (nth n l d).
Proof. intros H Hd. revert n. induction H as [|y l Hy Hl IH]; intros [|n]; cbn; auto. Qed.
Lemma Forall_rev' {A} (R : A -> Prop) l : Forall R l -> Forall R (rev l).
Proof. rewrite !Forall_forall. intros H x Hx. apply H, in_rev, Hx. Qed.

Lemma plain_held v : plain v -> held v.
Proof.
  revert v. fix IH 1. intros [| | | | | | | |f|d c]; cbn; try exact (fun _ => I).
  - contradiction.
  - apply IH.
Qed.

Lemma held_arr h l : held_heap h -> Forall held (arr_get h l).
Proof. intros (_ & H & _). unfold arr_get. apply (Forall_nth_default (Forall held)); [exact H|constructor]. Qed.
Lemma held_dict h l : held_heap h -> Forall held_entry (dict_entries h l).
Proof. intros (_ & _ & H & _). apply (Forall_nth_default (Forall held_entry)); [exact H|constructor]. Qed.
Lemma held_cell h l : held_heap h -> held (cell_get h l).
Proof. intros (H & _). apply (Forall_nth_default held); [exact H|exact I]. Qed.
Lemma held_iter_get h l : held_heap h -> held_iter (iter_get h l).
Proof. intros (_ & _ & _ & H). apply (Forall_nth_default held_iter); [exact H|exact I]. Qed.

Lemma held_arr_set h l a : held_heap h -> Forall held a -> held_heap (arr_set h l a).
Proof. intros (A & B & C & D) Ha. repeat split; cbn; auto. apply Forall_list_set; auto. Qed.
Lemma held_dict_set h l d : held_heap h -> Forall held_entry d -> held_heap (dict_set h l d).
Proof. intros (A & B & C & D) Ha. repeat split; cbn; auto. apply Forall_list_set; auto. Qed.
Lemma held_cell_set h l v : held_heap h -> held v -> held_heap (cell_set h l v).
Proof. intros (A & B & C & D) Ha. repeat split; cbn; auto. apply Forall_list_set; auto. Qed.
Lemma held_iter_set h l i : held_heap h -> held_iter i -> held_heap (iter_set h l i).
Proof. intros (A & B & C & D) Ha. repeat split; cbn; auto. apply Forall_list_set; auto. Qed.
Lemma held_new_arr h a : held_heap h -> Forall held a -> held_heap (snd (new_arr h a)).
Proof. intros (A & B & C & D) Ha. repeat split; cbn; auto. apply Forall_app; auto. Qed.
Lemma held_new_dict h d : held_heap h -> Forall held_entry d -> held_heap (snd (new_dict h d)).
Proof. intros (A & B & C & D) Ha. repeat split; cbn; auto. apply Forall_app; auto. Qed.
Lemma held_new_iter h i : held_heap h -> held_iter i -> held_heap (snd (new_iter h i)).
Proof. intros (A & B & C & D) Ha. repeat split; cbn; auto. apply Forall_app; auto. Qed.

Lemma adds_held h v h' : adds_data h v h' -> held_heap h -> held v /\ held_heap h'.
Proof.
  intros (arrs & dicts & -> & H & A & D) (S1 & S2 & S3 & S4). split; [apply plain_held, H|].
  repeat split; cbn; auto; apply Forall_app; split; auto.
  + eapply Forall_impl; [|exact A]. intros l. apply Forall_impl. exact plain_held.
  + eapply Forall_impl; [|exact D]. intros l. apply Forall_impl. intros e [K V]. split; apply plain_held; assumption.
Qed.

(** The result of an operation on heap and world *)
Definition told {W} (r : outcome (heap * W) value) : Prop :=
  match r with
  | Val v x => held v /\ held_heap (fst x)
  | Pan e x => Q e /\ held_heap (fst x)
  | _ => True
  end.

Lemma find_entry_held eq k d v : Forall held_entry d -> find_entry eq k d = Known (Some v) -> held v.
Proof.
  induction 1 as [|[x y] d [Hx Hy] Hd IH]; cbn; [discriminate|].
  destruct (eq k x) as [[|]| |]; cbn; try discriminate; [|exact IH]. intros [= <-]. exact Hy.
Qed.
Lemma put_entry_held eq k v d d' :
  Forall held_entry d -> held k -> held v -> put_entry eq k v d = Known d' -> Forall held_entry d'.
Proof.
  intros H Hk Hv. revert d'. induction H as [|[x y] d [Hx Hy] Hd IH]; intros d'; cbn.
  - intros [= <-]. repeat constructor; assumption.
  - destruct (eq k x) as [[|]| |]; cbn; try discriminate.
    + intros [= <-]. constructor; [split; assumption|exact Hd].
    + destruct (put_entry eq k v d) as [d''| |]; cbn; try discriminate. intros [= <-].
      constructor; [split; assumption|apply IH; reflexivity].
Qed.

Section Lib.
Context {W : Type}.
Variable X : ext W.
Hypothesis HX : honest X.
Hypothesis HJ : forall i h w e w', x_join X i h w = (inr e, w') -> Q e.

Lemma iteration_told (v : option value) h (w : W) :
  match v with Some v => held v | None => True end -> held_heap h -> told (iteration v h w).
Proof.
  intros Hv Hh. unfold iteration. cbn [new_dict]. split; [exact I|]. cbn [fst].
  apply held_new_dict; [exact Hh|]. destruct v; repeat constructor; exact Hv.
Qed.

Lemma iter_call_told g h (w : W) : held_heap h -> told (iter_call g h w).
Proof.
  intros Hh. pose proof (held_iter_get h) as SI.
  assert (Hn : told (iteration (W := W) None h w)) by (apply iteration_told; [exact I|exact Hh]).
  destruct g as [f|o f|a st|s st|st|st to step|st to step|f pt|st]; cbn [iter_call]; try exact Hn.
  - destruct (iter_get h st) as [ix| | |] eqn:E; try exact Hn.
    destruct (nth_z (arr_get h a) ix) as [v|] eqn:N; [|exact Hn]. apply iteration_told.
    + unfold nth_z in N. destruct (ix <? 0)%Z; [discriminate|]. apply nth_error_In in N.
      pose proof (held_arr h a Hh) as F. rewrite Forall_forall in F. exact (F _ N).
    + apply held_iter_set; [exact Hh|exact I].
  - destruct (iter_get h st) as [ix| | |] eqn:E; try exact Hn.
    destruct (nth_z s ix) as [v|] eqn:N; [|exact Hn]. apply iteration_told; [exact I|].
    apply held_iter_set; [exact Hh|exact I].
  - specialize (SI st Hh). destruct (iter_get h st) as [ | |es|] eqn:E; try exact Hn. cbn in SI.
    apply Forall_rev' in SI. destruct (rev es) as [|[k v] r] eqn:R; [exact Hn|].
    inversion SI as [|? ? [Sk Sv] Sr]; subst. cbn [fst snd] in *.
    assert (Hs : held_heap (iter_set h st (ISEntries (rev r)))).
    { apply held_iter_set; [exact Hh|]. apply Forall_rev', Sr. }
    cbn [new_dict]. apply iteration_told; [exact I|].
    apply (held_new_dict (iter_set h st (ISEntries (rev r)))); [exact Hs|]. repeat constructor; assumption.
  - destruct (iter_get h st) as [ix| | |] eqn:E; try exact Hn.
    destruct (if 0 <? step then to <=? ix else ix <=? to)%Z; [exact Hn|]. apply iteration_told; [exact I|].
    apply held_iter_set; [exact Hh|exact I].
  - destruct (iter_get h st) as [|ix| |] eqn:E; try exact Hn.
    match goal with |- context [if ?c then _ else _] => destruct c end; [exact Hn|]. apply iteration_told; [exact I|].
    apply held_iter_set; [exact Hh|exact I].
Qed.

Lemma map_held {A} (f : A -> value) l : (forall x, held (f x)) -> Forall held (map f l).
Proof. intros H. induction l; cbn; constructor; auto. Qed.

Lemma walked_told {A} (r : walk A) (k : A -> outcome (heap * W) value) :
  (forall a, r = Known a -> told (k a)) -> told (walked r k).
Proof. intros H. destruct r; cbn; [apply H; reflexivity|exact I|exact I]. Qed.

Ltac easy_told :=
  first
  [ exact I
  | split; [exact I|assumption]
  | split; [apply HQ; assumption|assumption]
  | split; [assumption|assumption]
  | split; [cbn; assumption|assumption] ].
Ltac args_cases :=
  repeat match goal with
  | H : Forall held (_ :: _) |- _ => inversion H; clear H; subst
  end.
Ltac peel :=
  match goal with
  | |- told (match ?x with _ => _ end) => destruct x eqn:?
  | |- told (walked _ _) => apply walked_told; intros ? ?
  | |- told (Val (match ?x with _ => _ end) _) => destruct x
  end; try easy_told.

Lemma range_told a b c p h (w : W) : P p -> held_heap h -> told (range a b c p h w).
Proof.
  intros Hp Hh. unfold range.
  repeat match goal with |- context [if negb ?b then _ else _] => destruct b; cbn [negb]; try easy_told end.
  repeat peel.
  all: match goal with E : new_iter _ _ = _ |- _ => injection E as <- <- end;
    split; [exact I|apply held_new_iter; [assumption|exact I]].
Qed.

Lemma std_call_told n f args p h (w : W) ra :
  P p -> held_heap h -> Forall held args -> held ra -> told (std_call X n ra f args p h w).
Proof.
  intros Hp Hh Ha Hra.
  destruct f; cbn [std_call]; unfold print, read; repeat peel; subst; args_cases; try easy_told.
  all: try (inversion H; subst; clear H).
  all: try easy_told.
  all: try (match goal with E : new_arr _ _ = _ |- _ => injection E as <- <- end;
    split; [exact I|apply held_new_arr; [assumption|apply map_held; intros; exact I]]).
  all: try (match goal with E : new_iter _ _ = _ |- _ => injection E as <- <- end;
    split; [exact I|apply held_new_iter; [assumption|try exact I]]).
  all: try apply range_told; try assumption.
  all: try solve [unfold typecheck in *;
    repeat match goal with E : match ?x with _ => _ end = _ |- _ => destruct x; try discriminate end;
    args_cases;
    match goal with
    | E : inl _ = inl _ |- _ => injection E as <- _
    | E : inr _ = inr _ |- _ => injection E as <-
    end; easy_told].
  - split; [cbn; auto|assumption].
  - split; [cbn; apply plain_held; eapply (hn_glob X HX); eassumption|assumption].
  - cbn. rewrite Forall_forall. intros e He. pose proof (held_dict h l0 Hh) as F. rewrite Forall_forall in F.
    apply F. eapply Permutation_in; [apply (hn_order X HX)|exact He].
  - match goal with E : _ = Some (_, _) |- _ => rename E into J end. destruct (x_json_parse X _); [|discriminate].
    apply JsonProofs.from_json_adds, adds_held in J; [|exact Hh]. exact J.
  - match goal with E : rev (arr_get _ _) = _ |- _ =>
      pose proof (Forall_rev' _ _ (held_arr h l0 Hh)) as F; rewrite E in F; inversion F; subst end.
    split; [assumption|apply held_arr_set; [exact Hh|apply Forall_rev'; assumption]].
  - split; [exact I|]. apply held_arr_set; [exact Hh|].
    apply Forall_app. split; [apply held_arr, Hh|repeat constructor; assumption].
  - match goal with E : new_dict _ _ = _ |- _ => injection E as <- <- end.
    split; [exact I|apply held_new_dict; [exact Hh|repeat constructor]].
  - split; [exact I|]. apply held_arr_set; [exact Hh|].
    eapply SoundLibProofs.sort_walk_all; [apply held_arr, Hh|eassumption].
Qed.

Lemma native_call_told n g args p h (w : W) ra :
  P p -> held_heap h -> Forall held args -> held ra -> told (native_call X n ra g args p h w).
Proof.
  intros Hp Hh Ha Hra.
  assert (HI : told (match args with [] => iter_call (W := W) g h w | _ => Pan (PInvalidArgs (length args) 0 p) (h, w) end)).
  { destruct args; [apply iter_call_told; assumption|easy_told]. }
  destruct g as [f|o f|a st|s st|st|st to step|st to step|f pt|st]; cbn [native_call]; try exact HI.
  - apply std_call_told; assumption.
  - exact I.
  - destruct f; cbn [regex_call]; repeat peel; subst.
    injection Heqp0 as <- <-. split; [exact I|].
    apply held_new_arr; [exact Hh|]. apply map_held. intros; exact I.
  - unfold join_call. destruct (iter_get h st) as [| | |[i|]] eqn:E; try easy_told.
    assert (Hs : held_heap (iter_set h st (ISJoin None))) by (apply held_iter_set; [exact Hh|exact I]).
    destruct (x_join X i (iter_set h st (ISJoin None)) w) as [[[v h']|e] w'] eqn:J.
    + apply (hn_join _ HX) in J. apply adds_held in J; [|exact Hs]. exact J.
    + apply HJ in J. split; assumption.
Qed.

(** ** Command blocks *)
Section Block.
Variable O : os W.
Variable fetch : slot -> option value.
Variable h : heap.
Variable w : W.
Variable path : bytes.

Definition fine {A} (R : A -> Prop) (b : built A) : Prop :=
  match b with Built a => R a | BPanic e => Q e | BCrash _ => True end.
Definition any {A} (_ : A) : Prop := True.
Lemma fine_bind {A B} (R : A -> Prop) (S : B -> Prop) (b : built A) (f : A -> built B) :
  fine R b -> (forall a, R a -> fine S (f a)) -> fine S (bbind b f).
Proof. destruct b; cbn; auto. Qed.
Lemma fine_map {A B} (K : A -> Prop) (R : B -> Prop) (f : A -> built B) l :
  Forall K l -> (forall a, K a -> fine R (f a)) -> fine (Forall R) (bmap f l).
Proof.
  intros H F. induction H as [|x l Hx Hl IH]; cbn; [constructor|].
  apply (fine_bind R); [apply F, Hx|]. intros a Ha. apply (fine_bind (Forall R)); [exact IH|]. intros r Hr. now constructor.
Qed.
Lemma fine_weak {A} (R : A -> Prop) b : fine R b -> fine any b.
Proof. destruct b; cbn; unfold any; auto. Qed.
Lemma fine_value v p : P p -> fine any (build_basic_value X v p).
Proof. intros H. destruct v; try exact I; apply HQ, H. Qed.
Lemma fine_fetch i : fine any (bfetch fetch i).
Proof. unfold bfetch. destruct (fetch i); exact I. Qed.

Lemma code_app l m : code path (l ++ m) <-> code path l /\ code path m.
Proof. apply Forall_app. Qed.
Lemma code_cons p l : code path (p :: l) <-> P (mkspos path p) /\ code path l.
Proof. split; [intros H; inversion H; auto|intros [A B]; constructor; auto]. Qed.
Lemma code_each {A} (f : A -> list pos) l : code path (flat_map f l) -> Forall (fun x => code path (f x)) l.
Proof. induction l as [|x l IH]; cbn [flat_map]; [constructor|]. rewrite code_app. intros [A0 B]. constructor; auto. Qed.

Lemma fine_part x a : code path (xpart_places x) -> fine any (build_part X fetch h w path x a).
Proof.
  destruct x as [[s|i p]| | |]; cbn [build_part xpart_places xunit_places]; intros V; try exact I.
  apply code_cons in V as [V _].
  apply (fine_bind any); [apply fine_fetch|]. intros v _.
  destruct v; try (apply (fine_bind any); [apply fine_value, V|intros; exact I]).
  apply (fine_bind any); [|intros; exact I]. eapply fine_weak, (fine_map any any); [|intros; apply fine_value, V].
  apply Forall_forall. intros; exact I.
Qed.
Lemma fine_parts l a : code path (flat_map xpart_places l) -> fine any (build_parts X fetch h w path l a).
Proof.
  intros H. apply code_each in H. revert a. induction H as [|x l Hx Hl IH]; intros a; cbn; [exact I|].
  apply (fine_bind any); [apply fine_part, Hx|intros y _; apply IH].
Qed.
Lemma fine_argument a : code path (xarg_places a) -> fine any (build_argument X fetch h w path a).
Proof. intros H. apply code_cons in H as [_ H]. apply (fine_bind any); [apply fine_parts, H|intros; exact I]. Qed.
Lemma fine_single o a : code path (xarg_places a) -> fine any (build_single_argument X fetch h w path o a).
Proof.
  intros H. apply (fine_bind any); [apply fine_argument, H|]. apply code_cons in H as [H _].
  intros [|x [|y l]] _; try exact I; apply HQ, H.
Qed.
Lemma fine_env kv : code path (xunit_places (fst kv) ++ xarg_places (snd kv)) -> fine any (build_env X fetch h w path kv).
Proof.
  intros H. apply code_app in H as [Hu Ha]. unfold build_env. apply (fine_bind any).
  - destruct (fst kv) as [s|i p]; [exact I|]. apply code_cons in Hu as [Hu _]. apply (fine_bind any); [apply fine_fetch|].
    intros v _. apply fine_value, Hu.
  - intros n _. apply (fine_bind any); [apply fine_single, Ha|intros; exact I].
Qed.
Lemma fine_redirection r : code path (xredir_places r) -> fine any (build_redirection X fetch h w path r).
Proof.
  destruct r as [z [fd|a|a]|b a]; cbn; intros H; try exact I; apply (fine_bind any); try (intros; exact I); apply fine_single, H.
Qed.
Lemma fine_arguments l : code path (flat_map xarg_places l) -> fine any (build_arguments X fetch h w path l).
Proof.
  intros H. apply code_each in H. apply (fine_bind any); [|intros; exact I].
  eapply fine_weak, fine_map; [exact H|]. intros; apply fine_argument; assumption.
Qed.
Lemma fine_basic c : code path (xbasic_places c) -> fine (fun c => P (eb_pos c)) (build_basic_command X fetch h w path c).
Proof.
  intros H. apply code_cons in H as [Hp H]. rewrite !code_app in H. destruct H as (A & B & C & D).
  apply code_each in B, D. unfold build_basic_command. apply (fine_bind any); [apply fine_single, A|]. intros ? _.
  apply (fine_bind any); [eapply fine_weak, fine_map; [exact B|intros; apply fine_env; assumption]|]. intros ? _.
  apply (fine_bind any); [apply fine_arguments, C|]. intros ? _.
  apply (fine_bind any); [eapply fine_weak, fine_map; [exact D|intros; apply fine_redirection; assumption]|].
  intros ? _. exact Hp.
Qed.
Definition command_held (c : ecommand) : Prop :=
  match c with EBuiltin _ _ _ p => P p | EExternal c cs => P (eb_pos c) /\ Forall (fun c => P (eb_pos c)) cs end.
Lemma fine_command c : code path (xcommand_places c) -> fine command_held (build_command X fetch h w path c).
Proof.
  destruct c as [b args ab p|c cs]; cbn [build_command xcommand_places].
  - intros H. apply code_cons in H as [Hp H]. apply (fine_bind any); [apply fine_arguments, H|]. intros ? _. exact Hp.
  - intros H. apply code_app in H as [A B]. apply code_each in B.
    apply (fine_bind (fun c => P (eb_pos c))); [apply fine_basic, A|]. intros c' Hc.
    apply (fine_bind (Forall (fun c => P (eb_pos c)))); [eapply fine_map; [exact B|intros; apply fine_basic; assumption]|].
    intros cs' Hcs. split; assumption.
Qed.
Lemma fine_block b : code path (xblock_places b) ->
  fine (fun b => Forall command_held (ek_head b :: ek_tail b)) (build_command_block X fetch h w path b).
Proof.
  intros H. apply code_app in H as [A B]. apply code_each in B. apply (fine_bind command_held); [apply fine_command, A|]. intros c Hc.
  apply (fine_bind (Forall command_held)); [eapply fine_map; [exact B|intros; apply fine_command; assumption]|].
  intros cs Hcs. constructor; assumption.
Qed.

(** Running commands *)
Definition calm {A} (m : xstate (W := W) -> ran (W := W) A) : Prop :=
  forall s, match m s with RPanic e _ => Q e | RIo _ p _ => P p | _ => True end.
Lemma calm_bind {A B} (m : xstate -> ran A) (f : A -> xstate -> ran B) :
  calm m -> (forall a, calm (f a)) -> calm (xbind m f).
Proof. intros Hm Hf s. specialize (Hm s). unfold xbind. destruct (m s); auto. apply Hf. Qed.
Lemma calm_ret {A} (a : A) : calm (xret a). Proof. intros s; exact I. Qed.
Lemma calm_panic {A} p : P (panic_place p) -> calm (xpanic (A := A) p). Proof. intros H s; apply HQ, H. Qed.
Lemma calm_ask {A} p f (log : A -> list event) : P p -> calm (ask p f log).
Proof. intros H s. unfold ask. destruct (f (xs_world s)) as [[e|a] w']; [exact H|exact I]. Qed.
Lemma calm_resolve a p : P p -> calm (resolve O a p).
Proof.
  intros H s. destruct a as [x|x]; cbn; [|exact I]. destruct (o_glob O x (xs_world s)); try exact I. apply HQ, H.
Qed.
Lemma calm_resolve_all l p : P p -> calm (resolve_all O l p).
Proof.
  intros H. induction l as [|a l IH]; cbn [resolve_all]; [apply calm_ret|]. apply calm_bind; [apply calm_resolve, H|]. intros x.
  apply calm_bind; [exact IH|]. intros y. apply calm_ret.
Qed.
Lemma calm_resolve_one o a p : P p -> calm (resolve_one O o a p).
Proof.
  intros H. unfold resolve_one. apply calm_bind; [apply calm_resolve, H|].
  intros [|x [|y l]]; first [apply calm_ret|apply calm_panic, H].
Qed.
Lemma calm_wait_child i p : calm (wait_child O i p).
Proof. intros s. unfold wait_child. destruct (o_wait O i (xs_world s)) as [[e|st] w']; exact I. Qed.
Ltac calm_all := repeat first
  [ apply calm_ret | apply calm_panic; assumption | apply calm_ask; assumption | apply calm_resolve; assumption
  | apply calm_resolve_all; assumption
  | apply calm_resolve_one; assumption | apply calm_wait_child | match goal with |- forall _, calm _ => intros ? end
  | apply calm_bind
  | match goal with |- calm (if ?b then _ else _) => destruct b end
  | match goal with |- calm (match ?b with _ => _ end) => destruct b end ].
Lemma calm_exit {A} z : calm (fun s => RExit (A := A) z s). Proof. intros s; exact I. Qed.
Lemma calm_builtin b l p : P p -> calm (builtin_exec X O b l p).
Proof.
  intros H. unfold builtin_exec. apply calm_bind; [apply calm_resolve_all, H|]. intros r.
  destruct b; try (intros s; exact I); destruct r as [|x [|y r]]; try (apply calm_panic, H);
  apply calm_bind; try (apply calm_ask, H); intros ?; first [apply calm_ret|apply calm_exit|apply calm_wait_child].
Qed.
Lemma calm_redirect r io p : P p -> calm (redirect O r io p).
Proof. intros H. destruct r as [z t|b a]; cbn [redirect]; [destruct t; cbn [resolve_target]|]; calm_all. Qed.
Lemma calm_redirect_all rs io p : P p -> calm (redirect_all O rs io p).
Proof.
  intros H. revert io. induction rs as [|r rs IH]; intros io; cbn [redirect_all]; [apply calm_ret|].
  apply calm_bind; [apply calm_redirect, H|exact IH].
Qed.
Lemma calm_resolve_env l p : P p -> calm (resolve_env O l p).
Proof.
  intros H. induction l as [|[x a] l IH]; cbn [resolve_env]; [apply calm_ret|]. apply calm_bind; [apply calm_resolve_one, H|]. intros y.
  apply calm_bind; [exact IH|]. intros z. apply calm_ret.
Qed.
Lemma calm_basic c io : P (eb_pos c) -> calm (basic_exec O c io).
Proof.
  intros H. unfold basic_exec. apply calm_bind; [apply calm_resolve_one, H|]. intros ?. apply calm_bind; [apply calm_resolve_env, H|].
  intros ?. apply calm_bind; [apply calm_resolve_all, H|]. intros ?. apply calm_bind; [apply calm_redirect_all, H|]. intros ?.
  apply calm_ask, H.
Qed.
Lemma calm_pipe p : P p -> calm (new_pipe O p).
Proof. intros H s. unfold new_pipe. destruct (o_pipe O (xs_world s)) as [[e|] w']; [exact H|exact I]. Qed.
Lemma calm_spawn_tail cs out err ch : Forall (fun c => P (eb_pos c)) cs -> calm (spawn_tail O cs out err ch).
Proof.
  intros F. revert out err ch. induction F as [|c cs Hc Hcs IH]; intros out err ch; cbn [spawn_tail]; [apply calm_ret|].
  apply calm_bind; [apply calm_pipe, Hc|]. intros ?. apply calm_bind; [apply calm_basic, Hc|]. intros ?.
  apply calm_bind; [apply calm_ask, Hc|]. intros ?. apply IH.
Qed.
Lemma calm_wait_all ch ab es : calm (wait_all O ch ab es).
Proof.
  revert ab es. induction ch as [|[[i p] a] ch IH]; intros ab es; cbn [wait_all]; [apply calm_ret|].
  apply calm_bind; [apply calm_wait_child|]. intros [e|]; apply IH.
Qed.
Lemma calm_command c out err : command_held c -> calm (command_exec X O c out err).
Proof.
  destruct c as [b l ab p|c cs]; cbn [command_exec command_held].
  - intros H. apply calm_bind; [apply calm_builtin, H|]. intros [e|]; apply calm_ret.
  - intros [A B]. apply calm_bind; [apply calm_spawn_tail, Forall_rev', B|]. intros [[a b] ch]. apply calm_bind; [apply calm_ask, A|]. intros ?.
    apply calm_bind; [apply calm_basic, A|]. intros ?. apply calm_wait_all.
Qed.
Lemma held_pos c : command_held c -> P (command_pos c).
Proof. destruct c; cbn; tauto. Qed.
Lemma calm_commands cs out err es : Forall command_held cs -> calm (commands_exec X O cs out err es).
Proof.
  intros F. revert es. induction F as [|c cs Hc Hcs IH]; intros es; cbn [commands_exec]; [apply calm_ret|].
  apply calm_bind; [apply calm_ask, held_pos, Hc|]. intros ?. apply calm_bind; [apply calm_ask, held_pos, Hc|]. intros ?.
  apply calm_bind; [apply calm_command, Hc|]. intros [e ab]. destruct ab; [apply calm_ret|apply IH].
Qed.
Lemma calm_block b out err : Forall command_held (ek_head b :: ek_tail b) -> calm (block_exec X O b out err).
Proof.
  intros H s. unfold block_exec. pose proof (calm_commands _ out err [] H s) as K.
  destruct (commands_exec X O _ out err [] s); auto.
Qed.

Definition adds (f : heap -> value * heap) : Prop :=
  forall h, held_heap h -> held (fst (f h)) /\ held_heap (snd (f h)).
Lemma values_adds {A} (f : A -> heap -> value * heap) l : (forall x, adds (f x)) ->
  forall h, held_heap h -> Forall held (fst (values_of f l h)) /\ held_heap (snd (values_of f l h)).
Proof.
  intros Hf. induction l as [|x l IH]; intros h0 Hh; cbn [values_of]; [cbn; auto|].
  destruct (Hf x h0 Hh) as (A1 & A2). destruct (f x h0) as [v h1]. cbn [fst snd] in *.
  destruct (IH h1 A2) as (B1 & B2). destruct (values_of f l h1) as [r h2]. cbn [fst snd] in *.
  split; [constructor; assumption|exact B2].
Qed.
Lemma many_adds {A} (f : A -> heap -> value * heap) m l : (forall x, adds (f x)) -> adds (many_value f m l).
Proof.
  intros Hf h0 Hh. destruct l as [|x [|y l]]; cbn [many_value].
  - cbn; auto.
  - apply Hf, Hh.
  - destruct (values_adds f (x :: y :: l) Hf h0 Hh) as (B1 & B2). destruct (values_of f (x :: y :: l) h0) as [r h1].
    cbn [fst snd] in *. cbn [new_arr fst snd]. split; [exact I|]. apply (held_new_arr h1 r); assumption.
Qed.
Lemma status_adds e : adds (status_value X e).
Proof.
  intros h0 Hh. unfold status_value. cbn [new_dict fst snd]. split; [exact I|].
  apply (held_new_dict h0); [exact Hh|]. repeat constructor.
Qed.
Lemma block_adds es : adds (block_value X es).
Proof. apply many_adds. intros x. apply many_adds, status_adds. Qed.
End Block.

Lemma command_told O fetch path b p h (w : W) :
  code path (xblock_places b) -> P p -> held_heap h -> told (eval_command_block X O fetch path b p h w).
Proof.
  intros V Hp Hh. unfold eval_command_block.
  pose proof (fine_block fetch h w path b V) as B.
  destruct (build_command_block X fetch h w path b) as [eb|e|c]; [|split; [exact B|exact Hh]|exact I].
  destruct (xc_kind b).
  - pose proof (calm_block O eb IOStdout IOStderr B (mkxstate 0 [] w)) as C.
    destruct (block_exec X O eb IOStdout IOStderr (mkxstate 0 [] w)) as [es s|e q s|e s|c s|c] eqn:E; try easy_told.
    destruct (block_adds es h Hh) as (A1 & A2). destruct (block_value X es h) as [v h']. cbn [fst snd] in *.
    split; assumption.
  - destruct (o_async O eb w) as [handle w']. cbn [new_iter].
    set (h1 := mkheap _ _ _ (h_iters h ++ _)).
    assert (H1 : held_heap h1) by (apply (held_new_iter h (ISJoin (Some handle)) Hh); exact I).
    split; [exact I|]. apply (held_new_dict h1); [exact H1|]. repeat constructor.
  - destruct (o_pipe O w) as [[e|] w']; [easy_told|].
    pose proof (calm_block O eb IOCaptureOut IOCaptureErr B (mkxstate 0 [] w')) as C.
    destruct (block_exec X O eb IOCaptureOut IOCaptureErr (mkxstate 0 [] w')) as [es s|e q s|e s|c s|c] eqn:E; try easy_told.
    destruct (block_adds es h Hh) as (A1 & A2). destruct (block_value X es h) as [v h']. cbn [fst snd] in *.
    destruct (o_captured O (xs_world s)) as [[e|[out err]] w'']; [split; [apply HQ, Hp|exact A2]|].
    assert (H0 : told (let '(d', h'') := new_dict h' [(VStr (bs "stdout"), VStr out); (VStr (bs "stderr"), VStr err)] in Val d' (h'', w''))).
    { split; [exact I|]. apply (held_new_dict h'); [exact A2|]. repeat constructor. }
    destruct v as [| | | | | | | |f|d c]; try exact H0.
    split; [exact I|]. apply (held_new_dict h'); [exact A2|]. repeat constructor. exact A1.
Qed.
End Lib.
End Held.
