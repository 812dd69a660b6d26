(** The library and command blocks keep the heap sound, keep join marks, and do not crash on
    slots. *)
From Coq Require Import Strings.String Sorting.Permutation Lia.
From Verif Require ShowProofs JsonProofs.
From Verif Require Import Base Lexer Ast Program Value Text StdLib Exec Runtime SpecSema SpecProgram SpecRun.

Section Scope.
Context {sc : scope}.
Definition keeps (h h' : heap) : Prop :=
  (forall i, joined h i -> joined h' i) /\
  (forall i, ~ sc_iter i -> i < length (h_iters h) -> nth_error (h_iters h') i = nth_error (h_iters h) i) /\
  length (h_iters h) <= length (h_iters h') /\
  (forall c, ~ sc_cell c -> c < length (h_cells h) -> nth_error (h_cells h') c = nth_error (h_cells h) c) /\
  length (h_cells h) <= length (h_cells h').
Definition allowed (c : crash) : Prop :=
  match c with CSlot | CFlow | CSema => False | _ => True end.

Lemma keeps_refl h : keeps h h. Proof. repeat split; auto. Qed.
Lemma keeps_trans a b c : keeps a b -> keeps b c -> keeps a c.
Proof.
  intros (H & H' & H2 & H3 & H4) (K & K' & K2 & K3 & K4). split; [auto|]. repeat split; try lia.
  - intros i N L. rewrite (K' i N) by lia. auto.
  - intros i N L. rewrite (K3 i N) by lia. auto.
Qed.
Lemma keeps_iters h h' : h_iters h' = h_iters h -> h_cells h' = h_cells h -> keeps h h'.
Proof. intros E E'. unfold keeps, joined. rewrite E, E'. repeat split; auto. Qed.

Lemma nth_error_list_set {A} (l : list A) n m x :
  nth_error (list_set l n x) m =
  if Nat.eqb n m then match nth_error l m with Some _ => Some x | None => None end else nth_error l m.
Proof.
  revert n m; induction l as [|y l IH]; intros [|n] [|m]; cbn; try reflexivity.
  - destruct (Nat.eqb n m); reflexivity.
  - apply IH.
Qed.
Lemma length_list_set {A} (l : list A) n x : length (list_set l n x) = length l.
Proof. revert n; induction l as [|y l IH]; intros [|n]; cbn; auto. Qed.

Lemma keeps_iter_set h st x : sc_iter st ->
  (forall j, iter_get h st <> ISJoin j) \/ x = ISJoin None -> keeps h (iter_set h st x).
Proof.
  intros Sc H. split; [|split; [|split; [|split; [reflexivity|cbn; auto]]]].
  - intros i J. unfold joined in *. cbn. rewrite nth_error_list_set.
    destruct (Nat.eqb_spec st i) as [->|]; [|exact J]. rewrite J.
    destruct H as [H| ->]; [|reflexivity]. exfalso. apply (H None).
    unfold iter_get. apply nth_error_nth with (d := ISInt 0) in J. exact J.
  - intros i N _. cbn. rewrite nth_error_list_set. destruct (Nat.eqb_spec st i) as [->|]; [contradiction|reflexivity].
  - cbn. rewrite length_list_set. reflexivity.
Qed.
Lemma keeps_new_iter h x : keeps h (snd (new_iter h x)).
Proof.
  split; [|split; [|split; [|split; [reflexivity|cbn; auto]]]].
  - intros i J. unfold joined in *. cbn. rewrite nth_error_app1; [exact J|].
    apply nth_error_Some. rewrite J. discriminate.
  - intros i N L. cbn. rewrite nth_error_app1; [reflexivity|exact L].
  - cbn. rewrite app_length. lia.
Qed.

Lemma Forall_list_set {A} (P : A -> Prop) l n x : Forall P l -> P x -> Forall P (list_set l n x).
Proof.
  intros H Hx. revert n. induction H as [|y l Hy Hl IH]; intros [|n]; cbn; constructor; auto.
Qed.
Lemma Forall_nth_default {A} (P : A -> Prop) l n d : Forall P l -> P d -> P (nth n l d).
Proof.
  intros H Hd. revert n. induction H as [|y l Hy Hl IH]; intros [|n]; cbn; auto.
Qed.
Lemma Forall_rev' {A} (P : A -> Prop) l : Forall P l -> Forall P (rev l).
Proof. rewrite !Forall_forall. intros H x Hx. apply H, in_rev, Hx. Qed.

Lemma plain_sound v : plain v -> sound v.
Proof.
  revert v. fix IH 1. intros [| | | | | | | |f|d c]; cbn; try exact (fun _ => I).
  - contradiction.
  - apply IH.
Qed.

Lemma sound_arr h l : sound_heap h -> Forall sound (arr_get h l).
Proof. intros (_ & H & _). unfold arr_get. apply (Forall_nth_default (Forall sound)); [exact H|constructor]. Qed.
Lemma sound_dict h l : sound_heap h -> Forall sound_entry (dict_entries h l).
Proof. intros (_ & _ & H & _). apply (Forall_nth_default (Forall sound_entry)); [exact H|constructor]. Qed.
Lemma sound_cell h l : sound_heap h -> sound (cell_get h l).
Proof. intros (H & _). apply (Forall_nth_default sound); [exact H|exact I]. Qed.
Lemma sound_iter_get h l : sound_heap h -> sound_iter (iter_get h l).
Proof. intros (_ & _ & _ & H). apply (Forall_nth_default sound_iter); [exact H|exact I]. Qed.

Lemma sound_arr_set h l a : sound_heap h -> Forall sound a -> sound_heap (arr_set h l a).
Proof. intros (A & B & C & D) Ha. repeat split; cbn; auto. apply Forall_list_set; auto. Qed.
Lemma sound_dict_set h l d : sound_heap h -> Forall sound_entry d -> sound_heap (dict_set h l d).
Proof. intros (A & B & C & D) Ha. repeat split; cbn; auto. apply Forall_list_set; auto. Qed.
Lemma sound_cell_set h l v : sound_heap h -> sound v -> sound_heap (cell_set h l v).
Proof. intros (A & B & C & D) Ha. repeat split; cbn; auto. apply Forall_list_set; auto. Qed.
Lemma sound_iter_set h l i : sound_heap h -> sound_iter i -> sound_heap (iter_set h l i).
Proof. intros (A & B & C & D) Ha. repeat split; cbn; auto. apply Forall_list_set; auto. Qed.
Lemma sound_new_arr h a : sound_heap h -> Forall sound a -> sound_heap (snd (new_arr h a)).
Proof. intros (A & B & C & D) Ha. repeat split; cbn; auto. apply Forall_app; auto. Qed.
Lemma sound_new_dict h d : sound_heap h -> Forall sound_entry d -> sound_heap (snd (new_dict h d)).
Proof. intros (A & B & C & D) Ha. repeat split; cbn; auto. apply Forall_app; auto. Qed.
Lemma sound_new_iter h i : sound_heap h -> sound_iter i -> sound_heap (snd (new_iter h i)).
Proof. intros (A & B & C & D) Ha. repeat split; cbn; auto. apply Forall_app; auto. Qed.

Lemma adds_sound h v h' : adds_data h v h' -> sound_heap h -> sound v /\ sound_heap h' /\ keeps h h'.
Proof.
  intros (arrs & dicts & -> & P & A & D) (S1 & S2 & S3 & S4). split; [apply plain_sound, P|]. split.
  - repeat split; cbn; auto; apply Forall_app; split; auto.
    + eapply Forall_impl; [|exact A]. intros l. apply Forall_impl. exact plain_sound.
    + eapply Forall_impl; [|exact D]. intros l. apply Forall_impl. intros e [K V]. split; apply plain_sound; assumption.
  - apply keeps_iters; reflexivity.
Qed.

(** The result of an operation on heap and world.  An operation makes at most one iterator, which
    values have to be allowed to mention. *)
Definition room (h h' : heap) : Prop := length (h_iters h) < length (h_iters h') -> sc_iter (length (h_iters h)).
Definition kept {W} (h : heap) (r : outcome (heap * W) value) : Prop :=
  match r with
  | Val v x => (room h (fst x) -> sound v /\ sound_heap (fst x)) /\ keeps h (fst x)
  | Pan _ x => sound_heap (fst x) /\ keeps h (fst x)
  | Crash c => allowed c
  | _ => True
  end.

Lemma kept_val {W} h v (x : heap * W) : sound v -> sound_heap (fst x) -> keeps h (fst x) -> kept h (Val v x).
Proof. intros A B C. split; [auto|exact C]. Qed.
Lemma find_entry_sound eq k d v : Forall sound_entry d -> find_entry eq k d = Known (Some v) -> sound v.
Proof.
  induction 1 as [|[x y] d [Hx Hy] Hd IH]; cbn; [discriminate|].
  destruct (eq k x) as [[|]| |]; cbn; try discriminate; [|exact IH]. intros [= <-]. exact Hy.
Qed.
Lemma put_entry_sound eq k v d d' :
  Forall sound_entry d -> sound k -> sound v -> put_entry eq k v d = Known d' -> Forall sound_entry d'.
Proof.
  intros H Hk Hv. revert d'. induction H as [|[x y] d [Hx Hy] Hd IH]; intros d'; cbn.
  - intros [= <-]. repeat constructor; assumption.
  - destruct (eq k x) as [[|]| |]; cbn; try discriminate.
    + intros [= <-]. constructor; [split; assumption|exact Hd].
    + destruct (put_entry eq k v d) as [d''| |]; cbn; try discriminate. intros [= <-].
      constructor; [split; assumption|apply IH; reflexivity].
Qed.
Lemma insert_sorted_all {A} (P : A -> Prop) cmp x l r :
  P x -> Forall P l -> insert_sorted cmp x l = Known r -> Forall P r.
Proof.
  intros Hx H. revert r. induction H as [|y l Hy Hl IH]; intros r; cbn.
  - intros [= <-]. auto.
  - destruct (cmp x y) as [[| |]| |]; cbn; try discriminate.
    + destruct (insert_sorted cmp x l) as [t| |]; cbn; try discriminate. intros [= <-]. auto.
    + intros [= <-]. auto.
    + destruct (insert_sorted cmp x l) as [t| |]; cbn; try discriminate. intros [= <-]. auto.
Qed.
Lemma sort_walk_all {A} (P : A -> Prop) cmp l r : Forall P l -> sort_walk cmp l = Known r -> Forall P r.
Proof.
  unfold sort_walk. intros H.
  assert (G : forall acc, (forall a, acc = Known a -> Forall P a) -> forall r,
    fold_left (fun acc x => wbind acc (insert_sorted cmp x)) l acc = Known r -> Forall P r).
  { induction H as [|x l Hx Hl IH]; intros acc Ha r'; cbn; [apply Ha|]. apply IH. intros a.
    destruct acc as [b| |]; cbn; try discriminate. apply insert_sorted_all; auto. }
  apply G. intros a [= <-]. constructor.
Qed.

Section Lib.
Context {W : Type}.
Variable X : ext W.
Hypothesis HX : honest X.

Lemma iteration_kept (v : option value) h h0 (w : W) :
  match v with Some v => sound v | None => True end -> sound_heap h -> keeps h0 h -> kept h0 (iteration v h w).
Proof.
  intros Hv Hh K. unfold iteration. cbn [new_dict]. apply kept_val; [exact I| |]; cbn [fst].
  - apply sound_new_dict; [exact Hh|]. destruct v; repeat constructor; exact Hv.
  - exact K.
Qed.

Lemma iter_call_kept g h (w : W) : sound_heap h -> sound_native g -> kept h (iter_call g h w).
Proof.
  intros Hh Hg. pose proof (sound_iter_get h) as SI.
  assert (Hn : kept h (iteration (W := W) None h w)) by (apply iteration_kept; [exact I|exact Hh|apply keeps_refl]).
  destruct g as [f|o f|a st|s st|st|st to step|st to step|f pt|st]; cbn [iter_call]; try exact Hn.
  - destruct (iter_get h st) as [ix| | |] eqn:E; try exact Hn.
    destruct (nth_z (arr_get h a) ix) as [v|] eqn:N; [|exact Hn]. apply iteration_kept.
    + unfold nth_z in N. destruct (ix <? 0)%Z; [discriminate|]. apply nth_error_In in N.
      pose proof (sound_arr h a Hh) as F. rewrite Forall_forall in F. exact (F _ N).
    + apply sound_iter_set; [exact Hh|exact I].
    + apply keeps_iter_set; [exact Hg|]. left. intros j. rewrite E. discriminate.
  - destruct (iter_get h st) as [ix| | |] eqn:E; try exact Hn.
    destruct (nth_z s ix) as [v|] eqn:N; [|exact Hn]. apply iteration_kept.
    + exact I.
    + apply sound_iter_set; [exact Hh|exact I].
    + apply keeps_iter_set; [exact Hg|]. left. intros j. rewrite E. discriminate.
  - specialize (SI st Hh). destruct (iter_get h st) as [ | |es|] eqn:E; try exact Hn. cbn in SI.
    apply Forall_rev' in SI. destruct (rev es) as [|[k v] r] eqn:R; [exact Hn|].
    inversion SI as [|? ? [Sk Sv] Sr]; subst. cbn [fst snd] in *.
    assert (Hs : sound_heap (iter_set h st (ISEntries (rev r)))).
    { apply sound_iter_set; [exact Hh|]. apply Forall_rev', Sr. }
    cbn [new_dict]. apply iteration_kept; [exact I| |].
    + apply (sound_new_dict (iter_set h st (ISEntries (rev r)))); [exact Hs|]. repeat constructor; assumption.
    + apply keeps_trans with (b := iter_set h st (ISEntries (rev r))); [|apply keeps_iters; reflexivity].
      apply keeps_iter_set; [exact Hg|]. left. intros j. rewrite E. discriminate.
  - destruct (iter_get h st) as [ix| | |] eqn:E; try exact Hn.
    destruct (if 0 <? step then to <=? ix else ix <=? to)%Z; [exact Hn|]. apply iteration_kept.
    + exact I.
    + apply sound_iter_set; [exact Hh|exact I].
    + apply keeps_iter_set; [exact Hg|]. left. intros j. rewrite E. discriminate.
  - destruct (iter_get h st) as [|ix| |] eqn:E; try exact Hn.
    match goal with |- context [if ?c then _ else _] => destruct c end; [exact Hn|]. apply iteration_kept.
    + exact I.
    + apply sound_iter_set; [exact Hh|exact I].
    + apply keeps_iter_set; [exact Hg|]. left. intros j. rewrite E. discriminate.
Qed.

Lemma map_sound {A} (f : A -> value) l : (forall x, sound (f x)) -> Forall sound (map f l).
Proof. intros H. induction l; cbn; constructor; auto. Qed.

Lemma walked_kept {A} h (r : walk A) (k : A -> outcome (heap * W) value) :
  (forall a, r = Known a -> kept h (k a)) -> kept h (walked r k).
Proof. intros H. destruct r; cbn; [apply H; reflexivity|exact I|exact I]. Qed.

Ltac easy_kept :=
  first
  [ exact I
  | apply kept_val; [exact I|assumption|apply keeps_refl]
  | apply kept_val; [assumption|assumption|apply keeps_refl]
  | split; [assumption|apply keeps_refl]
  | apply kept_val; [cbn; assumption|assumption|apply keeps_refl] ].
Ltac args_cases :=
  repeat match goal with
  | H : Forall sound (_ :: _) |- _ => inversion H; clear H; subst
  end.
Ltac peel :=
  match goal with
  | |- kept _ (match ?x with _ => _ end) => destruct x eqn:?
  | |- kept _ (walked _ _) => apply walked_kept; intros ? ?
  | |- kept _ (Val (match ?x with _ => _ end) _) => destruct x
  end; try easy_kept.

Lemma range_kept a b c p h (w : W) : sound_heap h -> kept h (range a b c p h w).
Proof.
  intros Hh. unfold range.
  repeat match goal with |- context [if negb ?b then _ else _] => destruct b; cbn [negb]; try easy_kept end.
  repeat peel.
  all: match goal with E : new_iter _ _ = _ |- _ => injection E as <- <- end;
    split; [intros R; split; [cbn; apply R; cbn; rewrite app_length; cbn; lia|apply sound_new_iter; [assumption|exact I]]|apply keeps_new_iter].
Qed.

Lemma std_call_kept n f args p h (w : W) ra :
  sound_heap h -> Forall sound args -> sound ra -> kept h (std_call X n ra f args p h w).
Proof.
  intros Hh Ha Hra.
  destruct f; cbn [std_call]; unfold print, read; repeat peel; subst; args_cases; try easy_kept.
  all: try (inversion H; subst; clear H).
  all: try easy_kept.
  all: try (match goal with E : new_arr _ _ = _ |- _ => injection E as <- <- end;
    apply kept_val; [exact I|apply sound_new_arr; [assumption|apply map_sound; intros; exact I]|apply keeps_iters; reflexivity]).
  all: try (match goal with E : new_iter _ _ = _ |- _ => injection E as <- <- end;
    split; [intros R; split; [cbn; apply R; cbn; rewrite app_length; cbn; lia|apply sound_new_iter; [assumption|try exact I]]|apply keeps_new_iter]).
  all: try apply range_kept; try assumption.
  - apply kept_val; [cbn; auto|assumption|apply keeps_refl].
  - apply kept_val; [cbn; apply plain_sound; eapply (hn_glob X HX); eassumption|assumption|apply keeps_refl].
  - cbn. rewrite Forall_forall. intros e He. pose proof (sound_dict h l0 Hh) as F. rewrite Forall_forall in F.
    apply F. eapply Permutation_in; [apply (hn_order X HX)|exact He].
  - match goal with E : _ = Some (_, _) |- _ => rename E into J end. destruct (x_json_parse X _); [|discriminate].
    apply JsonProofs.from_json_adds, adds_sound in J; [|exact Hh]. apply kept_val; apply J.
  - match goal with E : rev (arr_get _ _) = _ |- _ =>
      pose proof (Forall_rev' _ _ (sound_arr h l0 Hh)) as F; rewrite E in F; inversion F; subst end.
    apply kept_val; [assumption|apply sound_arr_set; [exact Hh|apply Forall_rev'; assumption]|apply keeps_iters; reflexivity].
  - apply kept_val; [exact I| |apply keeps_iters; reflexivity]. apply sound_arr_set; [exact Hh|].
    apply Forall_app. split; [apply sound_arr, Hh|repeat constructor; assumption].
  - match goal with E : new_dict _ _ = _ |- _ => injection E as <- <- end.
    apply kept_val; [exact I|apply sound_new_dict; [exact Hh|repeat constructor]|apply keeps_iters; reflexivity].
  - apply kept_val; [exact I| |apply keeps_iters; reflexivity]. apply sound_arr_set; [exact Hh|].
    eapply sort_walk_all; [apply sound_arr, Hh|eassumption].
  - unfold typecheck in *.
    repeat match goal with E : match ?x with _ => _ end = _ |- _ => destruct x; try discriminate end.
    args_cases. match goal with E : inl _ = inl _ |- _ => injection E as <- _ end.
    apply kept_val; [assumption|assumption|apply keeps_refl].
  - unfold typecheck in *.
    repeat match goal with E : match ?x with _ => _ end = _ |- _ => destruct x; try discriminate end.
    args_cases. match goal with E : inl _ = inl _ |- _ => injection E as <- _ end.
    apply kept_val; [assumption|assumption|apply keeps_refl].
Qed.

Lemma native_call_kept n g args p h (w : W) ra :
  sound_heap h -> sound_native g -> Forall sound args -> sound ra -> kept h (native_call X n ra g args p h w).
Proof.
  intros Hh Hg Ha Hra.
  assert (HI : kept h (match args with [] => iter_call (W := W) g h w | _ => Pan (PInvalidArgs (length args) 0 p) (h, w) end)).
  { destruct args; [apply iter_call_kept; assumption|easy_kept]. }
  destruct g as [f|o f|a st|s st|st|st to step|st to step|f pt|st]; cbn [native_call]; try exact HI.
  - apply std_call_kept; assumption.
  - exact I.
  - destruct f; cbn [regex_call]; repeat peel; subst.
    injection Heqp0 as <- <-. apply kept_val; [exact I| |apply keeps_iters; reflexivity].
    apply sound_new_arr; [exact Hh|]. apply map_sound. intros; exact I.
  - unfold join_call. destruct (iter_get h st) as [| | |[i|]] eqn:E; try easy_kept.
    assert (Hs : sound_heap (iter_set h st (ISJoin None))) by (apply sound_iter_set; [exact Hh|exact I]).
    assert (Hk : keeps h (iter_set h st (ISJoin None))) by (apply keeps_iter_set; [exact Hg|right; reflexivity]).
    destruct (x_join X i (iter_set h st (ISJoin None)) w) as [[[v h']|e] w'] eqn:J.
    + apply (hn_join _ HX) in J. apply adds_sound in J; [|exact Hs]. destruct J as (A & B & C).
      apply kept_val; [exact A|exact B|]. eapply keeps_trans; eassumption.
    + split; assumption.
Qed.

(** Building commands only reads slots that exist. *)
Section Block.
Variable O : os W.
Variable k : nat.
Variable fetch : slot -> option value.
Hypothesis HF : forall i, i < k -> exists v, fetch i = Some v.
Variable h : heap.
Variable w : W.
Variable path : bytes.

Definition fine {A} (b : built A) : Prop := match b with BCrash c => allowed c | _ => True end.
Lemma fine_bind {A B} (b : built A) (f : A -> built B) : fine b -> (forall a, fine (f a)) -> fine (bbind b f).
Proof. destruct b; cbn; auto. Qed.
Lemma fine_map {A B} (P : A -> Prop) (f : A -> built B) l : Forall P l -> (forall a, P a -> fine (f a)) -> fine (bmap f l).
Proof.
  intros H K. induction H as [|x l Hx Hl IH]; cbn; [exact I|]. apply fine_bind; [apply K, Hx|]. intros a.
  apply fine_bind; [exact IH|intros; exact I].
Qed.
Lemma fine_value v p : fine (build_basic_value X v p).
Proof. destruct v; exact I. Qed.
Lemma fine_fetch i : i < k -> fine (bfetch fetch i).
Proof. intros H. unfold bfetch. destruct (HF i H) as [v ->]. exact I. Qed.
Lemma fine_part x a : valid_part k x -> fine (build_part X fetch h w path x a).
Proof.
  destruct x as [[s|i p]| | |]; cbn [build_part]; intros V; try exact I.
  apply fine_bind; [apply fine_fetch, V|]. intros v.
  destruct v; try (apply fine_bind; [apply fine_value|intros; exact I]).
  apply fine_bind; [|intros; exact I]. apply (fine_map (fun _ => True)); [|intros; apply fine_value].
  apply Forall_forall. intros; exact I.
Qed.
Lemma fine_parts l a : Forall (valid_part k) l -> fine (build_parts X fetch h w path l a).
Proof.
  intros H. revert a. induction H as [|x l Hx Hl IH]; intros a; cbn; [exact I|].
  apply fine_bind; [apply fine_part, Hx|exact IH].
Qed.
Lemma fine_argument a : valid_argument k a -> fine (build_argument X fetch h w path a).
Proof. intros H. apply fine_bind; [apply fine_parts, H|intros; exact I]. Qed.
Lemma fine_single o a : valid_argument k a -> fine (build_single_argument X fetch h w path o a).
Proof.
  intros H. apply fine_bind; [apply fine_argument, H|]. intros [|x [|y l]]; exact I.
Qed.
Lemma fine_env kv : valid_unit k (fst kv) /\ valid_argument k (snd kv) -> fine (build_env X fetch h w path kv).
Proof.
  intros [Hu Ha]. unfold build_env. apply fine_bind.
  - destruct (fst kv) as [s|i p]; [exact I|]. apply fine_bind; [apply fine_fetch, Hu|]. intros; apply fine_value.
  - intros n. apply fine_bind; [apply fine_single, Ha|intros; exact I].
Qed.
Lemma fine_redirection r : valid_redirection k r -> fine (build_redirection X fetch h w path r).
Proof.
  destruct r as [z [fd|a|a]|b a]; cbn; intros H; try exact I; apply fine_bind; try (intros; exact I); apply fine_single, H.
Qed.
Lemma fine_arguments l : Forall (valid_argument k) l -> fine (build_arguments X fetch h w path l).
Proof.
  intros H. apply fine_bind; [|intros; exact I]. eapply fine_map; [exact H|]. intros; apply fine_argument; assumption.
Qed.
Lemma fine_basic c : valid_basic k c -> fine (build_basic_command X fetch h w path c).
Proof.
  intros (A & B & C & D). unfold build_basic_command. apply fine_bind; [apply fine_single, A|]. intros ?.
  apply fine_bind; [eapply fine_map; [exact B|intros; apply fine_env; assumption]|]. intros ?.
  apply fine_bind; [apply fine_arguments, C|]. intros ?.
  apply fine_bind; [eapply fine_map; [exact D|intros; apply fine_redirection; assumption]|]. intros ?. exact I.
Qed.
Lemma fine_command c : valid_command k c -> fine (build_command X fetch h w path c).
Proof.
  destruct c as [b args ab p|c cs]; cbn [build_command valid_command].
  - intros H. apply fine_bind; [apply fine_arguments, H|intros; exact I].
  - intros [A B]. apply fine_bind; [apply fine_basic, A|]. intros ?.
    apply fine_bind; [eapply fine_map; [exact B|intros; apply fine_basic; assumption]|]. intros ?. exact I.
Qed.
Lemma fine_block b : valid_block k b -> fine (build_command_block X fetch h w path b).
Proof.
  intros [A B]. apply fine_bind; [apply fine_command, A|]. intros ?.
  apply fine_bind; [eapply fine_map; [exact B|intros; apply fine_command; assumption]|]. intros ?. exact I.
Qed.

(** Running commands crashes on nothing but [alias]. *)
Definition calm {A} (m : xstate (W := W) -> ran (W := W) A) : Prop :=
  forall s c, m s = RCrash c -> allowed c.
Lemma calm_bind {A B} (m : xstate -> ran A) (f : A -> xstate -> ran B) :
  calm m -> (forall a, calm (f a)) -> calm (xbind m f).
Proof.
  intros Hm Hf s c. unfold xbind. destruct (m s) eqn:E; try discriminate.
  - apply Hf.
  - intros [= <-]. exact (Hm _ _ E).
Qed.
Lemma calm_ret {A} (a : A) : calm (xret a). Proof. intros s c; discriminate. Qed.
Lemma calm_panic {A} p : calm (xpanic (A := A) p). Proof. intros s c; discriminate. Qed.
Lemma calm_ask {A} p f (log : A -> list event) : calm (ask p f log).
Proof. intros s c. unfold ask. destruct (f (xs_world s)) as [[e|a] w']; discriminate. Qed.
Lemma calm_resolve a p : calm (resolve O a p).
Proof. intros s c. destruct a as [x|x]; cbn; [|discriminate]. destruct (o_glob O x (xs_world s)); discriminate. Qed.
Lemma calm_resolve_all l p : calm (resolve_all O l p).
Proof.
  induction l as [|a l IH]; cbn [resolve_all]; [apply calm_ret|]. apply calm_bind; [apply calm_resolve|]. intros x.
  apply calm_bind; [exact IH|]. intros y. apply calm_ret.
Qed.
Lemma calm_resolve_one o a p : calm (resolve_one O o a p).
Proof.
  unfold resolve_one. apply calm_bind; [apply calm_resolve|]. intros [|x [|y l]]; first [apply calm_ret|apply calm_panic].
Qed.
Lemma calm_wait_child i p : calm (wait_child O i p).
Proof.
  intros s c. unfold wait_child. destruct (o_wait O i (xs_world s)) as [[e|st] w']; discriminate.
Qed.
Ltac calm_all := repeat first
  [ apply calm_ret | apply calm_panic | apply calm_ask | apply calm_resolve | apply calm_resolve_all
  | apply calm_resolve_one | apply calm_wait_child | match goal with |- forall _, calm _ => intros ? end
  | apply calm_bind
  | match goal with |- calm (if ?b then _ else _) => destruct b end
  | match goal with |- calm (match ?b with _ => _ end) => destruct b end ].
Lemma calm_exit {A} z : calm (fun s => RExit (A := A) z s). Proof. intros s c; discriminate. Qed.
Lemma calm_builtin b l p : calm (builtin_exec X O b l p).
Proof.
  unfold builtin_exec. apply calm_bind; [apply calm_resolve_all|]. intros r.
  destruct b; try (intros s c [= <-]; exact I); destruct r as [|x [|y r]]; try apply calm_panic;
  apply calm_bind; try apply calm_ask; intros ?; first [apply calm_ret|apply calm_exit|apply calm_wait_child].
Qed.
Lemma calm_redirect r io p : calm (redirect O r io p).
Proof. destruct r as [z t|b a]; cbn [redirect]; [destruct t; cbn [resolve_target]|]; calm_all. Qed.
Lemma calm_redirect_all rs io p : calm (redirect_all O rs io p).
Proof.
  revert io. induction rs as [|r rs IH]; intros io; cbn [redirect_all]; [apply calm_ret|].
  apply calm_bind; [apply calm_redirect|exact IH].
Qed.
Lemma calm_resolve_env l p : calm (resolve_env O l p).
Proof.
  induction l as [|[x a] l IH]; cbn [resolve_env]; [apply calm_ret|]. apply calm_bind; [apply calm_resolve_one|]. intros y.
  apply calm_bind; [exact IH|]. intros z. apply calm_ret.
Qed.
Lemma calm_basic c io : calm (basic_exec O c io).
Proof.
  unfold basic_exec. apply calm_bind; [apply calm_resolve_one|]. intros ?. apply calm_bind; [apply calm_resolve_env|].
  intros ?. apply calm_bind; [apply calm_resolve_all|]. intros ?. apply calm_bind; [apply calm_redirect_all|]. intros ?.
  apply calm_ask.
Qed.
Lemma calm_pipe p : calm (new_pipe O p).
Proof. intros s c. unfold new_pipe. destruct (o_pipe O (xs_world s)) as [[e|] w']; discriminate. Qed.
Lemma calm_spawn_tail cs out err ch : calm (spawn_tail O cs out err ch).
Proof.
  revert out err ch. induction cs as [|c cs IH]; intros out err ch; cbn [spawn_tail]; [apply calm_ret|].
  apply calm_bind; [apply calm_pipe|]. intros ?. apply calm_bind; [apply calm_basic|]. intros ?.
  apply calm_bind; [apply calm_ask|]. intros ?. apply IH.
Qed.
Lemma calm_wait_all ch ab es : calm (wait_all O ch ab es).
Proof.
  revert ab es. induction ch as [|[[i p] a] ch IH]; intros ab es; cbn [wait_all]; [apply calm_ret|].
  apply calm_bind; [apply calm_wait_child|]. intros [e|]; apply IH.
Qed.
Lemma calm_command c out err : calm (command_exec X O c out err).
Proof.
  destruct c as [b l ab p|c cs]; cbn [command_exec].
  - apply calm_bind; [apply calm_builtin|]. intros [e|]; apply calm_ret.
  - apply calm_bind; [apply calm_spawn_tail|]. intros [[a b] ch]. apply calm_bind; [apply calm_ask|]. intros ?.
    apply calm_bind; [apply calm_basic|]. intros ?. apply calm_wait_all.
Qed.
Lemma calm_commands cs out err es : calm (commands_exec X O cs out err es).
Proof.
  revert es. induction cs as [|c cs IH]; intros es; cbn [commands_exec]; [apply calm_ret|].
  apply calm_bind; [apply calm_ask|]. intros ?. apply calm_bind; [apply calm_ask|]. intros ?.
  apply calm_bind; [apply calm_command|]. intros [e ab]. destruct ab; [apply calm_ret|apply IH].
Qed.
Lemma calm_block b out err : calm (block_exec X O b out err).
Proof.
  intros s c. unfold block_exec. destruct (commands_exec X O _ out err [] s) eqn:E; try discriminate.
  intros [= <-]. exact (calm_commands _ _ _ _ _ _ E).
Qed.

Definition adds (f : heap -> value * heap) : Prop :=
  forall h, sound_heap h -> sound (fst (f h)) /\ sound_heap (snd (f h)) /\ h_iters (snd (f h)) = h_iters h /\
    h_cells (snd (f h)) = h_cells h.
Lemma values_adds {A} (f : A -> heap -> value * heap) l : (forall x, adds (f x)) ->
  forall h, sound_heap h -> Forall sound (fst (values_of f l h)) /\ sound_heap (snd (values_of f l h)) /\
    h_iters (snd (values_of f l h)) = h_iters h /\ h_cells (snd (values_of f l h)) = h_cells h.
Proof.
  intros Hf. induction l as [|x l IH]; intros h0 Hh; cbn [values_of]; [cbn; auto|].
  destruct (Hf x h0 Hh) as (A1 & A2 & A3). destruct (f x h0) as [v h1]. cbn [fst snd] in *.
  destruct (IH h1 A2) as (B1 & B2 & B3). destruct (values_of f l h1) as [r h2]. cbn [fst snd] in *.
  split; [constructor; assumption|]. split; [exact B2|]. destruct A3, B3. split; congruence.
Qed.
Lemma many_adds {A} (f : A -> heap -> value * heap) m l : (forall x, adds (f x)) -> adds (many_value f m l).
Proof.
  intros Hf h0 Hh. destruct l as [|x [|y l]]; cbn [many_value].
  - cbn; auto.
  - apply Hf, Hh.
  - destruct (values_adds f (x :: y :: l) Hf h0 Hh) as (B1 & B2 & B3). destruct (values_of f (x :: y :: l) h0) as [r h1].
    cbn [fst snd] in *. cbn [new_arr fst snd]. split; [exact I|]. split; [|exact B3]. apply (sound_new_arr h1 r); assumption.
Qed.
Lemma status_adds e : adds (status_value X e).
Proof.
  intros h0 Hh. unfold status_value. cbn [new_dict fst snd]. split; [exact I|]. split; [|split; reflexivity].
  apply (sound_new_dict h0); [exact Hh|]. repeat constructor.
Qed.
Lemma block_adds es : adds (block_value X es).
Proof. apply many_adds. intros x. apply many_adds, status_adds. Qed.
End Block.

Lemma command_kept O k fetch path b p h (w : W) :
  (forall i, i < k -> exists v, fetch i = Some v) -> valid_block k b -> sound_heap h ->
  kept h (eval_command_block X O fetch path b p h w).
Proof.
  intros HF V Hh. unfold eval_command_block.
  pose proof (fine_block k fetch HF h w path b V) as B.
  destruct (build_command_block X fetch h w path b) as [eb|e|c]; [|easy_kept|exact B].
  destruct (xc_kind b).
  - destruct (block_exec X O eb IOStdout IOStderr (mkxstate 0 [] w)) as [es s|e q s|e s|c s|c] eqn:E; try easy_kept.
    + destruct (block_adds es h Hh) as (A1 & A2 & A3). destruct (block_value X es h) as [v h']. cbn [fst snd] in *.
      apply kept_val; [exact A1|exact A2|]. apply keeps_iters; apply A3.
    + apply calm_block in E. exact E.
  - destruct (o_async O eb w) as [handle w']. cbn [new_iter].
    set (h1 := mkheap _ _ _ (h_iters h ++ _)).
    assert (H1 : sound_heap h1) by (apply (sound_new_iter h (ISJoin (Some handle)) Hh); exact I).
    split.
    + intros R. split; [exact I|]. apply (sound_new_dict h1); [exact H1|]. repeat constructor. cbn. apply R. cbn. rewrite app_length. cbn. lia.
    + apply (keeps_trans _ h1); [apply (keeps_new_iter h (ISJoin (Some handle)))|apply keeps_iters; reflexivity].
  - destruct (o_pipe O w) as [[e|] w']; [easy_kept|].
    destruct (block_exec X O eb IOCaptureOut IOCaptureErr (mkxstate 0 [] w')) as [es s|e q s|e s|c s|c] eqn:E; try easy_kept.
    + destruct (block_adds es h Hh) as (A1 & A2 & A3). destruct (block_value X es h) as [v h']. cbn [fst snd] in *.
      destruct (o_captured O (xs_world s)) as [[e|[out err]] w'']; [split; [exact A2|apply keeps_iters; apply A3]|].
      assert (H0 : kept h (let '(d', h'') := new_dict h' [(VStr (bs "stdout"), VStr out); (VStr (bs "stderr"), VStr err)] in Val d' (h'', w''))).
      { apply kept_val; [exact I| |apply keeps_iters; apply A3]. apply (sound_new_dict h'); [exact A2|]. repeat constructor. }
      destruct v as [| | | | | | | |f|d c]; try exact H0.
      apply kept_val; [exact I| |apply keeps_iters; apply A3]. apply (sound_new_dict h'); [exact A2|]. repeat constructor. exact A1.
    + apply calm_block in E. exact E.
Qed.
End Lib.
End Scope.
