(** The library gives the same answers when closed variables that are not mentioned differ. *)
From Coq Require Import Strings.String Lia.
From Verif Require ShowProofs JsonProofs.
From Verif Require Import Base Lexer Ast Parser Program Sema Value Text Json StdLib Exec Runtime SpecSema SpecProgram SpecRun SpecShare
  SoundLibProofs FuelProofs.

(** ** Functions on lists that only differ outside of a set *)
Section Ext.
Context {A : Type} (P : A -> Prop).
Lemma wbind_ext {B C} (a b : walk B) (f g : B -> walk C) : a = b -> (forall x, f x = g x) -> wbind a f = wbind b g.
Proof. intros -> H. destruct b; cbn; auto. Qed.
Lemma lex_ext (f g : A -> A -> walk comparison) : (forall x y, P x -> P y -> f x y = g x y) -> forall a b, Forall P a -> Forall P b -> lex f a b = lex g a b.
Proof.
  intros H. induction a as [|x a IH]; intros [|y b] Ha Hb; cbn; try reflexivity. inversion Ha; inversion Hb; subst.
  apply wbind_ext; [auto|]. intros []; auto.
Qed.
Lemma all2_ext (f g : A -> A -> walk bool) : (forall x y, P x -> P y -> f x y = g x y) -> forall a b, Forall P a -> Forall P b -> all2 f a b = all2 g a b.
Proof.
  intros H. induction a as [|x a IH]; intros [|y b] Ha Hb; cbn; try reflexivity. inversion Ha; inversion Hb; subst.
  apply wbind_ext; [auto|]. intros []; auto.
Qed.
Lemma insert_ext (f g : A -> A -> walk comparison) x : (forall x y, P x -> P y -> f x y = g x y) -> P x ->
  forall l, Forall P l -> insert_sorted f x l = insert_sorted g x l.
Proof.
  intros H Hx. induction l as [|y l IH]; intros Hl; cbn; [reflexivity|]. inversion Hl; subst. apply wbind_ext; [auto|].
  intros []; auto; (apply wbind_ext; [auto|reflexivity]).
Qed.
Lemma sort_ext (f g : A -> A -> walk comparison) : (forall x y, P x -> P y -> f x y = g x y) -> forall l, Forall P l -> sort_walk f l = sort_walk g l.
Proof.
  intros H l Hl. unfold sort_walk.
  assert (Q : forall acc, (forall r, acc = Known r -> Forall P r) ->
    fold_left (fun acc x => wbind acc (insert_sorted f x)) l acc = fold_left (fun acc x => wbind acc (insert_sorted g x)) l acc).
  { induction Hl as [|x l Hx Hl IH]; intros acc Ha; cbn; [reflexivity|].
    assert (E : wbind acc (insert_sorted f x) = wbind acc (insert_sorted g x)).
    { destruct acc; cbn; try reflexivity. apply insert_ext; auto. }
    rewrite <- E. apply IH. intros r Hr. destruct acc as [a| |]; try discriminate. cbn in Hr. eapply insert_sorted_all; [| |exact Hr]; auto. }
  apply Q. intros r [= <-]. constructor.
Qed.
Lemma dedup_all (f : A -> A -> walk bool) : forall l r, Forall P l -> dedup f l = Known r -> Forall P r.
Proof.
  induction l as [|x [|y l] IH]; intros r Hl; [intros [= <-]; constructor|intros [= <-]; exact Hl|].
  change (dedup f (x :: y :: l)) with (wbind (f x y) (fun r => if r then dedup f (y :: l) else wbind (dedup f (y :: l)) (fun t => Known (x :: t)))).
  inversion Hl; subst. destruct (f x y) as [[]| |]; cbn [wbind]; try discriminate; [auto|].
  destruct (dedup f (y :: l)) as [t| |]; cbn [wbind]; try discriminate. intros [= <-]. constructor; auto.
Qed.
Lemma dedup_ext (f g : A -> A -> walk bool) : (forall x y, P x -> P y -> f x y = g x y) -> forall l, Forall P l -> dedup f l = dedup g l.
Proof.
  intros H. induction l as [|x [|y l] IH]; intros Hl; try reflexivity.
  change (wbind (f x y) (fun r => if r then dedup f (y :: l) else wbind (dedup f (y :: l)) (fun t => Known (x :: t))) =
          wbind (g x y) (fun r => if r then dedup g (y :: l) else wbind (dedup g (y :: l)) (fun t => Known (x :: t)))).
  inversion Hl as [|? ? Hx Hl']; subst. inversion Hl'; subst. apply wbind_ext; [auto|].
  intros []; [auto|]. apply wbind_ext; [auto|reflexivity].
Qed.
Lemma any_ext (f g : A -> walk bool) : (forall x, P x -> f x = g x) -> forall l, Forall P l -> any f l = any g l.
Proof.
  intros H. induction l as [|x l IH]; intros Hl; cbn; [reflexivity|]. inversion Hl; subst. apply wbind_ext; [auto|]. intros []; auto.
Qed.
Lemma items_ext (f g : A -> walk bytes) l : (forall x, f x = g x) -> items_text f l = items_text g l.
Proof.
  intros H. change (items_go f true l = items_go g true l). generalize true as first. induction l as [|x l IH]; intros first; [reflexivity|].
  apply wbind_ext; [apply H|]. intros t. apply wbind_ext; [apply IH|reflexivity].
Qed.
Lemma fold_ext {B} (f g : walk B -> A -> walk B) : (forall a x, f a x = g a x) -> forall l a, fold_left f l a = fold_left g l a.
Proof. intros H. induction l as [|x l IH]; cbn; intros; [reflexivity|]. rewrite H. apply IH. Qed.
End Ext.
Lemma find_ext (P : value -> Prop) (f g : value -> value -> walk bool) k : (forall y, P y -> f k y = g k y) ->
  forall l, Forall (fun e => P (fst e)) l -> find_entry f k l = find_entry g k l.
Proof.
  intros H. induction l as [|[x v] l IH]; intros Hl; cbn; [reflexivity|]. inversion Hl; subst. apply wbind_ext; [auto|]. intros []; auto.
Qed.
Lemma put_ext (P : value -> Prop) (f g : value -> value -> walk bool) k v : (forall y, P y -> f k y = g k y) ->
  forall l, Forall (fun e => P (fst e)) l -> put_entry f k v l = put_entry g k v l.
Proof.
  intros H. induction l as [|[x w] l IH]; intros Hl; cbn; [reflexivity|]. inversion Hl; subst. apply wbind_ext; [auto|].
  intros []; auto. apply wbind_ext; auto.
Qed.
Lemma any_all {A} (f g : A -> walk bool) l : (forall x, f x = g x) -> any f l = any g l.
Proof. intros H. apply (any_ext (fun _ => True)); [auto|]. apply Forall_forall. auto. Qed.

(** ** Walks *)
Section Walks.
Context {sc : scope}.
Variable h : heap.
Variable cs : list value.
Hypothesis Hh : sound_heap h.
Hypothesis Hcs : forall c, sc_cell c -> nth c cs VNil = cell_get h c.
Notation h' := (recell cs h).

Lemma keys_sound l : Forall sound_entry l -> Forall (fun e => sound (fst e)) l.
Proof. apply Forall_impl. intros e [H _]. exact H. Qed.

Lemma eqv_recell n : forall bits a b, sound a -> sound b -> eqv h' n bits a b = eqv h n bits a b.
Proof.
  induction n as [|n IH]; intros bits a b Ha Hb; [reflexivity|]. destruct a, b; cbn [eqv]; try reflexivity.
  - change (arr_get h' l) with (arr_get h l). change (arr_get h' l0) with (arr_get h l0). destruct (Nat.eqb _ _); [|reflexivity].
    apply (all2_ext sound); [auto|apply sound_arr, Hh|apply sound_arr, Hh].
  - change (dict_entries h' l) with (dict_entries h l). change (dict_entries h' l0) with (dict_entries h l0).
    destruct (Nat.eqb _ _); [|reflexivity]. pose proof (sound_dict h l0 Hh) as D0. pose proof (sound_dict h l Hh) as D.
    induction D as [|[k v] d [Hk Hv] D IHd]; [reflexivity|]. cbn [fst snd] in *.
    rewrite (find_ext sound (eqv h' n true) (eqv h n true) k); [|auto|apply keys_sound, D0].
    destruct (find_entry (eqv h n true) k (dict_entries h l0)) as [[w|]| |] eqn:F; try reflexivity. cbn [wbind].
    rewrite (IH bits v w); [|exact Hv|exact (find_entry_sound _ _ _ _ D0 F)].
    destruct (eqv h n bits v w) as [[]| |]; try reflexivity. cbn [wbind]. apply IHd.
  - destruct f, f0; try reflexivity. destruct (_ && _); [|reflexivity].
    destruct Ha as (_ & _ & _ & _ & Ha). destruct Hb as (_ & _ & _ & _ & Hb).
    apply (all2_ext (fun x => sc_cell (fst x))); [|exact Ha|exact Hb].
    intros x y Hx Hy. unfold cell_get at 1 2. cbn [recell h_cells]. rewrite !Hcs; try assumption. rewrite IH; [reflexivity| |]; apply sound_cell, Hh.
  - destruct (bytes_eqb _ _); [|reflexivity]. apply IH; assumption.
Qed.
Lemma hash_recell n k v : hash_walk h' n k v = hash_walk h n k v.
Proof. reflexivity. Qed.
Lemma vcmp_recell rank n : forall k a b, sound a -> sound b -> vcmp rank h' n k a b = vcmp rank h n k a b.
Proof.
  induction n as [|n IH]; intros k a b Ha Hb; [reflexivity|]. destruct a, b; cbn [vcmp]; try reflexivity.
  - destruct (_ || _); [reflexivity|]. apply (lex_ext sound); [auto|apply sound_arr, Hh|apply sound_arr, Hh].
  - assert (Q : forall l,
      (if dict_locked k l then Busy else wbind (sort_walk (fun e e' : value * value => vcmp rank h' n k (fst e) (fst e')) (dict_entries h' l)) (dedup (fun e e' : value * value => eqv h' n false (fst e) (fst e')))) =
      (if dict_locked k l then Busy else wbind (sort_walk (fun e e' : value * value => vcmp rank h n k (fst e) (fst e')) (dict_entries h l)) (dedup (fun e e' : value * value => eqv h n false (fst e) (fst e')))) /\
      forall r, (if dict_locked k l then Busy else wbind (sort_walk (fun e e' : value * value => vcmp rank h n k (fst e) (fst e')) (dict_entries h l)) (dedup (fun e e' : value * value => eqv h n false (fst e) (fst e')))) = Known r -> Forall sound_entry r).
    { intros q. pose proof (sound_dict h q Hh) as D. destruct (dict_locked k q); [split; [reflexivity|discriminate]|].
      change (dict_entries h' q) with (dict_entries h q).
      rewrite (sort_ext sound_entry _ (fun e e' : value * value => vcmp rank h n k (fst e) (fst e'))); [|intros x y [Hx _] [Hy _]; auto|exact D].
      destruct (sort_walk _ (dict_entries h q)) as [es| |] eqn:S; cbn [wbind]; [|split; [reflexivity|discriminate]|split; [reflexivity|discriminate]].
      assert (Hes : Forall sound_entry es) by (eapply sort_walk_all; eassumption).
      split; [|intros r Hr; eapply dedup_all; eassumption].
      apply (dedup_ext sound_entry); [|exact Hes]. intros x y [Hx _] [Hy _]. apply eqv_recell; assumption. }
    destruct (Q l) as [Q1 Q2]. destruct (Q l0) as [Q3 Q4]. cbv zeta. rewrite Q1, Q3.
    match type of Q2 with forall r, ?e = Known r -> _ => destruct e as [ex| |] end; try reflexivity. cbn [wbind].
    match type of Q4 with forall r, ?e = Known r -> _ => destruct e as [ey| |] end; try reflexivity. cbn [wbind].
    apply (lex_ext sound_entry); [|auto|auto]. intros x y [Hx Hx'] [Hy Hy']. rewrite IH by assumption.
    destruct (vcmp rank h n k (fst x) (fst y)) as [[]| |]; cbn [wbind]; auto.
  - destruct (bytes_cmp _ _); try reflexivity. apply IH; assumption.
Qed.
Lemma dict_get_recell n l k : sound k -> dict_get h' n l k = dict_get h n l k.
Proof.
  intros Hk. unfold dict_get. rewrite hash_recell. destruct (hash_walk h n LockNone k); cbn [wbind]; try reflexivity.
  apply (find_ext sound); [intros; apply eqv_recell; assumption|]. apply keys_sound, sound_dict, Hh.
Qed.
Lemma dict_put_recell n l k v : sound k -> dict_put h' n l k v = dict_put h n l k v.
Proof.
  intros Hk. unfold dict_put. rewrite hash_recell. destruct (hash_walk h n (LockDict l) k); cbn [wbind]; try reflexivity.
  apply (put_ext sound); [intros; apply eqv_recell; assumption|]. apply keys_sound, sound_dict, Hh.
Qed.

(** ** The library *)
Context {W : Type}.
Variable X : ext W.
Hypothesis BX : blind X.
Hypothesis HX : honest X.

Lemma show_recell n : forall v, show X n h' v = show X n h v.
Proof.
  induction n as [|n IH]; intros v; [reflexivity|]. destruct v; cbn [show]; try reflexivity.
  - apply wbind_ext; [apply items_ext, IH|reflexivity].
  - apply wbind_ext; [apply items_ext|reflexivity]. intros e. apply wbind_ext; [apply IH|]. intros. apply wbind_ext; [apply IH|reflexivity].
  - apply wbind_ext; [apply IH|reflexivity].
Qed.
Lemma panic_text_recell n p : panic_text X n h' p = panic_text X n h p.
Proof. unfold panic_text. destruct p; rewrite ?show_recell; reflexivity. Qed.
Lemma has_error_recell n : forall v, has_error X n h' v = has_error X n h v.
Proof.
  induction n as [|n IH]; intros v; [reflexivity|]. destruct v; cbn [has_error]; try reflexivity.
  - apply any_all, IH.
  - apply any_all. intros e. apply wbind_ext; [apply IH|]. intros []; auto.
Qed.
Lemma print_all_recell n : forall args b, print_all X n h' b args = print_all X n h b args.
Proof.
  induction args as [|v r IH]; intros b; cbn [print_all]; [reflexivity|].
  apply wbind_ext; [destruct v; cbn [print_text]; auto using show_recell|]. intros t. apply wbind_ext; [apply IH|reflexivity].
Qed.

Definition recelled {A} (o : outcome (heap * W) A) : outcome (heap * W) A :=
  match o with
  | Val a x => Val a (recell cs (fst x), snd x)
  | Pan p x => Pan p (recell cs (fst x), snd x)
  | Exit c x => Exit c (recell cs (fst x), snd x)
  | Crash c => Crash c
  | Fuel => Fuel
  end.
(** The outcome has the closed variables there were. *)
Definition cellsame {A} (o : outcome (heap * W) A) : Prop :=
  match o with Val _ x | Pan _ x | Exit _ x => h_cells (fst x) = h_cells h | _ => True end.

Lemma walked_recell {A} (a b : walk A) (k k' : A -> res) : a = b -> (forall x, k x = recelled (k' x)) -> walked a k = recelled (walked b k').
Proof. intros -> H. destruct b; cbn; auto. Qed.
Lemma walked_cells {A} (b : walk A) (k : A -> res) : (forall x, cellsame (k x)) -> cellsame (walked b k).
Proof. intros H. destruct b; cbn; auto. Qed.

Ltac cases := repeat match goal with
  | |- ?a = ?a => reflexivity
  | |- True => exact I
  | |- context [match ?x with _ => _ end] => is_var x; destruct x
  end.
Lemma std_call_recell n ra f args p w : Forall sound args -> std_call X n ra f args p h' w = recelled (std_call X n ra f args p h w).
Proof.
  intros Ha. destruct f; cbn [std_call]; unfold print, arr_contains, range, read;
    change (arr_get h') with (arr_get h); change (dict_entries h') with (dict_entries h).
  all: try (repeat match goal with
    | |- _ = recelled _ => reflexivity
    | |- walked _ _ = recelled (walked _ _) => apply walked_recell
    | |- _ = _ => reflexivity
    | |- context [to_json _ _ (recell cs h) _] => rewrite JsonProofs.to_json_recell
    | |- context [from_json _ (recell cs h)] => rewrite JsonProofs.from_json_recell; unfold JsonProofs.recelled
    | |- context [match ?x with _ => _ end] => match x with context [match _ with _ => _ end] => fail 1 | _ => destruct x end
    | |- forall _, _ => intro
    end; fail).
  all: repeat match goal with
    | |- walked _ _ = recelled (walked _ _) => apply walked_recell
    | |- _ = _ => reflexivity
    | |- show X _ _ _ = _ => apply show_recell
    | |- has_error X _ _ _ = _ => apply has_error_recell
    | |- print_all X _ _ _ _ = _ => apply print_all_recell
    | |- forall _, _ => intro
    | |- context [match ?x with _ => _ end] => match x with context [match _ with _ => _ end] => fail 1 | _ => destruct x end
    end.
  - inversion Ha as [|? ? _ H2]; subst. inversion H2 as [|? ? H3 _]; subst. apply (any_ext sound).
    + intros x Hx. apply eqv_recell; assumption.
    + apply sound_arr, Hh.
  - inversion Ha as [|? ? _ H2]; subst. inversion H2 as [|? ? H3 _]; subst. apply dict_get_recell; assumption.
  - apply (sort_ext sound).
    + intros. apply vcmp_recell; assumption.
    + apply sound_arr, Hh.
Qed.

Lemma std_call_cells n ra f args p w : cellsame (std_call X n ra f args p h w).
Proof.
  destruct f; cbn [std_call]; unfold print, arr_contains, range, read.
  all: repeat match goal with
    | |- cellsame (walked _ _) => apply walked_cells
    | |- cellsame _ => reflexivity
    | |- cellsame _ => exact I
    | |- forall _, _ => intro
    | |- context [from_json ?j h] => let E := fresh in destruct (from_json j h) as [[]|] eqn:E;
        [apply JsonProofs.from_json_adds in E; destruct E as (? & ? & -> & _); reflexivity|]
    | |- context [match ?x with _ => _ end] => match x with context [match _ with _ => _ end] => fail 1 | _ => destruct x end
    end.
Qed.
Lemma iter_call_recell g w : iter_call (W := W) g h' w = recelled (iter_call g h w).
Proof.
  destruct g; try reflexivity; cbn [iter_call]; change (iter_get h') with (iter_get h); change (arr_get h') with (arr_get h).
  all: repeat match goal with
    | |- _ = _ => reflexivity
    | |- context [match ?x with _ => _ end] => match x with context [match _ with _ => _ end] => fail 1 | _ => destruct x end
    end.
Qed.
Lemma iter_call_cells g w : cellsame (iter_call (W := W) g h w).
Proof.
  destruct g; try reflexivity; cbn [iter_call].
  all: repeat match goal with
    | |- cellsame _ => reflexivity
    | |- context [match ?x with _ => _ end] => match x with context [match _ with _ => _ end] => fail 1 | _ => destruct x end
    end.
Qed.
Lemma native_call_recell n ra f args p w : Forall sound args -> native_call X n ra f args p h' w = recelled (native_call X n ra f args p h w).
Proof.
  intros Ha. destruct f; cbn [native_call]; try reflexivity; try (destruct args; [apply iter_call_recell|reflexivity]).
  - apply std_call_recell, Ha.
  - unfold regex_call. repeat match goal with
    | |- _ = _ => reflexivity
    | |- context [match ?x with _ => _ end] => match x with context [match _ with _ => _ end] => fail 1 | _ => destruct x end
    end.
  - unfold join_call. change (iter_get h') with (iter_get h). destruct (iter_get h _) as [| | |[i|]]; try reflexivity.
    change (iter_set h' state (ISJoin None)) with (recell cs (iter_set h state (ISJoin None))). rewrite (bl_join X BX).
    destruct (x_join X i (iter_set h state (ISJoin None)) w) as [[[]|] ]; reflexivity.
Qed.
Lemma native_call_cells n ra f args p w : cellsame (native_call X n ra f args p h w).
Proof.
  destruct f; cbn [native_call]; try exact I; try (destruct args; [apply iter_call_cells|reflexivity]).
  - apply std_call_cells.
  - unfold regex_call. repeat match goal with
    | |- cellsame _ => reflexivity
    | |- context [match ?x with _ => _ end] => match x with context [match _ with _ => _ end] => fail 1 | _ => destruct x end
    end.
  - unfold join_call. destruct (iter_get h _) as [| | |[i|]]; try reflexivity.
    destruct (x_join X i (iter_set h state (ISJoin None)) w) as [[[]|] ] eqn:E; try reflexivity.
    apply (hn_join X HX) in E. destruct E as (? & ? & -> & _). reflexivity.
Qed.

(** ** Commands *)
Definition grown {A} (f : A -> heap -> value * heap) : Prop := forall x cs' h0,
  f x (recell cs' h0) = (fst (f x h0), recell cs' (snd (f x h0))) /\ h_cells (snd (f x h0)) = h_cells h0.
Lemma values_recell {A} (f : A -> heap -> value * heap) l : grown f -> forall cs' h0,
  values_of f l (recell cs' h0) = (fst (values_of f l h0), recell cs' (snd (values_of f l h0))) /\
  h_cells (snd (values_of f l h0)) = h_cells h0.
Proof.
  intros H. induction l as [|x l IH]; intros cs' h0; cbn [values_of]; [split; reflexivity|].
  destruct (H x cs' h0) as [H1 H2]. rewrite H1. destruct (f x h0) as [v h1]. cbn [fst snd] in *.
  destruct (IH cs' h1) as [H3 H4]. rewrite H3. destruct (values_of f l h1) as [r h2]. cbn [fst snd] in *. split; congruence.
Qed.
Lemma many_recell {A} (f : A -> heap -> value * heap) m : grown f -> grown (many_value f m).
Proof.
  intros H l cs' h0. destruct l as [|x [|y l]]; cbn [many_value]; [split; reflexivity|apply H|].
  destruct (values_recell f (x :: y :: l) H cs' h0) as [H1 H2]. rewrite H1. destruct (values_of f (x :: y :: l) h0) as [vs h1].
  cbn in *. split; [reflexivity|exact H2].
Qed.
Lemma block_recell : grown (block_value X).
Proof. apply many_recell, many_recell. intros e cs' h0. split; reflexivity. Qed.

Lemma command_recell O fetch path b p w :
  eval_command_block X O fetch path b p h' w = recelled (eval_command_block X O fetch path b p h w).
Proof.
  unfold eval_command_block. change (build_command_block X fetch h' w path b) with (build_command_block X fetch h w path b).
  destruct (build_command_block X fetch h w path b) as [eb|e|c]; try reflexivity. destruct (xc_kind b).
  - destruct (block_exec X O eb IOStdout IOStderr (mkxstate 0 [] w)) as [es s| | | |]; try reflexivity.
    destruct (block_recell es cs h) as [H1 H2]. rewrite H1. destruct (block_value X es h). reflexivity.
  - destruct (o_async O eb w). reflexivity.
  - destruct (o_pipe O w) as [[e|] w1]; [reflexivity|].
    destruct (block_exec X O eb IOCaptureOut IOCaptureErr (mkxstate 0 [] w1)) as [es s| | | |]; try reflexivity.
    destruct (block_recell es cs h) as [H1 H2]. rewrite H1. destruct (block_value X es h) as [v h1]. cbn [fst snd].
    destruct (o_captured O (xs_world s)) as [[e|[out err]] w2]; [reflexivity|]. destruct v; reflexivity.
Qed.
Lemma command_cells O fetch path b p w : cellsame (eval_command_block X O fetch path b p h w).
Proof.
  unfold eval_command_block.
  destruct (build_command_block X fetch h w path b) as [eb|e|c]; try reflexivity. destruct (xc_kind b).
  - destruct (block_exec X O eb IOStdout IOStderr (mkxstate 0 [] w)) as [es s| | | |]; try reflexivity.
    destruct (block_recell es cs h) as [H1 H2]. destruct (block_value X es h). exact H2.
  - destruct (o_async O eb w). reflexivity.
  - destruct (o_pipe O w) as [[e|] w1]; [reflexivity|].
    destruct (block_exec X O eb IOCaptureOut IOCaptureErr (mkxstate 0 [] w1)) as [es s| | | |]; try reflexivity.
    destruct (block_recell es cs h) as [H1 H2]. destruct (block_value X es h) as [v h1]. cbn [fst snd] in H2.
    destruct (o_captured O (xs_world s)) as [[e|[out err]] w2]; [exact H2|]. destruct v; exact H2.
Qed.
End Walks.
