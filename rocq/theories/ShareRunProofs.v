(** Moving a variable to a shared cell when it is captured cannot be told from keeping every
    variable in a shared cell from the start. *)
From Coq Require Import Strings.String Lia.
From Verif Require ShowProofs JsonProofs.
From Verif Require Import Base Lexer Ast Parser Program Sema Value Text StdLib Exec Runtime SpecLexer SpecParser SpecSema SpecProgram
  SpecRun SoundLibProofs SemaShapeProofs SemaTextProofs SoundRunProofs SpecShare ShareLibProofs.

Lemma nth_set_same {A} (l : list A) i v d : i < length l -> nth i (list_set l i v) d = v.
Proof. revert i. induction l as [|x l IH]; intros [|i] H; cbn in *; try lia; [reflexivity|apply IH; lia]. Qed.
Lemma nth_set_other {A} (l : list A) i j v d : i <> j -> nth j (list_set l i v) d = nth j l d.
Proof. revert i j. induction l as [|x l IH]; intros [|i] [|j] H; cbn; try reflexivity; try congruence. apply IH. congruence. Qed.
Lemma map_set {A B} (f : A -> B) l i v : map f (list_set l i v) = list_set (map f l) i (f v).
Proof. revert i. induction l as [|x l IH]; intros [|i]; cbn; try reflexivity. f_equal. apply IH. Qed.
Lemma set_same {A} (l : list A) i v : nth_error l i = Some v -> list_set l i v = l.
Proof. revert i. induction l as [|x l IH]; intros [|i] H; cbn in *; try discriminate; [congruence|]. f_equal. apply IH, H. Qed.
Lemma nth_error_set_other {A} (l : list A) i j v : i <> j -> nth_error (list_set l i v) j = nth_error l j.
Proof. revert i j. induction l as [|x l IH]; intros [|i] [|j] H; cbn; try reflexivity; try congruence. apply IH. congruence. Qed.
Lemma nth_error_set_same {A} (l : list A) i v x : nth_error l i = Some x -> nth_error (list_set l i v) i = Some v.
Proof. revert i. induction l as [|y l IH]; intros [|i] H; cbn in *; try discriminate; [reflexivity|]. eapply IH, H. Qed.
Lemma map_skipn {A B} (f : A -> B) k l : map f (skipn k l) = skipn k (map f l).
Proof. revert l. induction k; intros [|x l]; cbn; auto. Qed.
Lemma nth_error_skipn {A} k (l : list A) i : nth_error (skipn k l) i = nth_error l (k + i).
Proof. revert l. induction k; intros [|x l]; cbn; auto. destruct i; reflexivity. Qed.

Section Sim.
Context {W : Type}.
Variable X : ext W.
Variable O : os W.
Variable tail : bool.
Hypothesis HX : honest X.
Hypothesis BX : blind X.
Notation M := (@M W).

Definition sim_out {A} (sc : scope) (R : scope -> A -> Prop) (o1 o2 : outcome (state W) A) : Prop :=
  match o1 with
  | Val a s' => exists sc' cs', sub sc sc' /\ inv sc' cs' s' /\ R sc' a /\ o2 = Val a (wide cs' s')
  | Pan p s' => exists sc' cs', sub sc sc' /\ inv sc' cs' s' /\ o2 = Pan p (wide cs' s')
  | Exit z s' => exists cs', o2 = Exit z (wide cs' s')
  | Crash c => o2 = Crash c
  | Fuel => o2 = Fuel
  end.
Definition sim {A} (sc : scope) (m1 m2 : M A) (R : scope -> A -> Prop) : Prop :=
  forall cs s, inv sc cs s -> sim_out sc R (m1 s) (m2 (wide cs s)).

Lemma sim_out_up {A} sc sc' (R : scope -> A -> Prop) o1 o2 : sub sc sc' -> sim_out sc' R o1 o2 -> sim_out sc R o1 o2.
Proof.
  intros H. destruct o1; cbn; auto.
  - intros (sc2 & cs & A1 & A2 & A3). exists sc2, cs. split; [exact (sub_trans _ _ _ H A1)|]. split; assumption.
  - intros (sc2 & cs & A1 & A2 & A3). exists sc2, cs. split; [exact (sub_trans _ _ _ H A1)|]. split; assumption.
Qed.
Lemma sim_ret {A} sc (a : A) (R : scope -> A -> Prop) : R sc a -> sim sc (ret a) (ret a) R.
Proof. intros H cs s I. exists sc, cs. split; [apply sub_refl|]. split; [exact I|]. split; [exact H|reflexivity]. Qed.
Lemma sim_throw {A} sc p (R : scope -> A -> Prop) : sim sc (throw p) (throw p) R.
Proof. intros cs s I. exists sc, cs. split; [apply sub_refl|]. split; [exact I|reflexivity]. Qed.
Lemma sim_sum {A} sc (r : A + panic) (R : scope -> A -> Prop) : (forall a, r = inl a -> R sc a) -> sim sc (of_sum r) (of_sum r) R.
Proof. intros H. destruct r as [a|p]; [apply sim_ret, H; reflexivity|apply sim_throw]. Qed.
Lemma sim_walk {A} sc (r : walk A) (R : scope -> A -> Prop) : (forall a, r = Known a -> R sc a) -> sim sc (of_walk r) (of_walk r) R.
Proof. intros H. destruct r as [a| |]; [apply sim_ret, H; reflexivity| |]; intros cs s I; reflexivity. Qed.
Lemma sim_bind {A B} sc (m1 m2 : M A) (f1 f2 : A -> M B) R R' :
  sim sc m1 m2 R -> (forall sc' a, sub sc sc' -> R sc' a -> sim sc' (f1 a) (f2 a) R') -> sim sc (bind m1 f1) (bind m2 f2) R'.
Proof.
  intros H K cs s I. specialize (H cs s I). unfold bind. destruct (m1 s) as [a s'|p s'|z s'|c|]; cbn in H.
  - destruct H as (sc' & cs' & A1 & A2 & A3 & ->). apply (sim_out_up sc sc'); [exact A1|]. apply K; assumption.
  - destruct H as (sc' & cs' & A1 & A2 & ->). exists sc', cs'. auto.
  - destruct H as (cs' & ->). exists cs'. reflexivity.
  - rewrite H. reflexivity.
  - rewrite H. reflexivity.
Qed.
Lemma sim_weaken {A} sc (m1 m2 : M A) (R R' : scope -> A -> Prop) : sim sc m1 m2 R -> (forall sc a, R sc a -> R' sc a) -> sim sc m1 m2 R'.
Proof.
  intros H K cs s I. specialize (H cs s I). destruct (m1 s); cbn in *; auto.
  destruct H as (sc' & cs' & A1 & A2 & A3 & A4). exists sc', cs'. auto.
Qed.
Lemma sim_get {A} sc (f1 f2 : state W -> M A) R :
  (forall cs s, inv sc cs s -> sim_out sc R (f1 s s) (f2 (wide cs s) (wide cs s))) -> sim sc (bind get f1) (bind get f2) R.
Proof. intros H cs s I. apply (H cs s I). Qed.

(** ** Memory *)
Lemma slot_same sc cs (s : state W) i x : inv sc cs s -> nth_error (st_stack s) i = Some x ->
  nth (slot_id x) cs VNil = slot_value (st_heap s) x /\ slot_id x < length cs.
Proof.
  intros I H. pose proof (i_slot _ _ _ I i x H) as S. destruct x as [id v|c]; cbn.
  - split; apply S.
  - destruct (i_cell _ _ _ I c S). split; assumption.
Qed.
Lemma cells_sound sc cs (s : state W) c : inv sc cs s -> @sound sc (nth c cs VNil).
Proof.
  intros I. destruct (Nat.lt_ge_cases c (length cs)) as [L|L]; [|rewrite nth_overflow by exact L; exact Logic.I].
  pose proof (i_cells _ _ _ I) as F. rewrite Forall_forall in F. apply F, nth_In, L.
Qed.
Lemma wide_slot cs (s : state W) i : nth_error (st_stack (wide cs s)) i = option_map opened (nth_error (st_stack s) i).
Proof. cbn. apply nth_error_map. Qed.

Lemma sim_fetch sc ix : sim sc (fetch ix) (fetch ix) (@sound).
Proof.
  intros cs s I. unfold fetch. rewrite wide_slot. destruct (nth_error (st_stack s) ix) as [x|] eqn:E; [|reflexivity].
  destruct (slot_same _ _ _ _ _ I E) as [V L]. exists sc, cs. split; [apply sub_refl|]. split; [exact I|].
  split; [rewrite <- V; eapply cells_sound, I|]. cbn. f_equal. exact V.
Qed.

(** Changing a slot to another one of the same variable *)
Lemma apart_set (st : list vslot) ix x y (P : loc -> Prop) :
  (forall i j a b, nth_error st i = Some a -> nth_error st j = Some b -> slot_id a = slot_id b -> i = j \/ P (slot_id a)) ->
  nth_error st ix = Some x -> slot_id y = slot_id x \/ P (slot_id y) ->
  forall i j a b, nth_error (list_set st ix y) i = Some a -> nth_error (list_set st ix y) j = Some b ->
    slot_id a = slot_id b -> i = j \/ P (slot_id a).
Proof.
  intros H E D i j a b Hi Hj S.
  destruct (Nat.eq_dec ix i) as [<-|Ni], (Nat.eq_dec ix j) as [<-|Nj]; auto.
  - rewrite (nth_error_set_same _ _ _ _ E) in Hi. injection Hi as <-. rewrite nth_error_set_other in Hj by exact Nj.
    destruct D as [D|D]; [|right; exact D]. rewrite D in *. exact (H _ _ _ _ E Hj S).
  - rewrite (nth_error_set_same _ _ _ _ E) in Hj. injection Hj as <-. rewrite nth_error_set_other in Hi by exact Ni.
    destruct D as [D|D]; [|right; rewrite S; exact D]. rewrite D in *. exact (H _ _ _ _ Hi E S).
  - rewrite nth_error_set_other in Hi by exact Ni. rewrite nth_error_set_other in Hj by exact Nj. exact (H _ _ _ _ Hi Hj S).
Qed.
Lemma sim_store sc ix v : @sound sc v -> sim sc (store ix v) (store ix v) (fun _ _ => True).
Proof.
  intros Hv cs s I. unfold store. rewrite wide_slot. destruct (nth_error (st_stack s) ix) as [x|] eqn:E; [|reflexivity].
  cbn [option_map opened]. destruct (slot_same _ _ _ _ _ I E) as [V L]. pose proof (i_slot _ _ _ I _ _ E) as S. destruct I as [i_iter0 i_length0 i_cell0 i_cells0 i_args0 i_heap0 i_modules0 i_slot0 i_apart0].
  destruct x as [id u|c]; cbn [slot_id] in *.
  - exists sc, (list_set cs id v). split; [apply sub_refl|]. split; [|split; [exact Logic.I|]].
    + destruct S as (S1 & S2 & S3). split; cbn; try assumption.
      * rewrite length_list_set. assumption.
      * intros c Hc. rewrite length_list_set. rewrite nth_set_other by congruence. auto.
      * apply Forall_list_set; assumption.
      * intros i x H. destruct (Nat.eq_dec ix i) as [<-|N].
        -- rewrite (nth_error_set_same _ _ _ _ E) in H. injection H as <-. rewrite length_list_set, nth_set_same by exact S2. auto.
        -- rewrite nth_error_set_other in H by exact N. pose proof (i_slot0 _ _ H) as T. destruct x as [id' u'|c]; [|exact T].
           destruct T as (T1 & T2 & T3). rewrite length_list_set. rewrite nth_set_other; [auto|]. intros ->.
           destruct (i_apart0 _ _ _ _ E H eq_refl); auto.
      * apply (apart_set _ _ (Regular id u)); auto.
    + unfold wide, set_stack, set_heap. cbn. f_equal. f_equal. rewrite map_set. cbn. symmetry. apply set_same. rewrite nth_error_map, E. reflexivity.
  - exists sc, (list_set cs c v). split; [apply sub_refl|]. split; [|split; [exact Logic.I|reflexivity]].
    split; cbn; try assumption.
    + rewrite !length_list_set. assumption.
    + intros c' Hc. rewrite length_list_set. unfold cell_get. cbn. destruct (i_cell0 c' Hc) as [A B]. split; [exact A|].
      destruct (Nat.eq_dec c c') as [<-|N]; [rewrite !nth_set_same by congruence; reflexivity|]. rewrite !nth_set_other by exact N. exact B.
    + apply Forall_list_set; assumption.
    + apply sound_cell_set; assumption.
    + intros i x H. pose proof (i_slot0 _ _ H) as T. destruct x as [id' u'|]; [|exact T].
      destruct T as (T1 & T2 & T3). rewrite length_list_set. rewrite nth_set_other; [auto|]. intros ->. contradiction.
Qed.

(** The scope with one more captured variable *)
Definition with_cell (sc : scope) (id : loc) : scope := mkscope (@sc_iter sc) (fun c => @sc_cell sc c \/ c = id).
Lemma with_cell_sub sc id : sub sc (with_cell sc id).
Proof. split; cbn; auto. Qed.
Lemma sim_capture sc ix : sim sc (capture ix) (capture ix) (fun sc c => @sc_cell sc c).
Proof.
  intros cs s I. unfold capture. rewrite wide_slot. destruct (nth_error (st_stack s) ix) as [x|] eqn:E; [|reflexivity].
  cbn [option_map opened]. destruct (slot_same _ _ _ _ _ I E) as [V L]. pose proof (i_slot _ _ _ I _ _ E) as S.
  destruct x as [id u|c]; cbn [slot_id] in *.
  - pose proof (with_cell_sub sc id) as U. destruct I as [i_iter0 i_length0 i_cell0 i_cells0 i_args0 i_heap0 i_modules0 i_slot0 i_apart0]. exists (with_cell sc id), cs. split; [exact U|]. split; [|split; [right; reflexivity|]].
    + destruct S as (S1 & S2 & S3). cbn in V.
      assert (Su : @sound sc u) by (rewrite <- V; rewrite Forall_forall in i_cells0; apply i_cells0, nth_In, L).
      split; cbn; try assumption.
      * rewrite length_list_set. assumption.
      * intros c Hc. unfold cell_get. cbn. destruct (Nat.eq_dec id c) as [<-|N].
        -- rewrite nth_set_same by congruence. auto.
        -- rewrite nth_set_other by exact N. destruct Hc as [Hc|]; [|congruence]. apply (i_cell0 c Hc).
      * exact (values_up U _ i_cells0).
      * exact (values_up U _ i_args0).
      * apply (heap_up U). apply sound_cell_set; assumption.
      * eapply Forall_impl; [|exact i_modules0]. intros m. apply (sound_up U).
      * intros i x H. destruct (Nat.eq_dec ix i) as [<-|N].
        -- rewrite (nth_error_set_same _ _ _ _ E) in H. injection H as <-. right; reflexivity.
        -- rewrite nth_error_set_other in H by exact N. pose proof (i_slot0 _ _ H) as T. destruct x as [id' u'|c]; [|left; exact T].
           destruct T as (T1 & T2 & T3). split; [|auto]. intros [K| ->]; [auto|].
           destruct (i_apart0 _ _ _ _ E H eq_refl); auto.
      * apply (apart_set _ _ (Regular id u) (Closed id) (fun c => @sc_cell sc c \/ c = id)); auto. intros i j a b Hi Hj Hs. destruct (i_apart0 _ _ _ _ Hi Hj Hs); auto.
    + unfold wide, set_stack, set_heap. cbn. f_equal. f_equal. rewrite map_set. cbn. symmetry. apply set_same. rewrite nth_error_map, E. reflexivity.
  - exists sc, cs. split; [apply sub_refl|]. split; [exact I|]. split; [exact S|]. reflexivity.
Qed.

Lemma sim_place sc ix c : @sc_cell sc c -> sim sc (place ix c) (place ix c) (fun _ _ => True).
Proof.
  intros Hc cs s I. unfold place. rewrite wide_slot. destruct (nth_error (st_stack s) ix) as [x|] eqn:E; [|reflexivity].
  cbn [option_map opened]. destruct I as [i_iter0 i_length0 i_cell0 i_cells0 i_args0 i_heap0 i_modules0 i_slot0 i_apart0]. exists sc, cs. split; [apply sub_refl|]. split; [|split; [exact Logic.I|]].
  - split; cbn; try assumption.
    + intros i y H. destruct (Nat.eq_dec ix i) as [<-|N].
      * rewrite (nth_error_set_same _ _ _ _ E) in H. injection H as <-. exact Hc.
      * rewrite nth_error_set_other in H by exact N. exact (i_slot0 _ _ H).
    + apply (apart_set _ _ x); auto.
  - unfold wide, set_stack. cbn. rewrite map_set. reflexivity.
Qed.

Lemma nth_error_seq_map a n i x : nth_error (map (new_slot false) (seq a n)) i = Some x -> x = Regular (a + i) VNil /\ i < n.
Proof.
  intros H. rewrite nth_error_map in H. unfold loc in H. revert H. destruct (nth_error (seq a n) i) as [y|] eqn:E; cbn; [|discriminate]. intros [= <-].
  assert (L : i < length (seq a n)) by (apply nth_error_Some; congruence). rewrite seq_length in L.
  apply nth_error_nth with (d := 0) in E. rewrite seq_nth in E by exact L. subst y. split; [reflexivity|exact L].
Qed.
Lemma sim_extend sc k p : sim sc (Runtime.extend X false k p) (Runtime.extend X true k p) (fun _ _ => True).
Proof.
  intros cs s I. unfold Runtime.extend. cbn [wide st_stack]. rewrite map_length.
  destruct (overflows X (length (st_stack s) + k)); [exists sc, cs; split; [apply sub_refl|split; [exact I|reflexivity]]|].
  pose proof (i_length _ _ _ I) as L. pose proof (cells_sound sc cs s) as CS. destruct I as [i_iter0 i_length0 i_cell0 i_cells0 i_args0 i_heap0 i_modules0 i_slot0 i_apart0].
  exists sc, (cs ++ repeat VNil k). split; [apply sub_refl|]. split; [|split; [exact Logic.I|]].
  - split; cbn; try assumption.
    + rewrite !app_length, L. reflexivity.
    + intros c Hc. destruct (i_cell0 c Hc) as [A B]. rewrite app_length. split; [lia|]. unfold cell_get. cbn. rewrite !app_nth1 by lia. exact B.
    + apply Forall_app. split; [exact i_cells0|]. apply Forall_forall. intros x Hx. apply repeat_spec in Hx. subst. exact Logic.I.
    + destruct i_heap0 as (H1 & H2 & H3 & H4). repeat split; try assumption. cbn. apply Forall_app. split; [exact H1|].
      apply Forall_forall. intros x Hx. apply repeat_spec in Hx. subst. exact Logic.I.
    + intros i x H. destruct (Nat.lt_ge_cases i k) as [Li|Li].
      * rewrite nth_error_app1 in H by (rewrite map_length, seq_length; exact Li). apply nth_error_seq_map in H. destruct H as [-> _].
        rewrite app_length, repeat_length. split; [|split; [lia|]].
        -- intros Hc. destruct (i_cell0 _ Hc). lia.
        -- rewrite app_nth2 by lia. apply nth_repeat.
      * rewrite nth_error_app2 in H by (rewrite map_length, seq_length; exact Li). pose proof (i_slot0 _ _ H) as T.
        destruct x as [id u|c]; [|exact T]. rewrite app_length. destruct T as (T1 & T2 & T3). split; [exact T1|]. split; [lia|].
        rewrite app_nth1 by exact T2. exact T3.
    + assert (F : forall i x, nth_error (map (new_slot false) (seq (length (h_cells (st_heap s))) k) ++ st_stack s) i = Some x ->
        (i < k /\ slot_id x = length cs + i) \/ (k <= i /\ nth_error (st_stack s) (i - k) = Some x /\ slot_id x < length cs)).
      { intros i x H. destruct (Nat.lt_ge_cases i k) as [Li|Li].
        - left. rewrite nth_error_app1 in H by (rewrite map_length, seq_length; exact Li). apply nth_error_seq_map in H. destruct H as [-> _].
          cbn. split; [exact Li|lia].
        - right. rewrite nth_error_app2 in H by (rewrite map_length, seq_length; exact Li). rewrite map_length, seq_length in H.
          split; [exact Li|]. split; [exact H|]. pose proof (i_slot0 _ _ H) as T. destruct x as [id u|c]; cbn; [apply T|].
          apply (i_cell0 c T). }
      intros i j x y Hi Hj S. destruct (F _ _ Hi) as [[A1 A2]|(A1 & A2 & A3)], (F _ _ Hj) as [[B1 B2]|(B1 & B2 & B3)]; try (left; lia).
      destruct (i_apart0 _ _ _ _ A2 B2 S); [left; lia|right; assumption].
  - unfold wide. cbn. f_equal. f_equal.
    + rewrite map_app, map_map. f_equal. rewrite L. apply map_ext. reflexivity.
Qed.

Lemma inv_shrink sc cs (s : state W) k : inv sc cs s -> inv sc cs (shrink k s) /\ shrink k (wide cs s) = wide cs (shrink k s).
Proof.
  intros [i_iter0 i_length0 i_cell0 i_cells0 i_args0 i_heap0 i_modules0 i_slot0 i_apart0]. split; [|unfold wide, shrink, set_stack; cbn; rewrite map_skipn; reflexivity].
  split; cbn; try assumption.
  - intros i x. rewrite nth_error_skipn. apply i_slot0.
  - intros i j x y. rewrite !nth_error_skipn. intros Hi Hj S. destruct (i_apart0 _ _ _ _ Hi Hj S); [left; lia|right; assumption].
Qed.
Lemma inv_args sc cs (s : state W) l : inv sc cs s -> Forall (@sound sc) l -> inv sc cs (set_args s l).
Proof. intros [i_iter0 i_length0 i_cell0 i_cells0 i_args0 i_heap0 i_modules0 i_slot0 i_apart0] H. split; cbn; assumption. Qed.
Lemma inv_heap sc cs (s : state W) h w : inv sc cs s -> @sound_heap sc h -> h_cells h = h_cells (st_heap s) ->
  inv sc cs (set_world (set_heap s h) w).
Proof. intros [i_iter0 i_length0 i_cell0 i_cells0 i_args0 i_heap0 i_modules0 i_slot0 i_apart0] H E. split; cbn; try assumption; [congruence|]. intros c Hc. unfold cell_get. rewrite E. apply i_cell0, Hc. Qed.

(** ** Operations on heap and world *)
Lemma sim_lift sc (f1 f2 : heap -> W -> outcome (heap * W) value) cs s : inv sc cs s ->
  f2 (recell cs (st_heap s)) (st_world s) = recelled cs (f1 (st_heap s) (st_world s)) ->
  cellsame (st_heap s) (f1 (st_heap s) (st_world s)) ->
  match f1 (st_heap s) (st_world s) with
  | Val v x => @sound sc v /\ @sound_heap sc (fst x) | Pan _ x => @sound_heap sc (fst x) | _ => True end ->
  sim_out sc (@sound) (lift f1 s) (lift f2 (wide cs s)).
Proof.
  intros I E C H. unfold lift. cbn [wide st_heap st_world]. rewrite E.
  destruct (f1 (st_heap s) (st_world s)) as [v x|p x|z x|c|]; cbn in *; try reflexivity.
  - exists sc, cs. split; [apply sub_refl|]. split; [apply inv_heap; [exact I|apply H|exact C]|]. split; [apply H|reflexivity].
  - exists sc, cs. split; [apply sub_refl|]. split; [apply inv_heap; [exact I|apply H|exact C]|reflexivity].
  - exists cs. reflexivity.
Qed.

(** Building a command asks for variables one by one. *)
Section Fetch.
Variables fetch fetch' : slot -> option value.
Hypothesis Hf : forall ix, fetch ix = fetch' ix.
Variable h : heap.
Variable w : W.
Variable path : bytes.
Lemma bbind_ext {A B} (a b : built A) (f g : A -> built B) : a = b -> (forall x, f x = g x) -> bbind a f = bbind b g.
Proof. intros -> H. destruct b; cbn; auto. Qed.
Lemma bmap_ext {A B} (f g : A -> built B) : (forall x, f x = g x) -> forall l, bmap f l = bmap g l.
Proof. intros H. induction l as [|x l IH]; cbn; [reflexivity|]. rewrite H. apply bbind_ext; [reflexivity|]. intros y. rewrite IH. reflexivity. Qed.
Lemma bfetch_ext i : bfetch fetch i = bfetch fetch' i.
Proof. unfold bfetch. rewrite Hf. reflexivity. Qed.
Lemma part_ext q a : build_part X fetch h w path q a = build_part X fetch' h w path q a.
Proof. destruct q as [[s|s p]| | |]; cbn; try reflexivity. rewrite bfetch_ext. reflexivity. Qed.
Lemma parts_ext l : forall a, build_parts X fetch h w path l a = build_parts X fetch' h w path l a.
Proof. induction l as [|q l IH]; intros a; cbn; [reflexivity|]. rewrite part_ext. apply bbind_ext; [reflexivity|exact IH]. Qed.
Lemma argument_ext a : build_argument X fetch h w path a = build_argument X fetch' h w path a.
Proof. unfold build_argument. rewrite parts_ext. reflexivity. Qed.
Lemma single_ext o a : build_single_argument X fetch h w path o a = build_single_argument X fetch' h w path o a.
Proof. unfold build_single_argument. rewrite argument_ext. reflexivity. Qed.
Lemma env_ext kv : build_env X fetch h w path kv = build_env X fetch' h w path kv.
Proof. unfold build_env. rewrite single_ext. apply bbind_ext; [|reflexivity]. destruct (fst kv) as [s|s p]; [reflexivity|]. rewrite bfetch_ext. reflexivity. Qed.
Lemma redirection_ext r : build_redirection X fetch h w path r = build_redirection X fetch' h w path r.
Proof. destruct r as [src [fd|a|a]|l a]; cbn; rewrite ?single_ext; reflexivity. Qed.
Lemma arguments_ext l : build_arguments X fetch h w path l = build_arguments X fetch' h w path l.
Proof. unfold build_arguments. rewrite (bmap_ext _ _ argument_ext). reflexivity. Qed.
Lemma basic_ext c : build_basic_command X fetch h w path c = build_basic_command X fetch' h w path c.
Proof.
  unfold build_basic_command. rewrite single_ext, arguments_ext, (bmap_ext _ _ env_ext), (bmap_ext _ _ redirection_ext). reflexivity.
Qed.
Lemma command_ext c : build_command X fetch h w path c = build_command X fetch' h w path c.
Proof.
  destruct c as [b l ab p|hd tl]; cbn; [rewrite arguments_ext; reflexivity|]. rewrite basic_ext, (bmap_ext _ _ basic_ext). reflexivity.
Qed.
Lemma block_ext b : build_command_block X fetch h w path b = build_command_block X fetch' h w path b.
Proof. unfold build_command_block. rewrite command_ext, (bmap_ext _ _ command_ext). reflexivity. Qed.
Lemma eval_block_ext b p : eval_command_block X O fetch path b p h w = eval_command_block X O fetch' path b p h w.
Proof. unfold eval_command_block. rewrite block_ext. reflexivity. Qed.
End Fetch.

(** What a command block gives is data. *)
Lemma command_sound {sc : scope} fetch path b p h (w : W) : (forall i, sc_iter i) -> sound_heap h ->
  match eval_command_block X O fetch path b p h w with
  | Val v x => sound v /\ sound_heap (fst x) | Pan _ x => sound_heap (fst x) | _ => True end.
Proof.
  intros Hi Hh. unfold eval_command_block.
  destruct (build_command_block X fetch h w path b) as [eb|e|c]; [|exact Hh|exact I].
  destruct (xc_kind b).
  - destruct (block_exec X O eb IOStdout IOStderr (mkxstate 0 [] w)) as [es s|e q s|e s|c s|c]; try exact I; try exact Hh.
    destruct (block_adds X es h Hh) as (A1 & A2 & A3). destruct (block_value X es h) as [v h']. split; [exact A1|exact A2].
  - destruct (o_async O eb w) as [handle w']. cbn [new_iter].
    set (h1 := mkheap _ _ _ (h_iters h ++ _)).
    assert (H1 : sound_heap h1) by (apply (sound_new_iter h (ISJoin (Some handle)) Hh); exact I).
    split; [exact I|]. apply (sound_new_dict h1); [exact H1|]. repeat constructor. apply Hi.
  - destruct (o_pipe O w) as [[e|] w']; [exact Hh|].
    destruct (block_exec X O eb IOCaptureOut IOCaptureErr (mkxstate 0 [] w')) as [es s|e q s|e s|c s|c]; try exact I; try exact Hh.
    destruct (block_adds X es h Hh) as (A1 & A2 & A3). destruct (block_value X es h) as [v h']. cbn [fst snd] in *.
    destruct (o_captured O (xs_world s)) as [[e|[out err]] w'']; [exact A2|].
    destruct v as [| | | | | | | |f|d c]; (split; [exact I|]); apply (sound_new_dict h'); try exact A2; repeat constructor; exact A1.
Qed.

(** ** The evaluator *)
Definition flow_s (sc : scope) (f : flow) : Prop := match f with Reg v | Ret v => @sound sc v | Brk => True end.
Definition result_s (sc : scope) (r : flow * spos * value) : Prop := flow_s sc (fst (fst r)) /\ @sound sc (snd r).

Record sims (E1 E2 : evals) : Prop := mksims {
  s_expr : forall sc u e fn lp k, valid_expr fn lp k e -> sim sc (ev_expr E1 u e) (ev_expr E2 u e) result_s;
  s_statement : forall sc u st fn lp k, valid_statement fn lp k st -> sim sc (ev_statement E1 u st) (ev_statement E2 u st) flow_s;
  s_call : forall sc obj f start p, @sound sc obj -> @sound_func sc f ->
    sim sc (ev_call E1 obj f start p) (ev_call E2 obj f start p) (@sound);
  s_for : forall sc u ix g p b fn lp k, @sound_func sc g -> each (valid_statement fn lp k) b ->
    sim sc (ev_for E1 u ix g p b) (ev_for E2 u ix g p b) flow_s }.

Section Step.
Variables E1 E2 : @evals W.
Variable n : nat.
Hypothesis HE : sims E1 E2.

Lemma sim_block sc u b fn lp k : each (valid_statement fn lp k) b -> sim sc (eval_block E1 u b) (eval_block E2 u b) flow_s.
Proof.
  revert sc. induction b as [|st b IH]; intros sc V; [apply sim_ret; exact I|]. destruct V as [V1 V2]. destruct b as [|st' b].
  - cbn [eval_block]. exact (s_statement _ _ HE sc u st fn lp k V1).
  - cbn [eval_block]. eapply sim_bind; [exact (s_statement _ _ HE sc u st fn lp k V1)|].
    intros sc' [v|v|] _ Hf; [apply IH, V2|apply sim_ret, Hf|apply sim_ret, Hf].
Qed.
Lemma sim_list sc u es fn lp k : each (valid_expr fn lp k) es -> sim sc (eval_list E1 u es) (eval_list E2 u es)
  (fun sc r => match r with inl f => flow_s sc f | inr l => Forall (@sound sc) l end).
Proof.
  revert sc. induction es as [|e es IH]; intros sc V; cbn [eval_list]; [apply sim_ret; constructor|]. destruct V as [V1 V2].
  eapply sim_bind; [exact (s_expr _ _ HE sc u e fn lp k V1)|]. intros sc1 [[f p] o] _ [Hf _]. cbn [fst snd] in Hf.
  destruct f as [v|v|]; [|apply sim_ret, Hf|apply sim_ret, Hf].
  eapply sim_bind; [apply IH, V2|]. intros sc2 [f|l] U Hl; apply sim_ret; [exact Hl|]. constructor; [exact (sound_up U _ Hf)|exact Hl].
Qed.
Lemma symbol_put_sound {sc : scope} k v d : Forall sound_entry d -> sound v -> Forall sound_entry (symbol_put k v d).
Proof.
  intros Hd Hv. unfold symbol_put. match goal with |- context [put_entry ?e _ _ _] => destruct (put_entry e (VStr k) v d) as [d'| |] eqn:P end; try exact Hd.
  eapply put_entry_sound; [exact Hd| |exact Hv|exact P]. exact I.
Qed.
Lemma sim_dict u kvs fn lp k : each (fun kv => valid_expr fn lp k (snd kv)) kvs -> forall sc d, Forall (@sound_entry sc) d ->
  sim sc (eval_dict E1 u kvs d) (eval_dict E2 u kvs d)
  (fun sc r => match r with inl f => flow_s sc f | inr l => Forall (@sound_entry sc) l end).
Proof.
  induction kvs as [|[x e] kvs IH]; intros V sc d Hd; cbn [eval_dict]; [apply sim_ret, Hd|]. destruct V as [V1 V2].
  eapply sim_bind; [exact (s_expr _ _ HE sc u e fn lp k V1)|]. intros sc1 [[f p] o] U [Hf _]. cbn [fst snd] in Hf.
  destruct f as [v|v|]; [|apply sim_ret, Hf|apply sim_ret, Hf].
  apply IH; [exact V2|]. apply symbol_put_sound; [exact (entries_up U _ Hd)|exact Hf].
Qed.

Lemma agree_cells sc cs (s : state W) : inv sc cs s -> forall c, @sc_cell sc c -> nth c cs VNil = cell_get (st_heap s) c.
Proof. intros I c Hc. apply (i_cell _ _ _ I c Hc). Qed.

Lemma sim_access sc obj op f fp : @sound sc obj -> @sound sc f -> sim sc (access n obj op f fp) (access n obj op f fp) (@sound).
Proof.
  intros Ho Hfs. unfold access. apply sim_get. intros cs s I.
  assert (Hh : @sound_heap sc (st_heap s)) by apply I.
  assert (HB : forall r : option value, (forall v, r = Some v -> @sound sc v) ->
    sim sc (match r with Some v => ret v | None => throw (PIndexOutOfBounds f fp) end)
      (match r with Some v => ret v | None => throw (PIndexOutOfBounds f fp) end) (@sound)).
  { intros [v|] H; [apply sim_ret, H; reflexivity|apply sim_throw]. }
  assert (G : forall m : M value, sim sc m m (@sound) -> sim_out sc (@sound) (m s) (m (wide cs s))) by (intros m Hm; apply Hm; assumption).
  destruct obj as [| |b|z|x|t|l|l|g|d c]; try (apply (G (throw _)), sim_throw).
  - destruct f; try (apply (G (throw _)), sim_throw). apply (G (match option_map VByte (nth_z t z) with Some v => ret v | None => throw _ end)).
    apply HB. intros v. destruct (nth_z t z); cbn; [|discriminate]. intros [= <-]. exact Logic.I.
  - destruct f; try (apply (G (throw _)), sim_throw). apply (G (match nth_z (arr_get (st_heap s) l) z with Some v => ret v | None => throw _ end)).
    apply HB. intros v Hv. exact (nth_z_sound sc _ _ _ _ Hh Hv).
  - cbn [wide st_heap]. rewrite (dict_get_recell (st_heap s) cs Hh (agree_cells sc cs s I) n l f Hfs).
    assert (G' : sim sc (bind (of_walk (dict_get (st_heap s) n l f))
        (fun r => match r with Some v => ret v | None => throw (PIndexOutOfBounds f fp) end))
        (bind (of_walk (dict_get (st_heap s) n l f))
        (fun r => match r with Some v => ret v | None => throw (PIndexOutOfBounds f fp) end)) (@sound)).
    { apply (sim_bind sc _ _ _ _ (fun sc r => forall v, r = Some v -> @sound sc v)).
      - apply sim_walk. intros a Ha v ->. exact (dict_get_sound n sc _ _ _ _ Hh Ha).
      - intros sc' [v|] _ H; [apply sim_ret, H; reflexivity|apply sim_throw]. }
    apply (G _ G').
  - apply (G (match error_get d c f with Some v => ret v | None => throw (PIndexOutOfBounds f fp) end)).
    apply HB. intros v. unfold error_get. destruct f; try discriminate. destruct (bytes_eqb s0 _); [intros [= <-]; exact Logic.I|].
    destruct (bytes_eqb s0 _); [intros [= <-]; exact Ho|discriminate].
Qed.

Lemma sim_push u args fn lp k start : each (valid_expr fn lp k) args -> forall sc,
  sim sc (push_args E1 u start args) (push_args E2 u start args) (fun sc r => match r with Some f => flow_s sc f | None => True end).
Proof.
  induction args as [|e args IH]; intros V sc; cbn [push_args]; [apply sim_ret; exact I|]. destruct V as [V1 V2].
  eapply sim_bind; [exact (s_expr _ _ HE sc u e fn lp k V1)|]. intros sc1 [[f p] o] _ [Hf _]. cbn [fst snd] in Hf.
  apply sim_get. intros cs s Is.
  destruct f as [v|v|]; unfold bind at 1 2, put.
  - change (set_args (wide cs s) (st_args (wide cs s) ++ [v])) with (wide cs (set_args s (st_args s ++ [v]))). apply IH; [exact V2|].
    apply inv_args; [exact Is|]. apply Forall_app. split; [apply Is|repeat constructor; exact Hf].
  - change (set_args (wide cs s) (firstn start (st_args (wide cs s)))) with (wide cs (set_args s (firstn start (st_args s)))).
    apply sim_ret; [exact Hf|]. apply inv_args; [exact Is|]. apply Forall_firstn, Is.
  - change (set_args (wide cs s) (firstn start (st_args (wide cs s)))) with (wide cs (set_args s (firstn start (st_args s)))).
    apply sim_ret; [exact Hf|]. apply inv_args; [exact Is|]. apply Forall_firstn, Is.
Qed.
Definition prepared (sc : scope) (r : flow + value * func * nat) : Prop :=
  match r with inl f => flow_s sc f | inr (obj, g, _) => @sound sc obj /\ @sound_func sc g end.
Lemma sim_prepare sc u f args fn lp k : valid_expr fn lp k f -> each (valid_expr fn lp k) args ->
  sim sc (prepare_call E1 u f args) (prepare_call E2 u f args) prepared.
Proof.
  intros Vf Va. unfold prepare_call. eapply sim_bind; [exact (s_expr _ _ HE sc u f fn lp k Vf)|].
  intros sc1 [[fl p] o] _ [Hf Ho]. cbn [fst snd] in Hf, Ho. destruct fl as [v|v|]; [|apply sim_ret, Hf|apply sim_ret, Hf].
  destruct v as [| | | | | | | |g|]; try apply sim_throw. apply sim_get. intros cs s Is.
  change (st_args (wide cs s)) with (st_args s).
  refine (sim_bind sc1 _ _ _ _ _ _ (sim_push u args fn lp k (length (st_args s)) Va sc1) _ cs s Is).
  intros sc2 [fl|] U H; apply sim_ret; [exact H|]. split; [exact (sound_up U _ Ho)|exact (func_up U _ Hf)].
Qed.

Lemma sim_equal sc a b (f : bool -> bool) : @sound sc a -> @sound sc b ->
  sim sc (bind get (fun s => bind (of_walk (eqv (st_heap s) n false a b)) (fun e => ret (VBool (f e)))))
    (bind get (fun s => bind (of_walk (eqv (st_heap s) n false a b)) (fun e => ret (VBool (f e))))) (@sound).
Proof.
  intros Ha Hb. apply sim_get. intros cs s Is. cbn [wide st_heap].
  rewrite (eqv_recell (st_heap s) cs (i_heap _ _ _ Is) (agree_cells sc cs s Is) n false a b Ha Hb).
  refine (sim_bind sc _ _ _ _ (fun _ _ => True) _ (sim_walk sc _ _ (fun _ _ => I)) _ cs s Is).
  intros sc' e _ _. apply sim_ret. exact I.
Qed.
Lemma sim_binary sc u l op r p fn lp k : valid_expr fn lp k l -> valid_expr fn lp k r ->
  sim sc (eval_binary E1 n u l op r p) (eval_binary E2 n u l op r p) flow_s.
Proof.
  intros Vl Vr. unfold eval_binary. eapply sim_bind; [exact (s_expr _ _ HE sc u l fn lp k Vl)|]. intros sc1 [[fl pl] o] _ [Hf _]. cbn [fst snd] in Hf.
  destruct fl as [a|v|]; [|apply sim_ret, Hf|apply sim_ret, Hf].
  assert (R : forall kk : value -> spos -> M value, (forall sc2 b q, sub sc1 sc2 -> @sound sc2 b -> sim sc2 (kk b q) (kk b q) (@sound)) ->
    sim sc1 (bind (ev_expr E1 u r) (fun '(fr, rp, _) => match fr with
       | Reg b => bind (kk b rp) (fun v => ret (Reg v)) | f => ret f end))
      (bind (ev_expr E2 u r) (fun '(fr, rp, _) => match fr with
       | Reg b => bind (kk b rp) (fun v => ret (Reg v)) | f => ret f end)) flow_s).
  { intros kk Hkk. eapply sim_bind; [exact (s_expr _ _ HE sc1 u r fn lp k Vr)|]. intros sc2 [[fr pr] o'] U [Hr _]. cbn [fst snd] in Hr.
    destruct fr as [b|v|]; [|apply sim_ret, Hr|apply sim_ret, Hr]. eapply sim_bind; [exact (Hkk sc2 b pr U Hr)|]. intros sc3 v _ Hv. apply sim_ret, Hv. }
  pose proof (R (fun b rp => match b with VBool _ => ret b | _ => throw (PTypeError b (bs "bool") rp) end)) as R2.
  specialize (R2 ltac:(intros sc2 b q U Hb; destruct b; try apply sim_throw; apply sim_ret, Hb)).
  pose proof (R (fun b rp => of_sum (arithmetic_op op p a pl b rp))
    ltac:(intros sc2 b q U Hb; apply sim_sum; intros v; apply arithmetic_sound)) as RA.
  pose proof (R (fun b rp => of_sum (ord_op op a pl b rp))
    ltac:(intros sc2 b q U Hb; apply sim_sum; intros v; apply ord_sound)) as RO.
  destruct op; try exact RA; try exact RO.
  - apply (R (fun b _ => bind get (fun s => bind (of_walk (eqv (st_heap s) n false a b)) (fun e => ret (VBool e))))).
    intros sc2 b q U Hb. apply (sim_equal sc2 a b (fun e => e)); [exact (sound_up U _ Hf)|exact Hb].
  - apply (R (fun b _ => bind get (fun s => bind (of_walk (eqv (st_heap s) n false a b)) (fun e => ret (VBool (negb e)))))).
    intros sc2 b q U Hb. apply (sim_equal sc2 a b negb); [exact (sound_up U _ Hf)|exact Hb].
  - destruct a as [|[|]| | | | | | | |]; try apply sim_throw; [exact R2|apply sim_ret; exact I].
  - destruct a as [|[|]| | | | | | | |]; try apply sim_throw; [apply sim_ret; exact I|exact R2].
  - apply (R (fun b rp => of_sum (concat_op a pl b rp))). intros sc2 b q U Hb. apply sim_sum. intros v. apply concat_sound.
Qed.

Lemma sim_capture_all sc l m : Forall (fun c => cap_to c < m) l -> sim sc (capture_all l) (capture_all l)
  (fun sc ctx => Forall (fun x => snd x < m) ctx /\ Forall (fun x => @sc_cell sc (fst x)) ctx).
Proof.
  revert sc. induction l as [|c l IH]; intros sc H; cbn [capture_all]; [apply sim_ret; split; constructor|]. inversion H; subst.
  eapply sim_bind; [apply sim_capture|]. intros sc1 x U Hx. eapply sim_bind; [apply IH; assumption|]. intros sc2 r U' [A B]. apply sim_ret.
  split; constructor; try assumption. apply U', Hx.
Qed.
Lemma sim_alloc sc (f : heap -> value * heap) :
  (forall h, @sound_heap sc h -> @sound sc (fst (f h)) /\ @sound_heap sc (snd (f h)) /\ h_cells (snd (f h)) = h_cells h) ->
  (forall cs h, f (recell cs h) = (fst (f h), recell cs (snd (f h)))) ->
  sim sc (alloc f) (alloc f) (@sound).
Proof.
  intros H K cs s Is. unfold alloc. cbn [wide st_heap]. rewrite K. destruct (H _ (i_heap _ _ _ Is)) as (A & B & C).
  destruct (f (st_heap s)) as [v h]. cbn in *. exists sc, cs. split; [apply sub_refl|]. split; [|split; [exact A|reflexivity]].
  exact (inv_heap sc cs s h (st_world s) Is B C).
Qed.
Lemma sim_plain sc u p (m1 m2 : M flow) : sim sc m1 m2 flow_s ->
  sim sc (bind m1 (fun f => ret (f, at_ u p, VNil))) (bind m2 (fun f => ret (f, at_ u p, VNil))) result_s.
Proof. intros H. eapply sim_bind; [exact H|]. intros sc' f _ Hf. apply sim_ret. split; [exact Hf|exact I]. Qed.

Lemma sim_eval_expr sc u e fn lp k : valid_expr fn lp k e -> sim sc (eval_expr X O E1 n u e) (eval_expr X O E2 n u e) result_s.
Proof.
  destruct e as [ix p|l p|s p|es p|kvs p|params fi b p|op e p|l op r p|c t e p|o f p|f args p|b p];
  cbn [eval_expr valid_expr]; intros V; try apply sim_plain.
  - eapply sim_bind; [apply sim_fetch|]. intros sc1 v _ Hv. apply sim_ret, Hv.
  - apply sim_ret. destruct l; exact I.
  - apply sim_ret. exact I.
  - eapply sim_bind; [exact (sim_list sc u es fn lp k V)|]. intros sc1 [f|l] _ Hr; [apply sim_ret, Hr|].
    eapply sim_bind; [apply sim_alloc|intros sc2 v _ Hv; apply sim_ret, Hv]; [|reflexivity].
    intros h Hh. split; [exact I|]. split; [|reflexivity]. apply sound_new_arr; assumption.
  - eapply sim_bind; [apply (sim_dict u kvs fn lp k V sc []); constructor|]. intros sc1 [f|l] _ Hr; [apply sim_ret, Hr|].
    eapply sim_bind; [apply sim_alloc|intros sc2 v _ Hv; apply sim_ret, Hv]; [|reflexivity].
    intros h Hh. split; [exact I|]. split; [|reflexivity]. apply sound_new_dict; assumption.
  - destruct V as [(V1 & V2 & _ & V4) Vb]. eapply sim_bind.
    + apply (sim_capture_all sc _ (fi_slots fi)). eapply Forall_impl; [|exact V2]. intros c [A B]. lia.
    + intros sc1 ctx _ [Hc Hc']. apply sim_ret. cbn. repeat split; try assumption.
      eapply Forall_impl; [|exact V4]. cbn. intros; lia.
  - destruct V as [Vt Ve]. eapply sim_bind; [exact (s_expr _ _ HE sc u e fn lp k Ve)|]. intros sc1 [[f q] o] _ [Hf _]. cbn [fst snd] in Hf.
    destruct f as [v|v|]; [|apply sim_ret, Hf|apply sim_ret, Hf]. apply sim_sum. intros g.
    unfold unary_op_value. destruct op; destruct v; try discriminate; intros [= <-]; cbn; auto.
  - destruct V as [Vl Vr]. exact (sim_binary sc u l op r (at_ u p) fn lp k Vl Vr).
  - destruct V as (Vc & Vt & Ve). eapply sim_bind; [exact (s_expr _ _ HE sc u c fn lp k Vc)|]. intros sc1 [[f q] o] _ [Hf _]. cbn [fst snd] in Hf.
    destruct f as [v|v|]; [|apply sim_ret, Hf|apply sim_ret, Hf]. destruct v as [|b| | | | | | | |]; try apply sim_throw.
    apply (sim_block sc1 u _ fn lp k). destruct b; assumption.
  - destruct V as [Vo Vf]. eapply sim_bind; [exact (s_expr _ _ HE sc u o fn lp k Vo)|]. intros sc1 [[fo q] o'] _ [Hf _]. cbn [fst snd] in Hf.
    destruct fo as [v|v|]; [|apply sim_ret; split; [exact Hf|exact I]|apply sim_ret; split; [exact Hf|exact I]].
    eapply sim_bind; [exact (s_expr _ _ HE sc1 u f fn lp k Vf)|]. intros sc2 [[ff q'] o''] Hsub [Hff _]. cbn [fst snd] in Hff.
    destruct ff as [w|w|]; [|apply sim_ret; split; [exact Hff|exact I]|apply sim_ret; split; [exact Hff|exact I]].
    eapply sim_bind; [apply (sim_access sc2); [exact (sound_up Hsub _ Hf)|exact Hff]|]. intros sc3 x Hsub' Hx. apply sim_ret. split; [exact Hx|].
    exact (sound_up (sub_trans _ _ _ Hsub Hsub') _ Hf).
  - destruct V as [Vf Va]. eapply sim_bind; [exact (sim_prepare sc u f args fn lp k Vf Va)|].
    intros sc1 [fl|[[obj g] start]] _ H; [apply sim_ret, H|]. destruct H as [H1 H2].
    eapply sim_bind; [exact (s_call _ _ HE sc1 obj g start (at_ u p) H1 H2)|]. intros sc2 v _ Hv. apply sim_ret, Hv.
  - intros cs s Is.
    assert (FE : forall ix, option_map (slot_value (st_heap (wide cs s))) (nth_error (st_stack (wide cs s)) ix) =
      option_map (slot_value (st_heap s)) (nth_error (st_stack s) ix)).
    { intros ix. rewrite wide_slot. destruct (nth_error (st_stack s) ix) as [x|] eqn:Ex; [|reflexivity]. cbn. f_equal.
      apply (slot_same _ _ _ _ _ Is Ex). }
    pose proof (sim_lift sc
      (eval_command_block X O (fun ix => option_map (slot_value (st_heap s)) (nth_error (st_stack s) ix)) (u_path u) b (at_ u p))
      (eval_command_block X O (fun ix => option_map (slot_value (st_heap (wide cs s))) (nth_error (st_stack (wide cs s)) ix)) (u_path u) b (at_ u p))
      cs s Is) as L.
    specialize (L ltac:(rewrite (eval_block_ext _ _ FE); apply command_recell)).
    specialize (L ltac:(eapply command_cells; eassumption)).
    specialize (L (command_sound _ _ b _ (st_heap s) (st_world s) (i_iter _ _ _ Is) (i_heap _ _ _ Is))).
    unfold bind. destruct (lift _ s) as [v s'|q s'|z s'|c|]; cbn [sim_out] in L.
    + destruct L as (sc' & cs' & L1 & L2 & L3 & L4). rewrite L4. exists sc', cs'. auto.
    + destruct L as (sc' & cs' & L1 & L2 & L4). rewrite L4. exists sc', cs'. auto.
    + destruct L as (cs' & L4). rewrite L4. exists cs'. reflexivity.
    + rewrite L. reflexivity.
    + rewrite L. reflexivity.
Qed.

Lemma sim_assign sc obj op f fp v p : @sound sc f -> @sound sc v ->
  sim sc (assign_field n obj op f fp v p) (assign_field n obj op f fp v p) (fun _ _ => True).
Proof.
  intros Hf Hv. unfold assign_field. apply sim_get. intros cs s Is.
  assert (Hh : @sound_heap sc (st_heap s)) by apply Is.
  assert (HP : forall h, @sound_heap sc h -> h_cells h = h_cells (st_heap s) ->
    sim_out sc (fun _ (_ : unit) => True) (put (set_heap s h) s) (put (set_heap (wide cs s) (recell cs h)) (wide cs s))).
  { intros h A B. exists sc, cs. split; [apply sub_refl|]. split; [exact (inv_heap sc cs s h (st_world s) Is A B)|]. split; [exact I|reflexivity]. }
  assert (HT : forall e, sim_out sc (fun _ (_ : unit) => True) (throw e s) (throw e (wide cs s))) by (intros e; exact (sim_throw sc e _ cs s Is)).
  destruct obj as [| | | | | |l|l| |]; try apply HT.
  - destruct f; try apply HT. cbn [wide st_heap]. change (arr_get (recell cs (st_heap s)) l) with (arr_get (st_heap s) l).
    destruct (Z.of_nat (length (arr_get (st_heap s) l)) <=? z)%Z; [apply HT|].
    destruct (z <? 0)%Z; [apply HT|]. apply HP; try reflexivity. apply sound_arr_set; [exact Hh|].
    apply Forall_list_set; [apply sound_arr, Hh|exact Hv].
  - cbn [wide st_heap]. rewrite (dict_put_recell (st_heap s) cs Hh (agree_cells sc cs s Is) n l f v Hf).
    destruct (dict_put (st_heap s) n l f v) as [d| |] eqn:P; [|reflexivity|reflexivity].
    apply HP; try reflexivity. unfold dict_put in P. destruct (hash_walk (st_heap s) n (LockDict l) f) as [[]| |]; cbn in P; try discriminate.
    apply sound_dict_set; [exact Hh|]. eapply put_entry_sound; [apply sound_dict, Hh|exact Hf|exact Hv|exact P].
Qed.

Lemma sim_eval_statement sc u st fn lp k : valid_statement fn lp k st -> sim sc (eval_statement E1 n u st) (eval_statement E2 n u st) flow_s.
Proof.
  destruct st as [l r|e| |c b|ix e b|e]; cbn [eval_statement valid_statement]; intros V.
  - destruct V as [Vl Vr]. eapply sim_bind; [exact (s_expr _ _ HE sc u r fn lp k Vr)|]. intros sc1 [[f p] o] _ [Hf _]. cbn [fst snd] in Hf.
    destruct f as [v|v|]; [|apply sim_ret, Hf|apply sim_ret, Hf]. destruct l as [ix q|oe fe q]; cbn in Vl.
    + eapply sim_bind; [apply sim_store; exact Hf|]. intros sc2 _ _ _. apply sim_ret. exact I.
    + destruct Vl as [Vo Vf]. eapply sim_bind; [exact (s_expr _ _ HE sc1 u oe fn lp k Vo)|]. intros sc2 [[fo p'] o'] Hs2 [Hfo _]. cbn [fst snd] in Hfo.
      destruct fo as [vo|vo|]; [|apply sim_ret, Hfo|apply sim_ret, Hfo].
      eapply sim_bind; [exact (s_expr _ _ HE sc2 u fe fn lp k Vf)|]. intros sc3 [[ff p''] o''] Hs3 [Hff _]. cbn [fst snd] in Hff.
      destruct ff as [vf|vf|]; [|apply sim_ret, Hff|apply sim_ret, Hff].
      eapply sim_bind; [apply (sim_assign sc3); [exact Hff|exact (sound_up (sub_trans _ _ _ Hs2 Hs3) _ Hf)]|].
      intros sc4 _ _ _. apply sim_ret. exact I.
  - destruct V as [Vfn Ve]. eapply sim_bind; [exact (s_expr _ _ HE sc u e fn lp k Ve)|]. intros sc1 [[f p] o] _ [Hf _]. cbn [fst snd] in Hf.
    apply sim_ret. destruct f; exact Hf.
  - apply sim_ret. exact I.
  - destruct V as [Vc Vb]. eapply sim_bind; [exact (s_expr _ _ HE sc u c fn lp k Vc)|]. intros sc1 [[f p] o] _ [Hf _]. cbn [fst snd] in Hf.
    destruct f as [v|v|]; [|apply sim_ret, Hf|apply sim_ret, Hf]. destruct v as [|[|]| | | | | | | |]; try apply sim_throw; [|apply sim_ret; exact I].
    eapply sim_bind; [exact (sim_block sc1 u b fn true k Vb)|]. intros sc2 [w|w|] _ Hw.
    + apply (s_statement _ _ HE sc2 u (XWhile c b) fn lp k). split; assumption.
    + apply sim_ret, Hw.
    + apply sim_ret. exact I.
  - destruct V as (Vi & Ve & Vb). eapply sim_bind; [exact (s_expr _ _ HE sc u e fn lp k Ve)|]. intros sc1 [[f p] o] _ [Hf _]. cbn [fst snd] in Hf.
    destruct f as [v|v|]; [|apply sim_ret, Hf|apply sim_ret, Hf]. destruct v as [| | | | | | | |g|]; try apply sim_throw.
    exact (s_for _ _ HE sc1 u ix g p b fn true k Hf Vb).
  - eapply sim_bind; [exact (s_expr _ _ HE sc u e fn lp k V)|]. intros sc1 [[f p] o] _ [Hf _]. apply sim_ret, Hf.
Qed.

Lemma sim_field sc l p x :
  sim sc (bind get (fun s => bind (of_walk (dict_get (st_heap s) n l (VStr x))) (fun r =>
        match r with Some v => ret v | None => throw (PIndexOutOfBounds (VStr x) p) end)))
     (bind get (fun s => bind (of_walk (dict_get (st_heap s) n l (VStr x))) (fun r =>
        match r with Some v => ret v | None => throw (PIndexOutOfBounds (VStr x) p) end))) (@sound).
Proof.
  apply sim_get. intros cs s Is. cbn [wide st_heap].
  rewrite (dict_get_recell (st_heap s) cs (i_heap _ _ _ Is) (agree_cells sc cs s Is) n l (VStr x) I).
  refine (sim_bind sc _ _ _ _ (fun sc r => forall v, r = Some v -> @sound sc v) _ (sim_walk sc _ _ _) _ cs s Is).
  - intros a Ha v ->. exact (dict_get_sound n sc _ _ _ _ (i_heap _ _ _ Is) Ha).
  - intros sc' [v|] _ H; [apply sim_ret, H; reflexivity|apply sim_throw].
Qed.
Lemma sim_eval_for sc u ix g p b fn lp k : @sound_func sc g -> each (valid_statement fn lp k) b ->
  sim sc (eval_for E1 n u ix g p b) (eval_for E2 n u ix g p b) flow_s.
Proof.
  intros Hg Vb. unfold eval_for. apply sim_get. intros cs s Is. change (st_args (wide cs s)) with (st_args s).
  refine (sim_bind sc _ _ _ _ _ _ (s_call _ _ HE sc VNil g (length (st_args s)) p I Hg) _ cs s Is).
  intros sc1 r Hs1 Hr. destruct r as [| | | | | | |l| |]; try apply sim_throw.
  cbv zeta. eapply sim_bind; [apply sim_field|]. intros sc2 fin Hs2 _.
  destruct fin as [|[|]| | | | | | | |]; try apply sim_throw; [apply sim_ret; exact I|].
  eapply sim_bind; [apply sim_field|]. intros sc3 v Hs3 Hv. eapply sim_bind; [apply sim_store; exact Hv|]. intros sc4 _ Hs4 _.
  eapply sim_bind; [exact (sim_block sc4 u b fn lp k Vb)|]. intros sc5 [w|w|] Hs5 Hw.
  - apply (s_for _ _ HE sc5 u ix g p b fn lp k); try assumption.
    apply (func_up Hs5), (func_up Hs4), (func_up Hs3), (func_up Hs2), (func_up Hs1), Hg.
  - apply sim_ret, Hw.
  - apply sim_ret. exact I.
Qed.

(** ** Calls *)
Lemma sim_out_shrink {A} sc (R : scope -> A -> Prop) k o1 o2 : sim_out sc R o1 o2 ->
  sim_out sc R
    (match o1 with Val a s => Val a (shrink k s) | Pan p s => Pan p (shrink k s) | r => r end)
    (match o2 with Val a s => Val a (shrink k s) | Pan p s => Pan p (shrink k s) | r => r end).
Proof.
  destruct o1 as [a s|p s|z s|c|]; cbn [sim_out].
  - intros (sc' & cs' & A1 & A2 & A3 & ->). destruct (inv_shrink sc' cs' s k A2) as [B1 B2]. exists sc', cs'. rewrite B2. auto.
  - intros (sc' & cs' & A1 & A2 & ->). destruct (inv_shrink sc' cs' s k A2) as [B1 B2]. exists sc', cs'. rewrite B2. auto.
  - intros (cs' & ->). exists cs'. reflexivity.
  - intros ->. reflexivity.
  - intros ->. reflexivity.
Qed.
Lemma sim_finish {A} sc k (m1 m2 : M A) R : sim sc m1 m2 R -> sim sc (finish k m1) (finish k m2) R.
Proof. intros H cs s Is. pose proof (sim_out_shrink sc R k _ _ (H cs s Is)) as K. unfold finish. destruct (m1 s), (m2 (wide cs s)); exact K. Qed.

Lemma sim_tail_call sc u k f args p fn lp k' : valid_expr fn lp k' f -> each (valid_expr fn lp k') args ->
  sim sc (tail_call E1 u k f args p) (tail_call E2 u k f args p) flow_s.
Proof.
  intros Vf Va cs s Is. unfold tail_call. pose proof (sim_prepare sc u f args fn lp k' Vf Va cs s Is) as P.
  destruct (prepare_call E1 u f args s) as [[fl|[[obj g] start]] s1|e s1|z s1|c|]; cbn [sim_out] in P.
  - destruct P as (sc' & cs' & A1 & A2 & A3 & ->). destruct (inv_shrink sc' cs' s1 k A2) as [B1 B2]. exists sc', cs'. rewrite B2. auto.
  - destruct P as (sc' & cs' & A1 & A2 & [A3 A4] & ->). destruct (inv_shrink sc' cs' s1 k A2) as [B1 B2]. rewrite B2.
    apply (sim_out_up sc sc'); [exact A1|].
    refine (sim_bind sc' _ _ _ _ _ _ (s_call _ _ HE sc' obj g start (at_ u p) A3 A4) _ cs' (shrink k s1) B1).
    intros sc2 v _ Hv. apply sim_ret, Hv.
  - destruct P as (sc' & cs' & A1 & A2 & ->). destruct (inv_shrink sc' cs' s1 k A2) as [B1 B2]. exists sc', cs'. rewrite B2. auto.
  - destruct P as (cs' & ->). exists cs'. reflexivity.
  - rewrite P. reflexivity.
  - rewrite P. reflexivity.
Qed.

Lemma sim_body u k b k' : each (valid_statement true false k') b -> forall sc,
  sim sc (eval_body tail E1 u k b) (eval_body tail E2 u k b) flow_s.
Proof.
  induction b as [|st b IH]; intros V sc.
  - cbn [eval_body]. apply sim_finish, sim_ret. exact I.
  - destruct V as [V1 V2]. destruct b as [|st' b].
    + cbn [eval_body].
      pose proof (sim_finish sc k _ _ _ (s_statement _ _ HE sc u st true false k' V1)) as D.
      destruct tail; [|exact D].
      destruct st as [l r|e| |c b|ix e b|e]; try exact D.
      * destruct e as [ix p|l p|x p|es p|kvs p|params fi b p|op e p|l op r p|c t e p|o f p|f args p|b p]; try exact D.
        destruct V1 as [_ [Vf Va]]. eapply sim_bind; [exact (sim_tail_call sc u k f args p true false k' Vf Va)|].
        intros sc1 fl _ H. apply sim_ret. destruct fl; exact H.
      * destruct e as [ix p|l p|x p|es p|kvs p|params fi b p|op e p|l op r p|c t e p|o f p|f args p|b p]; try exact D.
        destruct V1 as [Vf Va]. exact (sim_tail_call sc u k f args p true false k' Vf Va).
    + intros cs s Is.
      pose proof (s_statement _ _ HE sc u st true false k' V1 cs s Is) as G.
      change (sim_out sc flow_s
        (match ev_statement E1 u st s with
         | Val (Reg _) s1 => eval_body tail E1 u k (st' :: b) s1
         | Val f s1 => Val f (shrink k s1) | Pan p s1 => Pan p (shrink k s1) | r => r end)
        (match ev_statement E2 u st (wide cs s) with
         | Val (Reg _) s1 => eval_body tail E2 u k (st' :: b) s1
         | Val f s1 => Val f (shrink k s1) | Pan p s1 => Pan p (shrink k s1) | r => r end)).
      destruct (ev_statement E1 u st s) as [f s1|e s1|z s1|c|]; cbn [sim_out] in G.
      * destruct G as (sc' & cs' & A1 & A2 & A3 & ->). destruct (inv_shrink sc' cs' s1 k A2) as [B1 B2].
        destruct f as [v|v|].
        -- apply (sim_out_up sc sc'); [exact A1|]. exact (IH V2 sc' cs' s1 A2).
        -- exists sc', cs'. rewrite B2. auto.
        -- exists sc', cs'. rewrite B2. auto.
      * destruct G as (sc' & cs' & A1 & A2 & ->). destruct (inv_shrink sc' cs' s1 k A2) as [B1 B2]. exists sc', cs'. rewrite B2. auto.
      * destruct G as (cs' & ->). exists cs'. reflexivity.
      * rewrite G. reflexivity.
      * rewrite G. reflexivity.
Qed.

Lemma sim_store_all l : forall sc ix, Forall (@sound sc) l -> sim sc (store_all ix l) (store_all ix l) (fun _ _ => True).
Proof.
  induction l as [|v l IH]; intros sc ix H; cbn [store_all]; [apply sim_ret; exact I|]. inversion H; subst.
  eapply sim_bind; [apply sim_store; assumption|]. intros sc1 _ U _. apply IH. apply (values_up U). assumption.
Qed.
Lemma sim_place_all l : forall sc, Forall (fun x => @sc_cell sc (fst x)) l -> sim sc (place_all l) (place_all l) (fun _ _ => True).
Proof.
  induction l as [|[c ix] l IH]; intros sc H; cbn [place_all]; [apply sim_ret; exact I|]. inversion H; subst.
  eapply sim_bind; [apply sim_place; assumption|]. intros sc1 _ U _. apply IH. eapply Forall_impl; [|eassumption]. intros x. apply U.
Qed.

Lemma sim_out_put {A} sc (R : scope -> A -> Prop) (s0 : state W) (m1 m2 : M A) cs s : inv sc cs s0 -> sim sc m1 m2 R ->
  sim_out sc R (bind (put s0) (fun _ => m1) s) (bind (put (wide cs s0)) (fun _ => m2) (wide cs s)).
Proof. intros Is H. exact (H cs s0 Is). Qed.
Lemma sim_call_hush sc obj unit params fi body ctx fp start p : @sound sc obj -> @sound_func sc (FHush unit params fi body ctx fp) ->
  sim sc (call_hush X tail false E1 obj unit params fi body ctx fp start p)
    (call_hush X tail true E2 obj unit params fi body ctx fp start p) (@sound).
Proof.
  intros Ho (V1 & V2 & V3 & V4 & V5). unfold call_hush. apply sim_get. intros cs s Is.
  change (st_args (wide cs s)) with (st_args s).
  change (set_args (wide cs s) (firstn start (st_args s))) with (wide cs (set_args s (firstn start (st_args s)))).
  assert (Ha : Forall (@sound sc) (skipn start (st_args s))) by (apply Forall_skipn, Is).
  apply sim_out_put; [apply inv_args; [exact Is|apply Forall_firstn, Is]|].
  revert Ha. generalize (skipn start (st_args s)). clear cs s Is. intros args Ha.
  destruct (Nat.eqb (length args) params); [|apply sim_throw].
  eapply sim_bind; [apply sim_extend|]. intros sc1 _ U1 _.
  eapply sim_bind; [apply sim_store_all, (values_up U1), Ha|]. intros sc2 _ U2 _.
  eapply sim_bind; [apply sim_place_all; eapply Forall_impl; [|exact V5]; intros x Hx; apply U2, U1, Hx|]. intros sc3 _ U3 _.
  apply (sim_bind sc3 _ _ _ _ (fun _ _ => True)).
  { destruct (fi_self fi); [apply sim_store|apply sim_ret; exact I].
    exact (sound_up U3 _ (sound_up U2 _ (sound_up U1 _ Ho))). }
  intros sc4 _ U4 _. eapply sim_bind; [exact (sim_body _ (fi_slots fi) body (fi_slots fi) V4 sc4)|].
  intros sc5 [v|v|] _ Hv; [apply sim_ret, Hv|apply sim_ret, Hv|]. intros cs s Is. reflexivity.
Qed.

(** A program: leaves its slots behind when it panics *)
Lemma sim_program sc u prog : valid_program prog ->
  sim sc (eval_program X false E1 u prog) (eval_program X true E2 u prog) (@sound).
Proof.
  intros [V1 V2]. unfold eval_program. eapply sim_bind; [apply sim_extend|]. intros sc1 _ _ _.
  eapply sim_bind; [apply sim_store; exact I|]. intros sc2 _ _ _ cs s Is.
  pose proof (sim_block sc2 u (pr_statements prog) false false (pr_root_slots prog) V2 cs s Is) as B.
  destruct (eval_block E1 u (pr_statements prog) s) as [f s1|e s1|z s1|c|]; cbn [sim_out] in B.
  - destruct B as (sc' & cs' & A1 & A2 & A3 & ->). destruct (inv_shrink sc' cs' s1 (pr_root_slots prog) A2) as [B1 B2].
    destruct f as [v|v|]; [|reflexivity|reflexivity]. exists sc', cs'. rewrite B2. auto.
  - destruct B as (sc' & cs' & A1 & A2 & ->). exists sc', cs'. auto.
  - destruct B as (cs' & ->). exists cs'. reflexivity.
  - rewrite B. reflexivity.
  - rewrite B. reflexivity.
Qed.
Lemma sim_leaking {A} sc (m1 m2 : M A) R : sim sc m1 m2 R -> sim sc (leaking m1) (leaking m2) R.
Proof.
  intros H cs s Is. specialize (H cs s Is). unfold leaking. destruct (m1 s) as [a s'|p s'|z s'|c|]; cbn [sim_out] in H.
  - destruct H as (sc' & cs' & A1 & A2 & A3 & ->). exists sc', cs'. auto.
  - destruct H as (sc' & cs' & A1 & A2 & ->). exists sc', cs'. split; [exact A1|]. split; [|reflexivity].
    destruct A2 as [i_iter0 i_length0 i_cell0 i_cells0 i_args0 i_heap0 i_modules0 i_slot0 i_apart0]. split; assumption.
  - destruct H as (cs' & ->). exists cs'. reflexivity.
  - rewrite H. reflexivity.
  - rewrite H. reflexivity.
Qed.
Lemma sim_load sc path p : sim sc (load X false E1 path p) (load X true E2 path p) (@sound).
Proof.
  unfold load. apply sim_get. intros cs s Is. cbn [wide st_world st_units].
  destruct (x_file X path (st_world s)) as [e|text]; [exact (sim_throw sc _ _ cs s Is)|].
  destruct (analyze text) as [b les pes| |] eqn:A; [|reflexivity|reflexivity].
  destruct les as [|]; [|exact (sim_throw sc _ _ cs s Is)]. destruct pes as [|]; [|exact (sim_throw sc _ _ cs s Is)].
  destruct (sema b) as [prog|es|] eqn:Se; [|exact (sim_throw sc _ _ cs s Is)|reflexivity].
  pose proof (text_valid _ _ _ _ A Se) as V. unfold bind at 1 2, put.
  apply (sim_leaking sc _ _ _ (sim_program sc (mkuinfo (st_units s) path) prog V) cs
    (mkstate (st_stack s) (st_args s) (st_heap s) (st_modules s) (S (st_units s)) (st_leaked s) (st_world s))).
  destruct Is as [i_iter0 i_length0 i_cell0 i_cells0 i_args0 i_heap0 i_modules0 i_slot0 i_apart0]. split; assumption.
Qed.
Lemma sim_import sc t p : sim sc (import X false E1 t p) (import X true E2 t p) (@sound).
Proof.
  unfold import. apply sim_get. intros cs s Is. cbn [wide st_world st_modules].
  destruct (x_resolve X t (sp_path p) (st_world s)) as [e|path]; [exact (sim_throw sc _ _ cs s Is)|].
  destruct (module_get path (st_modules s)) as [v|] eqn:Md.
  - apply (sim_ret sc v (@sound)); [|exact Is]. eapply module_sound; [apply Is|exact Md].
  - refine (sim_bind sc _ _ _ _ _ _ (sim_load sc path p) _ cs s Is). intros sc1 v _ Hv. apply sim_get. intros cs1 s1 I1.
    unfold bind, put, ret. exists sc1, cs1. split; [apply sub_refl|]. split; [|split; [exact Hv|reflexivity]].
    destruct I1 as [i_iter0 i_length0 i_cell0 i_cells0 i_args0 i_heap0 i_modules0 i_slot0 i_apart0]. split; cbn; try assumption. constructor; assumption.
Qed.

Lemma sim_native cs s sc g args start p : @sound_native sc g -> inv sc cs s -> Forall (@sound sc) args ->
  sim_out sc (@sound) (native_body X false E1 n g args start p s) (native_body X true E2 n g args start p (wide cs s)).
Proof.
  intros Hg Is Ha.
  assert (HT : forall e, sim_out sc (@sound) (throw e s) (throw e (wide cs s))) by (intros e; exact (sim_throw sc e (@sound) cs s Is)).
  assert (HL : sim_out sc (@sound) (lift (native_call X n args_value g args p) s) (lift (native_call X n args_value g args p) (wide cs s))).
  { apply sim_lift; [exact Is| | |].
    - apply native_call_recell; try assumption; [apply Is|exact (agree_cells sc cs s Is)].
    - apply native_call_cells, HX.
    - pose proof (native_call_kept X HX n g args p (st_heap s) (st_world s) args_value (i_heap _ _ _ Is) Hg Ha I) as K.
      destruct (native_call X n args_value g args p (st_heap s) (st_world s)) as [v x|q x|z x|c|]; cbn in K; auto; [|apply K].
      apply K. intros _. apply Is. }
  destruct g as [f|o f|a st|t st|st|st to step|st to step|f pt|st]; try exact HL.
  - destruct f; try exact HL; unfold native_body.
    + destruct args as [|a [|a' l]]; [apply HT| |destruct a; apply HT].
      destruct a as [| | | | | | | |g|]; try apply HT. inversion Ha as [|? ? Sg _]; subst. cbn in Sg. unfold catch.
      pose proof (s_call _ _ HE sc VNil g (start + 1) p I Sg cs s Is) as C.
      destruct (ev_call E1 VNil g (start + 1) p s) as [v s'|e s'|z s'|c|]; cbn [sim_out] in C.
      * destruct C as (sc' & cs' & A1 & A2 & A3 & ->). exists sc', cs'. auto.
      * destruct C as (sc' & cs' & A1 & A2 & ->). cbn [wide st_heap].
        rewrite panic_text_recell. pose proof (ShowProofs.panic_text_not_busy X n (st_heap s') e) as NB.
        destruct (panic_text X n (st_heap s') e) as [t| |]; [|congruence|reflexivity].
        exists sc', cs'. split; [exact A1|]. split; [exact A2|]. split; [exact I|]. reflexivity.
      * destruct C as (cs' & ->). exists cs'. reflexivity.
      * rewrite C. reflexivity.
      * rewrite C. reflexivity.
    + destruct args as [|a [|a' l]]; [apply HT| |destruct a; apply HT].
      destruct a as [| | | | |t| | | |]; try apply HT. exact (sim_import sc t p cs s Is).
  - destruct Hg as [Ho Hf]. exact (s_call _ _ HE sc o f start p Ho Hf cs s Is).
Qed.
Lemma sim_call sc obj f start p : @sound sc obj -> @sound_func sc f ->
  sim sc (call X tail false E1 n obj f start p) (call X tail true E2 n obj f start p) (@sound).
Proof.
  intros Ho Hf. destruct f as [unit params fi body ctx fp|g]; cbn [call].
  - apply sim_call_hush; assumption.
  - apply sim_get. intros cs s Is. unfold truncated. change (st_args (wide cs s)) with (st_args s).
    assert (SA : Forall (@sound sc) (skipn start (st_args s))) by (apply Forall_skipn, Is).
    pose proof (sim_native cs s sc g (skipn start (st_args s)) start p Hf Is SA) as N.
    destruct (native_body X false E1 n g (skipn start (st_args s)) start p s) as [v s'|e s'|z s'|c|]; cbn [sim_out] in N.
    + destruct N as (sc' & cs' & A1 & A2 & A3 & ->). exists sc', cs'. split; [exact A1|]. split; [|auto].
      apply inv_args; [exact A2|]. apply Forall_firstn, A2.
    + destruct N as (sc' & cs' & A1 & A2 & ->). exists sc', cs'. split; [exact A1|]. split; [|auto].
      apply inv_args; [exact A2|]. apply Forall_firstn, A2.
    + destruct N as (cs' & ->). exists cs'. reflexivity.
    + rewrite N. reflexivity.
    + rewrite N. reflexivity.
Qed.
End Step.

Lemma sims_step E1 E2 n : sims E1 E2 -> sims (step X O tail false E1 n) (step X O tail true E2 n).
Proof.
  intros HE. split; cbn [step ev_expr ev_statement ev_call ev_for].
  - intros. eapply sim_eval_expr; eassumption.
  - intros. eapply sim_eval_statement; eassumption.
  - intros. apply sim_call; assumption.
  - intros. eapply sim_eval_for; eassumption.
Qed.
Theorem sims_run n : sims (run X O tail false n) (run X O tail true n).
Proof.
  induction n as [|n IH]; cbn [run]; [|apply sims_step, IH].
  split; intros; intros cs s Is; reflexivity.
Qed.
End Sim.
