(** Proofs about the names of the library. *)
From Coq Require Import Strings.String Permutation Lia.
From Verif Require Import Base Lexer Ast Program Value Text StdLib Library SpecNames.

(** ** The table *)

Definition path_of (f : std_fun) : list bytes :=
  match List.find (fun x => match bytes_eqb (std_name (snd x)) (std_name f) with true => true | false => false end) library with
  | Some (p, _) => p
  | None => []
  end.

Lemma beq_eq a : forall b, bytes_eqb a b = true <-> a = b.
Proof.
  induction a as [|x a IH]; intros [|y b]; cbn; try (split; congruence).
  rewrite andb_true_iff, IH. unfold byte_eqb. split.
  - intros [E ->]. f_equal. now apply Byte.byte_dec_bl.
  - intros [= -> ->]. split; [now apply Byte.byte_dec_lb|reflexivity].
Qed.
Lemma beq_refl a : bytes_eqb a a = true.
Proof. now apply beq_eq. Qed.
Lemma beq_neq a b : a <> b -> bytes_eqb a b = false.
Proof. intros N. destruct (bytes_eqb a b) eqn:E; [|reflexivity]. now apply beq_eq in E. Qed.

Fixpoint list_eqb (p q : list bytes) : bool :=
  match p, q with [], [] => true | x :: p', y :: q' => bytes_eqb x y && list_eqb p' q' | _, _ => false end.
Lemma in_library p f : In (p, f) library <-> p = path_of f.
Proof.
  split.
  - intros I.
    assert (forallb (fun x => list_eqb (fst x) (path_of (snd x))) library = true) as T by (vm_compute; reflexivity).
    rewrite forallb_forall in T. specialize (T _ I). cbn [fst snd] in T.
    clear I. revert T. generalize (path_of f) as q. induction p as [|x p IH]; intros [|y q]; cbn; try congruence.
    rewrite andb_true_iff. intros [E R]. apply beq_eq in E. f_equal; auto.
  - intros ->.
    assert (exists x, List.find (fun x => match bytes_eqb (std_name (snd x)) (std_name f) with true => true | false => false end) library = Some x /\ snd x = f) as (x & E & F).
    { destruct f; eexists; (split; [vm_compute; reflexivity|reflexivity]). }
    unfold path_of. rewrite E. destruct x as [p g]. cbn in F. subst. now apply find_some in E.
Qed.

Definition no_dot (k : bytes) : Prop := forallb (fun c => negb (Byte.eqb c x2e)) k = true.
Lemma path_shape f :
  (exists k, path_of f = [k] /\ no_dot k /\ std_name f = bs "std." ++ k) \/
  (exists g k, path_of f = [g; k] /\ no_dot g /\ no_dot k /\ std_name f = bs "std." ++ g ++ [x2e] ++ k).
Proof.
  destruct f;
    match goal with |- context [path_of ?f] => 
      let p := eval vm_compute in (path_of f) in
      match p with
      | [?k] => left; exists k; repeat split; vm_compute; reflexivity
      | [?g; ?k] => right; exists g, k; repeat split; vm_compute; reflexivity
      end
    end.
Qed.
Lemma dotted_name f : std_name f = bs "std" ++ dotted (path_of f).
Proof. destruct f; vm_compute; reflexivity. Qed.

Lemma path_inj f g : path_of f = path_of g -> f = g.
Proof.
  intros E. assert (std_name f = std_name g) as N by (rewrite !dotted_name, E; reflexivity).
  revert N. clear. intros N. apply beq_eq in N. revert N. destruct f, g; vm_compute; congruence.
Qed.
Lemma path_not_group f g k x : path_of f = [k] -> path_of g = [k; x] -> False.
Proof.
  intros A B.
  assert (forallb (fun p => forallb (fun q =>
    match fst p, fst q with [k], [k'; _] => negb (bytes_eqb k k') | _, _ => true end) library) library = true) as T by (vm_compute; reflexivity).
  rewrite forallb_forall in T.
  assert (In ([k], f) library) as I by (apply in_library; congruence).
  assert (In ([k; x], g) library) as J by (apply in_library; congruence).
  specialize (T _ I). rewrite forallb_forall in T. specialize (T _ J). cbn in T. now rewrite beq_refl in T.
Qed.

(** ** Dicts with strings as keys *)

Definition keys (d : list (value * value)) : list value := map fst d.
Lemma str_get_in key v d : NoDup (keys d) -> (str_get key d = Some v <-> In (VStr key, v) d).
Proof.
  unfold keys. induction d as [|[a b] d IH]; intros U; [cbn; split; [discriminate|tauto]|].
  inversion U as [|? ? N U']; subst. specialize (IH U').
  assert (forall k, a = VStr k -> bytes_eqb key k = true ->
          (Some b = Some v <-> (a, b) = (VStr key, v) \/ In (VStr key, v) d)) as H.
  { intros k -> E. apply beq_eq in E. subst k. split; [intros [= <-]; auto|].
    intros [[= <-]|I]; [reflexivity|]. destruct N. now apply (in_map fst) in I. }
  destruct a; cbn [str_get In]; try (rewrite IH; intuition congruence).
  destruct (bytes_eqb key s) eqn:E; [now apply (H s)|].
  rewrite IH. split; [auto|]. intros [[= -> <-]|I]; [|exact I]. rewrite beq_refl in E. discriminate.
Qed.
Lemma str_get_none key d v : NoDup (keys d) -> str_get key d = None -> ~ In (VStr key, v) d.
Proof. intros U E I. apply (str_get_in key v d U) in I. congruence. Qed.
Lemma str_put_in key v d e : NoDup (keys d) ->
  (In e (str_put key v d) <-> e = (VStr key, v) \/ (In e d /\ fst e <> VStr key)).
Proof.
  unfold keys. induction d as [|[a b] d IH]; intros U; [cbn; intuition congruence|].
  inversion U as [|? ? N U']; subst. specialize (IH U').
  assert (forall k, a = VStr k -> bytes_eqb key k = true ->
          (In e ((VStr k, v) :: d) <-> e = (VStr key, v) \/ (In e ((a, b) :: d) /\ fst e <> VStr key))) as H.
  { intros k -> E. apply beq_eq in E. subst k. cbn [In]. split.
    - intros [<-|I]; [auto|]. right. split; [auto|]. intros F. apply N. rewrite <- F. now apply in_map.
    - intros [->|[[<-|I] F]]; auto. cbn in F. congruence. }
  assert (a <> VStr key ->
          (In e ((a, b) :: str_put key v d) <-> e = (VStr key, v) \/ (In e ((a, b) :: d) /\ fst e <> VStr key))) as H'.
  { intros F. cbn [In]. rewrite IH. split; [intros [<-|[->|[I G]]]; auto|intros [->|[[<-|I] G]]; auto]. }
  destruct a; cbn [str_put]; try (apply H'; discriminate).
  destruct (bytes_eqb key s) eqn:E; [now apply (H s)|]. apply H'. intros [= ->]. rewrite beq_refl in E. discriminate.
Qed.
Lemma str_put_keys key v d : NoDup (keys d) -> NoDup (keys (str_put key v d)).
Proof.
  unfold keys. induction d as [|[a b] d IH]; intros U; [repeat constructor; tauto|].
  inversion U as [|? ? N U']; subst. specialize (IH U').
  assert (a <> VStr key -> NoDup (map fst ((a, b) :: str_put key v d))) as H.
  { intros F. cbn [map fst]. constructor; [|exact IH]. intros I. apply in_map_iff in I. destruct I as (e & E & I).
    apply (str_put_in key v d e U') in I. destruct I as [->|[I _]]; [cbn in E; congruence|]. apply N. rewrite <- E. now apply in_map. }
  destruct a; cbn [str_put]; try (apply H; discriminate).
  destruct (bytes_eqb key s) eqn:E; [exact U|]. apply H. intros [= ->]. rewrite beq_refl in E. discriminate.
Qed.

Lemma insert_last k : forall acc v l h, no_dot k ->
  lib_insert acc k v l h = Some (dict_set h l (str_put (acc ++ k) v (dict_entries h l))).
Proof.
  unfold no_dot. induction k as [|c k IH]; intros acc v l h; cbn [forallb lib_insert]; [now rewrite app_nil_r|].
  rewrite andb_true_iff, negb_true_iff. intros [E N]. rewrite E, IH, <- app_assoc by exact N. reflexivity.
Qed.
Lemma insert_dot g : forall acc rest v l h, no_dot g ->
  lib_insert acc (g ++ [x2e] ++ rest) v l h = lib_insert (acc ++ g) ([x2e] ++ rest) v l h.
Proof.
  unfold no_dot. induction g as [|c g IH]; intros acc rest v l h; [now rewrite app_nil_r|].
  cbn [forallb]. rewrite andb_true_iff, negb_true_iff. intros [E N].
  rewrite <- app_comm_cons. cbn [lib_insert]. rewrite E, IH, <- app_assoc by exact N. reflexivity.
Qed.

(** ** Building the library *)

Lemma entries_set h l d l' : dict_entries (dict_set h l d) l' = if Nat.eqb l l' then if Nat.ltb l (length (h_dicts h)) then d else [] else dict_entries h l'.
Proof.
  unfold dict_entries, dict_set. cbn [h_dicts]. generalize (h_dicts h) as D. clear. intros D. revert l l'.
  induction D as [|a D IH]; intros [|l] [|l']; cbn [list_set nth length Nat.eqb Nat.ltb]; try reflexivity.
  - destruct (Nat.eqb l l'); reflexivity.
  - rewrite IH. reflexivity.
Qed.
Lemma set_length h l d : length (h_dicts (dict_set h l d)) = length (h_dicts h).
Proof.
  unfold dict_set. cbn [h_dicts]. generalize (h_dicts h) as D. clear. intros D. revert l.
  induction D as [|a D IH]; intros [|l]; cbn; auto.
Qed.
Lemma entries_new h l : dict_entries (snd (new_dict h [])) l = dict_entries h l.
Proof.
  unfold dict_entries, new_dict. cbn [snd h_dicts]. destruct (Nat.ltb l (length (h_dicts h))) eqn:E.
  - apply Nat.ltb_lt in E. now rewrite app_nth1.
  - apply Nat.ltb_ge in E. rewrite app_nth2, (nth_overflow (h_dicts h)) by exact E. destruct (l - length (h_dicts h)) as [|[|]]; reflexivity.
Qed.
Lemma new_length h : length (h_dicts (snd (new_dict h []))) = S (length (h_dicts h)).
Proof. unfold new_dict. cbn [snd h_dicts]. rewrite app_length. cbn. lia. Qed.
Lemma entries_beyond h l : length (h_dicts h) <= l -> dict_entries h l = [].
Proof. apply nth_overflow. Qed.

Record built (done : list std_fun) (h : heap) : Prop := {
  b_len : 0 < length (h_dicts h);
  b_keys : forall l, NoDup (keys (dict_entries h l));
  b_top : forall k v, In (VStr k, v) (dict_entries h 0) ->
    (exists f, In f done /\ path_of f = [k] /\ v = function_of f) \/
    (exists l f x, v = VDict l /\ 0 < l < length (h_dicts h) /\ In f done /\ path_of f = [k; x]);
  b_plain : forall f k, In f done -> path_of f = [k] -> In (VStr k, function_of f) (dict_entries h 0);
  b_grouped : forall f g k, In f done -> path_of f = [g; k] ->
    exists l, In (VStr g, VDict l) (dict_entries h 0) /\ In (VStr k, function_of f) (dict_entries h l);
  b_group : forall g l k v, In (VStr g, VDict l) (dict_entries h 0) -> In (VStr k, v) (dict_entries h l) ->
    exists f, In f done /\ path_of f = [g; k] /\ v = function_of f;
  b_apart : forall g g' l, In (VStr g, VDict l) (dict_entries h 0) -> In (VStr g', VDict l) (dict_entries h 0) -> g = g' }.

Lemma built_empty : built [] empty_library.
Proof.
  constructor.
  - cbn. lia.
  - intros [|[|l]]; constructor.
  - intros k v [].
  - intros f k [].
  - intros f g k [].
  - intros g l k v [].
  - intros g g' l [].
Qed.

(** Putting a value into a dict, seen from outside *)
Definition put_at (h : heap) (l : loc) (k : bytes) (v : value) : heap := dict_set h l (str_put k v (dict_entries h l)).
Lemma put_in h l k v l' e : (forall l, NoDup (keys (dict_entries h l))) -> l < length (h_dicts h) ->
  (In e (dict_entries (put_at h l k v) l') <->
   (l = l' /\ (e = (VStr k, v) \/ (In e (dict_entries h l) /\ fst e <> VStr k))) \/ (l <> l' /\ In e (dict_entries h l'))).
Proof.
  intros U L. unfold put_at. rewrite entries_set. apply Nat.ltb_lt in L. rewrite L. destruct (Nat.eqb_spec l l') as [<-|N].
  - rewrite str_put_in by apply U. intuition congruence.
  - intuition congruence.
Qed.
Lemma put_keys h l k v : (forall l, NoDup (keys (dict_entries h l))) -> forall l', NoDup (keys (dict_entries (put_at h l k v) l')).
Proof.
  intros U l'. unfold put_at. rewrite entries_set. destruct (Nat.eqb l l'); [|apply U].
  destruct (Nat.ltb l (length (h_dicts h))); [|constructor]. apply str_put_keys, U.
Qed.

Lemma built_plain done h f k : built done h -> path_of f = [k] -> built (f :: done) (put_at h 0 k (function_of f)).
Proof.
  intros [L U T P G S A] F.
  pose proof (fun l' e => put_in h 0 k (function_of f) l' e U L) as I.
  assert (forall g l, In (VStr g, VDict l) (dict_entries (put_at h 0 k (function_of f)) 0) -> In (VStr g, VDict l) (dict_entries h 0)) as D.
  { intros g l. rewrite I. intros [[_ [[=]|[X _]]]|[X _]]; [exact X|now destruct X]. }
  assert (forall g l, In (VStr g, VDict l) (dict_entries h 0) -> 0 <> l) as Z.
  { intros g l X. destruct (T _ _ X) as [(f' & _ & _ & [=])|(l' & f' & x & [= <-] & R & _)]. lia. }
  constructor.
  - unfold put_at. rewrite set_length. exact L.
  - now apply put_keys.
  - intros k' v. rewrite I. intros [[_ [[= -> ->]|[X N]]]|[X _]]; [| |now destruct X].
    + left. exists f. cbn. auto.
    + destruct (T _ _ X) as [(f' & B & C & E)|(l & f' & x & B & C & E & H)]; [left; exists f'; cbn; auto|].
      right. exists l, f', x. unfold put_at. rewrite set_length. cbn. auto.
  - intros f' k' [<-|B] E; apply I; left; (split; [reflexivity|]).
    + left. congruence.
    + destruct (list_eq_dec Byte.byte_eq_dec k k') as [<-|N].
      * left. rewrite (path_inj f' f) by congruence. reflexivity.
      * right. split; [auto|]. cbn. congruence.
  - intros f' g x [<-|B] E; [congruence|]. destruct (G _ _ _ B E) as (l & X & Y). exists l. split.
    + apply I. left. split; [reflexivity|]. right. split; [exact X|]. cbn. intros [= ->]. now apply (path_not_group f f' k x).
    + apply I. right. split; [|exact Y]. now apply Z in X.
  - intros g l x v B C. apply D in B. apply I in C. destruct C as [[<- _]|[_ C]]; [now destruct (Z _ _ B)|].
    destruct (S _ _ _ _ B C) as (f' & X & Y). exists f'. cbn. tauto.
  - intros g g' l B C. apply D in B. apply D in C. now apply (A g g' l).
Qed.

Lemma built_put done h f g k l : built done h -> path_of f = [g; k] -> In (VStr g, VDict l) (dict_entries h 0) ->
  built (f :: done) (put_at h l k (function_of f)).
Proof.
  intros [L U T P G S A] F B.
  assert (0 < l < length (h_dicts h)) as Z.
  { destruct (T _ _ B) as [(f' & _ & _ & [=])|(l' & f' & x & [= <-] & R & _)]. exact R. }
  pose proof (fun l' e => put_in h l k (function_of f) l' e U (proj2 Z)) as I.
  assert (forall e, In e (dict_entries (put_at h l k (function_of f)) 0) <-> In e (dict_entries h 0)) as D.
  { intros e. rewrite I. split; [intros [[-> _]|[_ X]]; [lia|exact X]|]. intros X. right. split; [lia|exact X]. }
  constructor.
  - unfold put_at. rewrite set_length. exact L.
  - now apply put_keys.
  - intros k' v X. apply D in X. destruct (T _ _ X) as [(f' & C & E & H)|(l' & f' & x & C & E & H & H')]; [left; exists f'; cbn; auto|].
    right. exists l', f', x. unfold put_at. rewrite set_length. cbn. auto.
  - intros f' k' [<-|C] E; [congruence|]. apply D. auto.
  - intros f' g' x [<-|C] E.
    + exists l. rewrite D, I. assert (g' = g) by congruence. assert (x = k) by congruence. subst. auto.
    + destruct (G _ _ _ C E) as (l' & X & Y). exists l'. split; [now apply D|]. apply I.
      destruct (Nat.eq_dec l l') as [<-|N]; [|auto]. left. split; [reflexivity|].
      destruct (list_eq_dec Byte.byte_eq_dec x k) as [->|N]; [|right; split; [exact Y|cbn; congruence]].
      left. rewrite (A _ _ _ X B) in E. rewrite (path_inj f' f) by congruence. reflexivity.
  - intros g' l' x v C E. apply D in C. apply I in E. destruct E as [[<- [[= -> ->]|[E _]]]|[_ E]].
    + exists f. cbn. rewrite (A _ _ _ C B). auto.
    + destruct (S _ _ _ _ C E) as (f' & X & Y). exists f'. cbn. tauto.
    + destruct (S _ _ _ _ C E) as (f' & X & Y). exists f'. cbn. tauto.
  - intros g1 g2 l' C E. apply D in C. apply D in E. now apply (A g1 g2 l').
Qed.

(** A new group, in which nothing is yet: all clauses but the ones about [f] *)
Lemma built_group done h f g k : built done h -> path_of f = [g; k] -> str_get g (dict_entries h 0) = None ->
  built (f :: done) (put_at (put_at (snd (new_dict h [])) 0 g (VDict (length (h_dicts h)))) (length (h_dicts h)) k (function_of f)).
Proof.
  intros [L U T P G S A] F N0.
  set (n := length (h_dicts h)) in *. set (h1 := snd (new_dict h [])). set (h2 := put_at h1 0 g (VDict n)).
  assert (forall v, ~ In (VStr g, v) (dict_entries h 0)) as M by (intros v; now apply str_get_none).
  assert (forall l, NoDup (keys (dict_entries h1 l))) as U1 by (intros l; unfold h1; rewrite entries_new; apply U).
  assert (length (h_dicts h1) = Datatypes.S n) as L1 by apply new_length.
  assert (forall l, NoDup (keys (dict_entries h2 l))) as U2 by now apply put_keys.
  assert (length (h_dicts h2) = Datatypes.S n) as L2 by (unfold h2, put_at; now rewrite set_length).
  assert (forall e, In e (dict_entries h2 0) <-> e = (VStr g, VDict n) \/ In e (dict_entries h 0)) as E0.
  { intros e. unfold h2. rewrite put_in by (try assumption; lia). unfold h1. rewrite entries_new. split; [tauto|].
    intros [->|X]; [auto|]. left. split; [reflexivity|]. right. split; [exact X|]. destruct e as [a b]. cbn. intros ->. now apply M in X. }
  assert (forall l e, l <> 0 -> (In e (dict_entries h2 l) <-> In e (dict_entries h l))) as E1.
  { intros l e D. unfold h2. rewrite put_in by (try assumption; lia). unfold h1. rewrite !entries_new. split; [intros [[X _]|[_ X]]; [now destruct D|exact X]|]. intros X. right. split; [congruence|exact X]. }
  pose proof (fun l' e => put_in h2 n k (function_of f) l' e U2 ltac:(lia)) as I.
  assert (forall e, In e (dict_entries (put_at h2 n k (function_of f)) 0) <-> e = (VStr g, VDict n) \/ In e (dict_entries h 0)) as D.
  { intros e. rewrite I, E0. split; [intros [[X _]|[_ X]]; [lia|exact X]|]. intros X. right. split; [lia|exact X]. }
  assert (forall e, In e (dict_entries (put_at h2 n k (function_of f)) n) <-> e = (VStr k, function_of f)) as Dn.
  { intros e. rewrite I, E1 by lia. rewrite (entries_beyond h n) by (unfold n; lia). cbn [In]. split; [intros [[_ [X|[[] _]]]|[X _]]; [exact X|now destruct X]|]. auto. }
  assert (forall l e, l <> 0 -> l <> n -> (In e (dict_entries (put_at h2 n k (function_of f)) l) <-> In e (dict_entries h l))) as Dl.
  { intros l e X Y. rewrite I, !E1 by lia. split; [intros [[Q _]|[_ Q]]; [now destruct Y|exact Q]|]. intros Q. right. split; [congruence|exact Q]. }
  assert (forall g l, In (VStr g, VDict l) (dict_entries h 0) -> 0 < l < n) as Z.
  { intros g' l X. destruct (T _ _ X) as [(f' & _ & _ & [=])|(l' & f' & x & [= <-] & R & _)]. exact R. }
  constructor.
  - unfold put_at. rewrite set_length. fold h2. lia.
  - now apply put_keys.
  - intros k' v X. apply D in X. unfold put_at at 1. rewrite set_length, L2. destruct X as [[= -> ->]|X].
    + right. exists n, f, k. cbn. repeat split; auto; lia.
    + destruct (T _ _ X) as [(f' & C & E & H)|(l' & f' & x & C & E & H & H')]; [left; exists f'; cbn; auto|].
      right. exists l', f', x. cbn. repeat split; auto; lia.
  - intros f' k' [<-|C] E; [congruence|]. apply D. auto.
  - intros f' g' x [<-|C] E.
    + exists n. rewrite D, Dn. assert (g' = g) by congruence. assert (x = k) by congruence. subst. auto.
    + destruct (G _ _ _ C E) as (l' & X & Y). exists l'. split; [apply D; auto|]. apply Z in X. apply Dl; auto; lia.
  - intros g' l' x v C E. apply D in C. destruct C as [[= -> ->]|C].
    + apply Dn in E. injection E as -> ->. exists f. cbn. auto.
    + pose proof (Z _ _ C). apply Dl in E; [|lia|lia]. destruct (S _ _ _ _ C E) as (f' & X & Y). exists f'. cbn. tauto.
  - intros g1 g2 l' C E. apply D in C. apply D in E.
    destruct C as [C|C], E as [E|E].
    + congruence.
    + injection C as -> ->. apply Z in E. lia.
    + injection E as -> ->. apply Z in C. lia.
    + now apply (A g1 g2 l').
Qed.

Lemma add_built done h f : built done h -> exists h', lib_add f h = Some h' /\ built (f :: done) h'.
Proof.
  intros B. destruct (path_shape f) as [(k & E & N & T)|(g & k & E & N & N' & T)].
  - assert (lib_add f h = Some (put_at h 0 k (function_of f))) as R.
    { unfold lib_add. rewrite T. replace (prefix_of (bs "std.") (bs "std." ++ k)) with true by reflexivity.
      change (skipn 4 (bs "std." ++ k)) with k. now rewrite insert_last. }
    rewrite R. eexists. split; [reflexivity|]. now apply built_plain.
  - assert (lib_add f h = lib_insert g ([x2e] ++ k) (function_of f) 0 h) as R.
    { unfold lib_add. rewrite T. replace (prefix_of (bs "std.") (bs "std." ++ g ++ [x2e] ++ k)) with true by reflexivity.
      change (skipn 4 (bs "std." ++ g ++ [x2e] ++ k)) with (g ++ [x2e] ++ k). now rewrite insert_dot. }
    rewrite R. cbn [app lib_insert]. change (Byte.eqb x2e x2e) with true. cbv iota.
    destruct (str_get g (dict_entries h 0)) as [v|] eqn:Q.
    + apply str_get_in in Q; [|apply B]. destruct (b_top _ _ B _ _ Q) as [(f' & _ & P & _)|(l & f' & x & -> & _)].
      * now destruct (path_not_group f' f g k).
      * rewrite insert_last by exact N'. eexists. split; [reflexivity|]. now apply (built_put done h f g k l).
    + rewrite insert_last by exact N'. eexists. split; [reflexivity|]. now apply built_group.
Qed.
Lemma new_built order : forall done h, built done h -> exists h', lib_new order h = Some h' /\ built (rev order ++ done) h'.
Proof.
  induction order as [|f order IH]; intros done h B; [now exists h|].
  cbn [lib_new]. destruct (add_built done h f B) as (h1 & -> & B1). destruct (IH _ _ B1) as (h2 & -> & B2).
  exists h2. split; [reflexivity|]. cbn [rev]. now rewrite <- app_assoc.
Qed.

Lemma keys_once h l k v v' : NoDup (keys (dict_entries h l)) -> In (VStr k, v) (dict_entries h l) -> In (VStr k, v') (dict_entries h l) -> v = v'.
Proof. intros U A B. apply str_get_in in A; [|exact U]. apply str_get_in in B; [|exact U]. congruence. Qed.
Lemma built_holds done h : (forall f, In f done) -> built done h -> holds_library h 0.
Proof.
  intros C B. split; [|split].
  - intros path f I. apply in_library in I. destruct (path_shape f) as [(k & E & _)|(g & k & E & _)].
    + rewrite I, E. apply fo_last. now apply (b_plain _ _ B).
    + rewrite I, E. destruct (b_grouped _ _ B f g k (C f) E) as (l & X & Y). apply (fo_more _ _ _ l); [exact X|]. now apply fo_last.
  - intros path v v' X. revert v'. clear - X B.
    induction X as [l k v I|l k l' path v I X IH]; intros v' Y.
    + inversion Y as [? ? ? J|? ? ? ? ? J K]; subst; [|inversion K]. eapply keys_once; [apply (b_keys _ _ B)|eassumption|eassumption].
    + inversion Y as [? ? ? J|? ? l2 ? ? J K]; subst; [inversion X|].
      assert (VDict l' = VDict l2) as [= <-] by (eapply keys_once; [apply (b_keys _ _ B)|eassumption|eassumption]). now apply IH.
  - intros path v X. inversion X as [? k ? I|? g l path' ? I Y]; subst.
    + destruct (b_top _ _ B _ _ I) as [(f & _ & P & ->)|(l & f & x & -> & _ & _ & P)].
      * left. exists f. split; [|reflexivity]. now apply in_library.
      * right. split; [now exists l|]. exists x, f. apply in_library. now rewrite P.
    + inversion Y as [? k ? J|? k l' path2 ? J K]; subst.
      * destruct (b_group _ _ B _ _ _ _ I J) as (f & _ & P & ->). left. exists f. split; [|reflexivity]. now apply in_library.
      * destruct (b_group _ _ B _ _ _ _ I J) as (f & _ & _ & [=]).
Qed.

Lemma library_functions f : In f (map snd library).
Proof. apply (in_map snd _ (path_of f, f)). now apply in_library. Qed.
Lemma any_order order : Permutation order (map snd library) ->
  exists h, lib_new order empty_library = Some h /\ holds_library h 0.
Proof.
  intros P. destruct (new_built order [] empty_library built_empty) as (h & E & B). exists h. split; [exact E|].
  apply (built_holds (rev order ++ []) h); [|exact B]. intros f. rewrite app_nil_r. apply in_rev. rewrite rev_involutive.
  apply (Permutation_in f (Permutation_sym P)), library_functions.
Qed.

(** ** Names *)

Lemma native_named n : native_text n (native_name n).
Proof.
  destruct n as [f| | | | | | |[] p|]; try constructor.
  cbn [native_name]. rewrite dotted_name. constructor. now apply in_library.
Qed.
Lemma native_name_only n t : native_text n t -> t = native_name n.
Proof.
  intros H. destruct H; try reflexivity. apply in_library in H. subst. symmetry. apply dotted_name.
Qed.
