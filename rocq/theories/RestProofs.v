(** Regular expressions and the small functions of the library. *)
From Coq Require Import Strings.String Lia.
From Verif Require Import Base Lexer Ast Program Value Text Json StdLib Exec Runtime SpecSig SpecShow SpecRest TextProofs.

Lemma list_ext {A} (a b : list A) : (forall i, nth_error a i = nth_error b i) -> a = b.
Proof.
  revert b. induction a as [|x a IH]; intros [|y b] H; [reflexivity|specialize (H 0); discriminate|specialize (H 0); discriminate|].
  f_equal; [specialize (H 0); cbn in H; congruence|]. apply IH. intros i. exact (H (S i)).
Qed.
Lemma one_more {A} (a b : list A) l x : nth_error a l = None -> nth_error b l = Some x ->
  (forall i, i <> l -> nth_error b i = nth_error a i) -> l = length a /\ b = a ++ [x].
Proof.
  intros N S O. apply nth_error_None in N. assert (E : l = length a).
  { destruct (Nat.eq_dec l (length a)) as [E|D]; [exact E|]. exfalso.
    assert (H : nth_error b l <> None) by congruence. apply nth_error_Some in H.
    assert (H2 : nth_error b (length a) = None) by (rewrite O by lia; apply nth_error_None; lia). apply nth_error_None in H2. lia. }
  split; [exact E|]. apply list_ext. intros i. destruct (Nat.eq_dec i l) as [->|D].
  - rewrite S, nth_error_app2, E, Nat.sub_diag by lia. reflexivity.
  - rewrite O by exact D. destruct (Nat.lt_ge_cases i (length a)) as [H|H]; [rewrite nth_error_app1 by exact H; reflexivity|].
    rewrite nth_error_app2 by exact H. destruct (i - length a) as [|k] eqn:K; [lia|]. cbn. destruct k; apply nth_error_None; lia.
Qed.
Lemma new_array_only h h' v items : new_array h h' v items -> new_arr h items = (v, h').
Proof.
  intros (l & -> & N & S & O & C & D & I). destruct (one_more _ _ _ _ N S O) as [-> E]. unfold new_arr.
  destruct h' as [c a d i]. cbn in *. subst. reflexivity.
Qed.
Lemma new_arr_array h items : new_array h (snd (new_arr h items)) (fst (new_arr h items)) items.
Proof.
  cbn. exists (length (h_arrs h)). split; [reflexivity|]. split; [apply nth_error_None; lia|].
  split; [cbn; rewrite nth_error_app2, Nat.sub_diag by lia; reflexivity|]. split; [|auto].
  intros l' D. cbn. destruct (Nat.lt_ge_cases l' (length (h_arrs h))) as [H|H]; [rewrite nth_error_app1 by exact H; reflexivity|].
  rewrite nth_error_app2 by exact H. rewrite (proj2 (nth_error_None (h_arrs h) l') H). destruct (l' - length (h_arrs h)) as [|k] eqn:K; [lia|]. destruct k; reflexivity.
Qed.
Lemma new_dict_dictionary h items : new_dictionary h (snd (new_dict h items)) (fst (new_dict h items)) items.
Proof.
  cbn. exists (length (h_dicts h)). split; [reflexivity|]. split; [apply nth_error_None; lia|].
  split; [cbn; rewrite nth_error_app2, Nat.sub_diag by lia; reflexivity|]. split; [|auto].
  intros l' D. cbn. destruct (Nat.lt_ge_cases l' (length (h_dicts h))) as [H|H]; [rewrite nth_error_app1 by exact H; reflexivity|].
  rewrite nth_error_app2 by exact H. rewrite (proj2 (nth_error_None (h_dicts h) l') H). destruct (l' - length (h_dicts h)) as [|k] eqn:K; [lia|]. destruct k; reflexivity.
Qed.

(** ** Regular expressions *)

Section Regex.
Context {W : Type}.
Variable X : ext W.

Lemma regex_made n ra pattern p h (w : W) :
  (forall e, x_regex_check X pattern = Some e ->
     std_call X n ra SRegex [VStr pattern] p h w = Val (VErr (bs "invalid regex") (VStr e)) (h, w)) /\
  (x_regex_check X pattern = None -> exists d h',
     std_call X n ra SRegex [VStr pattern] p h w = Val d (h', w) /\
     new_dictionary h h' d (map (fun m => (VStr (fst m), VFun (FRust (NRegex (snd m) pattern)))) regex_methods) /\
     forall name f k op fp (s : state W), In (name, f) regex_methods -> st_heap s = h' ->
       access (S k) d op (VStr name) fp s = Val (VFun (FRust (NRegex f pattern))) s).
Proof.
  split.
  - intros e E. cbn. rewrite E. reflexivity.
  - intros E. eexists _, _. split; [cbn; rewrite E; reflexivity|]. split.
    2: { intros name f k op fp s I Es. unfold access, get, bind. rewrite Es. unfold dict_get, dict_entries. cbn [h_dicts]. rewrite app_nth2, Nat.sub_diag by lia.
         destruct I as [I|[I|[I|[]]]]; injection I as <- <-; reflexivity. }
    apply (new_dict_dictionary h (map (fun m => (VStr (fst m), VFun (FRust (NRegex (snd m) pattern)))) regex_methods)).
Qed.

Lemma regex_method n ra f pattern texts p h (w : W) v h' : regex_answer X pattern h f texts v h' ->
  native_call X n ra (NRegex f pattern) (map VStr texts) p h w = Val v (h', w).
Proof.
  intros H. destruct H as [s|s v h' H|s r]; cbn; [reflexivity| |reflexivity].
  apply new_array_only in H. unfold new_arr in H. injection H as <- <-. reflexivity.
Qed.

Lemma regex_refused n ra f pattern args p h (w : W) :
  (length args <> length (regex_takes f) ->
     native_call X n ra (NRegex f pattern) args p h w = Pan (PInvalidArgs (length args) (length (regex_takes f)) p) (h, w)) /\
  (forall v t, length args = length (regex_takes f) -> first_wrong (regex_takes f) args v t ->
     native_call X n ra (NRegex f pattern) args p h w = Pan (PTypeError v t p) (h, w)).
Proof.
  split.
  - intros L. cbn [native_call]. destruct f; cbn [regex_takes length] in *; unfold regex_call; cbv zeta;
      (destruct args as [|a [|b [|c args]]]; cbn [length] in *; try congruence); try reflexivity; destruct a; try reflexivity; destruct b; reflexivity.
  - intros v t L F. cbn [native_call]. destruct f; cbn [regex_takes length] in *; unfold regex_call; cbv zeta;
      (destruct args as [|a [|b [|c args]]]; cbn [length] in *; try discriminate L).
    + inversion F as [? ? ? ? E|? ? ? ? ? ? E F']; subst; [|inversion F']. destruct v; try discriminate E; reflexivity.
    + inversion F as [? ? ? ? E|? ? ? ? ? ? E F']; subst; [|inversion F']. destruct v; try discriminate E; reflexivity.
    + inversion F as [? ? ? ? E|? ? ? ? ? ? E F']; subst; [destruct v; try discriminate E; reflexivity|].
      destruct a; try discriminate E. inversion F' as [? ? ? ? E'|? ? ? ? ? ? E' F'']; subst; [|inversion F'']. destruct v; try discriminate E'; reflexivity.
Qed.

(** ** The small functions *)

Lemma small_answer n ra f args p h (w : W) o : answers X p f args (h, w) o -> std_call X n ra f args p h w = o.
Proof.
  intros H. remember (h, w) as s eqn:Es. revert h w Es.
  induction H; intros h0 w0 Es; try (injection Es as <- <-); try subst s; cbn [std_call];
    repeat match goal with
      | H : new_array _ _ _ _ |- _ => apply new_array_only in H; unfold new_arr in H; injection H as <- <-
      end; try reflexivity.
  - rewrite H. reflexivity.
  - rewrite H. reflexivity.
  - rewrite H. reflexivity.
  - rewrite H. reflexivity.
  - rewrite H. unfold new_arr. reflexivity.
  - rewrite H. reflexivity.
  - rewrite H. reflexivity.
  - rewrite (proj2 (Z.leb_le a b) H), H0. reflexivity.
  - unfold read. rewrite H. reflexivity.
  - unfold read. rewrite H. reflexivity.
  - rewrite H. exact (IHanswers h w1 eq_refl).
  - rewrite H. reflexivity.
  - rewrite (proj2 (Z.ltb_ge z 0) H). reflexivity.
  - rewrite (proj2 (Z.ltb_lt z 0) H). reflexivity.
Qed.

(** ** Error values *)

Lemma error_fields n ra d c p h (w : W) :
  exists e, std_call X n ra SError [VStr d; c] p h w = Val e (h, w) /\
    (forall m op fp (s : state W), access m e op (VStr (bs "description")) fp s = Val (VStr d) s) /\
    (forall m op fp (s : state W), access m e op (VStr (bs "context")) fp s = Val c s) /\
    (forall m op fp (s : state W) k, k <> VStr (bs "description") -> k <> VStr (bs "context") ->
       access m e op k fp s = Pan (PIndexOutOfBounds k fp) s).
Proof.
  exists (VErr d c). split; [reflexivity|]. split; [reflexivity|]. split; [reflexivity|].
  intros m op fp s k N1 N2. 
  assert (G : error_get d c k = None); [|unfold access, get, bind; rewrite G; reflexivity].
  unfold error_get. destruct k as [| | | | |t| | | |]; try reflexivity.
  destruct (bytes_eqb t (bs "description")) eqn:E1; [apply bytes_eqb_eq in E1; subst t; congruence|].
  destruct (bytes_eqb t (bs "context")) eqn:E2; [apply bytes_eqb_eq in E2; subst t; congruence|reflexivity].
Qed.
End Regex.
