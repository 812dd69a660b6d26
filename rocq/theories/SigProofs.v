(** Proofs about the arguments and effects of the library functions. *)
From Coq Require Import Strings.String Lia.
From Verif Require Import Base Lexer Ast Program Value Text Json StdLib SpecSig SpecRun JsonProofs.

Section Sig.
Context {W : Type}.
Variable X : ext W.

Ltac peel := match goal with |- context [match ?x with _ => _ end] => is_var x; destruct x; try discriminate end.

Lemma count_wrong n ra f args p h w : direct f -> length args <> length (takes f args) ->
  std_call X n ra f args p h w = Pan (PInvalidArgs (length args) (length (takes f args)) p) (h, w).
Proof.
  intros [D1 D2] L. destruct f; try congruence; cbn [std_call];
    try (cbn [takes] in L; rewrite map_length in L; now destruct L); unfold typecheck, takes in *; repeat peel; cbn [length] in *; try reflexivity; try (now destruct L).
Qed.
(** Which argument is the first that is wrong *)
Lemma wrong_cases ks args v t : first_wrong ks args v t ->
  match ks, args with
  | k :: ks', a :: r => (k_fits k a = false /\ v = a /\ t = k_name k) \/ (k_fits k a = true /\ first_wrong ks' r v t)
  | _, _ => False
  end.
Proof. intros H. destruct H; auto. Qed.
Lemma any_never_wrong args v t : ~ first_wrong (map (fun _ => any_value) args) args v t.
Proof. induction args as [|a args IH]; intros H; apply wrong_cases in H; [exact H|]. cbn in H. destruct H as [[H _]|[_ H]]; [discriminate|auto]. Qed.

Ltac wrongs := repeat match goal with
  | H : first_wrong _ _ _ _ |- _ => apply wrong_cases in H; try destruct H as [(? & ? & ?)|(? & ?)]; try contradiction; subst
  end.
Ltac kinds := cbn [k_fits k_name a_bool a_char an_int a_string an_array a_function a_number readable sized any_value] in *.

Lemma type_wrong n ra f args p h w v t : direct f -> f <> SSubstr -> f <> SRandInt -> length args = length (takes f args) ->
  first_wrong (takes f args) args v t -> std_call X n ra f args p h w = Pan (PTypeError v t p) (h, w).
Proof.
  intros [D1 D2] D3 D4 L F. destruct f; try congruence; cbn [std_call]; unfold typecheck, range, takes in *.
  all: try (now apply any_never_wrong in F).
  all: destruct args as [|a [|b [|c [|d r]]]]; try discriminate L; clear L; wrongs; kinds; try discriminate.
  all: repeat peel; try reflexivity; discriminate.
Qed.
Lemma fitting_or_wrong ks : forall args, length args = length ks ->
  Forall2 (fun k v => k_fits k v = true) ks args \/ exists v t, first_wrong ks args v t.
Proof.
  induction ks as [|k ks IH]; intros [|a args] L; try discriminate; [left; constructor|]. destruct (k_fits k a) eqn:F; [|right; eauto using fw_here].
  destruct (IH args) as [H|(v & t & H)]; [now injection L|left; now constructor|right; eauto using fw_later].
Qed.
Lemma unfitting n ra f args p h w : direct f -> ~ fitting f args -> exists q, std_call X n ra f args p h w = Pan q (h, w).
Proof.
  intros D N. destruct (Nat.eq_dec (length args) (length (takes f args))) as [L|L]; [|rewrite count_wrong; eauto].
  destruct (fitting_or_wrong _ _ L) as [F|(v & t & F)]; [contradiction|].
  destruct (match f with SSubstr | SRandInt => true | _ => false end) eqn:E.
  - destruct f; try discriminate; cbn [std_call takes] in *.
    + destruct args as [|a [|b [|c r]]]; try discriminate. repeat peel; eauto. all: exfalso; wrongs; discriminate.
    + destruct args as [|a [|b [|c [|d r]]]]; try discriminate. repeat peel; eauto. all: exfalso; wrongs; discriminate.
  - exists (PTypeError v t p). apply type_wrong; try assumption; intros ->; discriminate.
Qed.
Lemma fits_cons k ks v vs : Forall2 (fun k v => k_fits k v = true) (k :: ks) (v :: vs) -> k_fits k v = true /\ Forall2 (fun k v => k_fits k v = true) ks vs.
Proof. intros H. now inversion H. Qed.
Lemma fitting_fine n ra f args p h w q s : direct f -> f <> STypecheck -> fitting f args -> std_call X n ra f args p h w = Pan q s -> ~ about_arguments q.
Proof.
  intros [D1 D2] D3 F E A. unfold fitting in F. destruct f; try congruence; cbn [std_call] in E.
  all: unfold takes, typecheck, range, print, read, iteration in *.
  all: repeat match goal with F : Forall2 _ (_ :: _) ?a |- _ => destruct a; [inversion F|]; apply fits_cons in F; destruct F as [? F] | F : Forall2 _ [] ?a |- _ => destruct a; [clear F|inversion F] end; kinds.
  all: repeat match type of E with
       | context [match ?x with _ => _ end] => destruct x eqn:?; try discriminate
       end; try (injection E as <- <-; contradiction).
  all: unfold walked in E; repeat match type of E with context [match ?x with _ => _ end] => destruct x eqn:?; try discriminate end; try (injection E as <- <-; contradiction).
  all: try discriminate. all: try (match goal with H : ?x = true, K : negb ?x = true |- _ => rewrite H in K; discriminate end).
  all: try (inversion F as [|? ? ? ? K F']; subst; try discriminate K; inversion F').
  destruct v0; try discriminate H0. destruct (type_parse s0); [discriminate|]. injection Heqs0 as <-. injection E as <- <-. exact A.
Qed.

(** ** Effects *)
Lemma list_set_length {A} (l : list A) n x : length (list_set l n x) = length l.
Proof. revert n. induction l as [|y l IH]; intros [|n]; cbn; auto. Qed.
Lemma list_set_other {A} (l : list A) n m x : n <> m -> nth_error (list_set l n x) m = nth_error l m.
Proof. revert n m. induction l as [|y l IH]; intros [|n] [|m] N; cbn; try reflexivity; [now destruct N|]. apply IH. congruence. Qed.
Lemma only_refl f args h : only_changes f args h h.
Proof. repeat split; [exists []|exists []|]; try (now rewrite app_nil_r); auto. Qed.
Lemma only_arr f args h a : only_changes f args h (snd (new_arr h a)).
Proof.
  repeat split; cbn; [exists []|exists []| |]; try (now rewrite app_nil_r); [rewrite app_length; lia|]. intros l L _. now apply nth_error_app1.
Qed.
Lemma only_dict f args h a : only_changes f args h (snd (new_dict h a)).
Proof. repeat split; cbn; [exists [a]|exists []|]; try (now rewrite app_nil_r); auto. Qed.
Lemma only_iter f args h a : only_changes f args h (snd (new_iter h a)).
Proof. repeat split; cbn; [exists []|exists [a]|]; try (now rewrite app_nil_r); auto. Qed.
Lemma only_set f r h l a : f = SPush \/ f = SPop \/ f = SSort -> only_changes f (VArr l :: r) h (arr_set h l a).
Proof.
  intros F. repeat split; cbn; [exists []|exists []| |]; try (now rewrite app_nil_r); [now rewrite list_set_length|].
  intros m L N. apply list_set_other. intros ->. apply N. split; [exact F|eauto].
Qed.
Lemma only_adds f args h v h' : adds_data h v h' -> only_changes f args h h'.
Proof.
  intros (a & d & -> & _). repeat split; cbn; [exists d|exists []| |]; try reflexivity; try (now rewrite app_nil_r); [rewrite app_length; lia|]. intros l L _. now apply nth_error_app1.
Qed.

Lemma left_ok f args h (w : W) v : left_as f args h w (Val v (h, w)).
Proof. split; [apply only_refl|reflexivity]. Qed.
Lemma left_pan f args h (w : W) q : left_as f args h w (Pan q (h, w)).
Proof. split; reflexivity. Qed.
Lemma left_walked {A} f args h (w : W) (r : walk A) (k : A -> res (W := W)) : (forall a, left_as f args h w (k a)) -> left_as f args h w (walked r k).
Proof. intros H. destruct r; cbn [walked]; [apply H|exact I|exact I]. Qed.
Lemma left_world f args h (w : W) v w' : reaches_out f -> left_as f args h w (Val v (h, w')).
Proof. split; [apply only_refl|contradiction]. Qed.
Lemma left_pan_world f args h (w : W) q w' : reaches_out f -> left_as f args h w (Pan q (h, w')).
Proof. split; [reflexivity|contradiction]. Qed.
Lemma left_val f args h h' (w : W) v : only_changes f args h h' -> left_as f args h w (Val v (h', w)).
Proof. split; [assumption|reflexivity]. Qed.

Ltac leave := first [apply left_ok | apply left_pan | apply left_walked; intros | apply left_val; first [apply only_arr | apply only_dict | apply only_iter | apply only_set; auto]
  | apply left_world; unfold reaches_out; cbn; tauto | apply left_pan_world; unfold reaches_out; cbn; tauto | exact I | (split; reflexivity)].
Lemma call_leaves n ra f args p h w : left_as f args h w (std_call X n ra f args p h w).
Proof.
  destruct f; cbn [std_call]; unfold typecheck, print, read; repeat peel; try leave.
  all: unfold range, new_arr, new_dict, new_iter; try leave.
  all: repeat match goal with |- left_as _ _ _ _ ?r => match r with context [match ?x with _ => _ end] => destruct x eqn:? end end; try leave.
  all: repeat match goal with H : match ?x with _ => _ end = _ |- _ => destruct x eqn:?; try discriminate end.
  - apply from_json_adds in Heqo. apply left_val. eapply only_adds, Heqo.
  - apply left_ok.
Qed.
End Sig.
