(** Symbols and names correspond. *)
From Coq Require Import Strings.String.
From Verif Require Import Base Text Lexer Ast Value StdLib AstFmt Interner SpecLexer SpecFirst SpecInterner LexerProofs LexerCleanProofs.
From Coq Require Import Lia.

Definition agrees (s : interner) : Prop :=
  length (in_map s) = length (in_names s) /\ NoDup (in_names s) /\
  forall name id, assoc_bytes name (in_map s) = Some id <-> nth_error (in_names s) (N.to_nat id) = Some name.

Lemma intern_ok s name id s' : agrees s -> intern s name = Some (id, s') ->
  agrees s' /\ resolve_symbol s' id = Some name /\ exists l, in_names s' = in_names s ++ l.
Proof.
  intros (L & D & H) E. unfold intern in E. destruct (assoc_bytes name (in_map s)) as [i|] eqn:A.
  - injection E as <- <-. split; [split; [exact L|split; [exact D|exact H]]|]. split; [now apply H|]. exists []. now rewrite app_nil_r.
  - destruct (_ <? _)%N; [|discriminate]. injection E as <- <-.
    assert (N : ~ In name (in_names s)).
    { intros I. destruct (In_nth_error _ _ I) as [k K]. assert (X : assoc_bytes name (in_map s) = Some (N.of_nat k)) by (apply H; now rewrite Nnat.Nat2N.id). congruence. }
    unfold resolve_symbol. cbn [in_names in_map]. split; [split; [|split]|split].
    + cbn. rewrite app_length. cbn. lia.
    + cbn. clear - D N. induction (in_names s) as [|x l IH]; cbn in *; [repeat constructor; auto|]. inversion D; subst. constructor; [|apply IH; tauto].
      intros I. apply in_app_or in I. destruct I as [I|[I|[]]]; [contradiction|]. subst. tauto.
    + cbn. intros name' id'. destruct (bytes_eqb name' name) eqn:E.
      * apply bytes_eqb_eq in E. subst name'. split.
        -- intros X. injection X as <-. rewrite Nnat.Nat2N.id, L, nth_error_app2 by lia. now rewrite Nat.sub_diag.
        -- intros X. f_equal. destruct (Nat.lt_ge_cases (N.to_nat id') (length (in_names s))) as [C|C].
           ++ rewrite nth_error_app1 in X by exact C. destruct (N (nth_error_In _ _ X)).
           ++ rewrite nth_error_app2 in X by exact C. destruct (N.to_nat id' - length (in_names s)) as [|k] eqn:K; [|destruct k; discriminate].
              rewrite L. lia.
      * rewrite H. split; intros X.
        -- rewrite nth_error_app1; [exact X|]. apply nth_error_Some. congruence.
        -- destruct (Nat.lt_ge_cases (N.to_nat id') (length (in_names s))) as [C|C]; [now rewrite nth_error_app1 in X by exact C|].
           rewrite nth_error_app2 in X by exact C. destruct (N.to_nat id' - length (in_names s)) as [|k]; [|destruct k; discriminate].
           injection X as ->. assert (bytes_eqb name' name' = true) by now apply bytes_eqb_eq. congruence.
    + rewrite Nnat.Nat2N.id, L, nth_error_app2 by lia. now rewrite Nat.sub_diag.
    + eauto.
Qed.
Lemma agrees_new s : interner_new = Some s -> agrees s /\ in_names s = [ill_symbol].
Proof.
  unfold interner_new. destruct (intern (mkinterner [] []) (bs "<invalid symbol>")) as [[id s0]|] eqn:E; [|discriminate]. intros X. injection X as <-.
  split; [|vm_compute in E; injection E as _ <-; reflexivity]. eapply intern_ok; [|exact E].
  split; [reflexivity|]. split; [constructor|]. intros name i. cbn. split; [discriminate|]. destruct (N.to_nat i); discriminate.
Qed.
Lemma longer s s' id name : (exists l, in_names s' = in_names s ++ l) -> resolve_symbol s id = Some name -> resolve_symbol s' id = Some name.
Proof. intros [l E] R. unfold resolve_symbol in *. rewrite E, nth_error_app1; [exact R|]. apply nth_error_Some. congruence. Qed.
Lemma get_all_ok names : forall s ids s', agrees s -> get_all s names = Some (ids, s') ->
  agrees s' /\ (exists l, in_names s' = in_names s ++ l) /\ Forall2 (fun name id => resolve_symbol s' id = Some name) names ids.
Proof.
  induction names as [|name names IH]; cbn; intros s ids s' A E.
  - injection E as <- <-. split; [exact A|]. split; [exists []; now rewrite app_nil_r|constructor].
  - unfold get_or_intern in E. destruct (intern s name) as [[id s1]|] eqn:I; [|discriminate]. destruct (get_all s1 names) as [[ids1 s2]|] eqn:G; [|discriminate].
    injection E as <- <-. destruct (intern_ok _ _ _ _ A I) as (A1 & R & [l1 L1]). destruct (IH _ _ _ A1 G) as (A2 & [l2 L2] & F).
    split; [exact A2|]. split; [exists (l1 ++ l2); rewrite L2, L1, app_assoc; reflexivity|]. constructor; [|exact F]. eapply longer; [|exact R]. eauto.
Qed.
Lemma symbols_agree names ids s : symbols_of names = Some (ids, s) ->
  agrees s /\ (exists l, in_names s = ill_symbol :: l) /\ Forall2 (fun name id => resolve_symbol s id = Some name) names ids.
Proof.
  unfold symbols_of. destruct interner_new as [s0|] eqn:N; [|discriminate]. intros G. destruct (agrees_new _ N) as [A E].
  destruct (get_all_ok _ _ _ _ A G) as (A' & [l L] & F). split; [exact A'|]. split; [exists l; now rewrite L, E|exact F].
Qed.
Lemma Forall2_nth {A B} (R : A -> B -> Prop) l l' : Forall2 R l l' -> forall i a b, nth_error l i = Some a -> nth_error l' i = Some b -> R a b.
Proof. induction 1; intros [|i] a b Ha Hb; cbn in *; try discriminate; [now injection Ha as <-; injection Hb as <-|eauto]. Qed.
Lemma resolve_inj s i j name : agrees s -> resolve_symbol s i = Some name -> resolve_symbol s j = Some name -> i = j.
Proof.
  intros (_ & _ & H) X Y. apply H in X. apply H in Y. congruence.
Qed.

Lemma symbols_correspond names ids s : symbols_of names = Some (ids, s) ->
  Forall2 (fun name id => resolve_symbol s id = Some name) names ids /\
  (forall i j a b x y, nth_error names i = Some a -> nth_error ids i = Some x -> nth_error names j = Some b -> nth_error ids j = Some y -> (a = b <-> x = y)).
Proof.
  intros G. destruct (symbols_agree _ _ _ G) as (A & _ & F). split; [exact F|]. intros i j a b x y Ha Hx Hb Hy.
  pose proof (Forall2_nth _ _ _ F _ _ _ Ha Hx) as Rx. pose proof (Forall2_nth _ _ _ F _ _ _ Hb Hy) as Ry. split; intros E; subst.
  - eapply resolve_inj; eassumption.
  - congruence.
Qed.
Lemma get_all_app a : forall s b, get_all s (a ++ b) =
  match get_all s a with Some (ids, s1) => match get_all s1 b with Some (jds, s2) => Some (ids ++ jds, s2) | None => None end | None => None end.
Proof.
  induction a as [|x a IH]; intros s b; cbn; [destruct (get_all s b) as [[? ?]|]; reflexivity|].
  destruct (get_or_intern s x) as [[id s1]|]; [|reflexivity]. rewrite IH. destruct (get_all s1 a) as [[ids s2]|]; [|reflexivity].
  destruct (get_all s2 b) as [[? ?]|]; reflexivity.
Qed.
Lemma symbols_stay names ids s more all s' : symbols_of names = Some (ids, s) -> symbols_of (names ++ more) = Some (all, s') ->
  (exists l, all = ids ++ l) /\ forall id name, resolve_symbol s id = Some name -> resolve_symbol s' id = Some name.
Proof.
  intros G G'. destruct (symbols_agree _ _ _ G) as (A & _ & _). unfold symbols_of in *. destruct interner_new as [s0|]; [|discriminate].
  rewrite get_all_app, G in G'. destruct (get_all s more) as [[l s2]|] eqn:M; [|discriminate]. injection G' as <- <-.
  split; [eauto|]. intros id name. apply longer. apply (get_all_ok _ _ _ _ A M).
Qed.

(** Numbers of 32 bits *)
Definition small (s : interner) : Prop := (N.of_nat (length (in_map s)) <= 4294967296)%N.
Lemma intern_small s name id s' : agrees s -> small s -> intern s name = Some (id, s') -> small s' /\ (id < 4294967296)%N.
Proof.
  intros A S E. pose proof (intern_ok _ _ _ _ A E) as ((L & _ & _) & R & _). unfold intern, small in *. destruct (assoc_bytes name (in_map s)) eqn:M.
  - injection E as -> <-. split; [exact S|]. unfold resolve_symbol in R. assert (N.to_nat id < length (in_names s)) by (apply nth_error_Some; congruence).
    destruct A as (L' & _). lia.
  - destruct (N.ltb_spec (N.of_nat (length (in_map s))) 4294967296); [|discriminate]. injection E as <- <-. cbn [in_map length]. lia.
Qed.
Lemma get_all_small names : forall s ids s', agrees s -> small s -> get_all s names = Some (ids, s') -> Forall (fun id => (id < 4294967296)%N) ids.
Proof.
  induction names as [|name names IH]; cbn; intros s ids s' A S E; [injection E as <- <-; constructor|].
  unfold get_or_intern in E. destruct (intern s name) as [[id s1]|] eqn:I; [|discriminate]. destruct (get_all s1 names) as [[ids1 s2]|] eqn:G; [|discriminate].
  injection E as <- <-. destruct (intern_small _ _ _ _ A S I) as [S1 B]. constructor; [exact B|]. eapply IH; [|exact S1|exact G]. eapply intern_ok; eassumption.
Qed.
Lemma symbols_small names ids s : symbols_of names = Some (ids, s) -> Forall (fun id => (id < 4294967296)%N) ids.
Proof.
  unfold symbols_of. destruct interner_new as [s0|] eqn:N; [|discriminate]. destruct (agrees_new _ N) as [A E]. apply get_all_small; [exact A|].
  destruct A as (L & _ & _). unfold small. rewrite L, E. cbn. lia.
Qed.

(** Room for all *)
Lemma map_few s few : agrees s -> (forall n, In n (in_names s) -> In n few) -> length (in_map s) <= length few.
Proof. intros (L & D & _) I. rewrite L. apply NoDup_incl_length; [exact D|exact I]. Qed.
Lemma get_all_some few names : (N.of_nat (length few) <= 4294967296)%N -> forall s, agrees s -> (forall n, In n (in_names s) -> In n few) ->
  (forall n, In n names -> In n few) -> exists ids s', get_all s names = Some (ids, s').
Proof.
  intros Few. induction names as [|name names IH]; cbn; intros s A I F; [eauto|].
  assert (X : exists id s1, intern s name = Some (id, s1) /\ forall n, In n (in_names s1) -> In n few).
  { unfold intern. destruct (assoc_bytes name (in_map s)) eqn:E; [eauto|].
    assert (Lt : length (in_map s) < length few).
    { assert (N : ~ In name (in_names s)).
      { intros J. destruct A as (_ & _ & H). destruct (In_nth_error _ _ J) as [k K].
        assert (X : assoc_bytes name (in_map s) = Some (N.of_nat k)) by (apply H; now rewrite Nnat.Nat2N.id). congruence. }
      destruct A as (L & D & _). rewrite L. apply (NoDup_incl_length (l := name :: in_names s)); [constructor; assumption|].
      intros n [<-|J]; [apply F; now left|now apply I]. }
    destruct (N.ltb_spec (N.of_nat (length (in_map s))) 4294967296); [|lia]. eexists _, _. split; [reflexivity|]. cbn [in_names].
    intros n J. apply in_app_or in J. destruct J as [J|[<-|[]]]; auto. }
  destruct X as (id & s1 & E & I1). unfold get_or_intern. rewrite E. destruct (intern_ok _ _ _ _ A E) as (A1 & _).
  destruct (IH s1 A1 I1 ltac:(auto)) as (ids & s' & ->). eauto.
Qed.
Lemma room_enough names few : (forall n, In n names -> In n few) -> (N.of_nat (length few) < 4294967296)%N -> symbols_of names <> None.
Proof.
  intros I L. unfold symbols_of. destruct interner_new as [s0|] eqn:N; [|vm_compute in N; discriminate]. destruct (agrees_new _ N) as [A E].
  destruct (get_all_some (ill_symbol :: few) names ltac:(cbn [length]; lia) s0 A) as (ids & s' & ->).
  - rewrite E. cbn. tauto.
  - intros n J. right. auto.
  - discriminate.
Qed.

(** The dummy *)
Lemma symbol_zero names ids s i name id : symbols_of names = Some (ids, s) -> nth_error names i = Some name -> nth_error ids i = Some id ->
  id = default_symbol <-> name = ill_symbol.
Proof.
  intros G Hn Hi. destruct (symbols_agree _ _ _ G) as (A & [l L] & F). pose proof (Forall2_nth _ _ _ F _ _ _ Hn Hi) as R.
  assert (Z : resolve_symbol s default_symbol = Some ill_symbol) by (unfold resolve_symbol; rewrite L; reflexivity).
  split; intros ->; [congruence|]. eapply resolve_inj; eassumption.
Qed.
Lemma named_plain src name : named_in src name -> plain_name name.
Proof.
  intros (t & I & H). assert (P : plain_token t).
  { pose proof (lex_plain src) as F. unfold source_tokens in I. apply in_flat_map in I. destruct I as (o & Io & It).
    rewrite Forall_forall in F. specialize (F o Io). destruct o; [|destruct It]. destruct It as [<-|[]]. exact F. }
  unfold token_has in H. unfold plain_token in P. destruct (tk_kind t); try (destruct H; fail).
  - now subst.
  - destruct H as (x & Ix & Hx). rewrite Forall_forall in P. specialize (P x Ix). destruct x as [u| |us| |]; cbn in *; try contradiction.
    + destruct Hx as [p ->]. exact P.
    + destruct Hx as (u & Iu & p & ->). rewrite Forall_forall in P. exact (P _ Iu).
Qed.
Lemma named_shown {W} (X : ext W) src name names ids s i id : named_in src name -> symbols_of names = Some (ids, s) ->
  nth_error names i = Some name -> nth_error ids i = Some id -> id <> default_symbol /\ symbol_fmt X s id = symbol_text X name.
Proof.
  intros N G Hn Hi. assert (D : id <> default_symbol).
  { intros E. apply (symbol_zero _ _ _ _ _ _ G Hn Hi) in E. subst name. apply named_plain in N. unfold plain_name in N. vm_compute in N. inversion N. discriminate. }
  split; [exact D|]. unfold symbol_fmt. destruct (N.eqb_spec id default_symbol); [contradiction|].
  destruct (symbols_agree _ _ _ G) as (_ & _ & F). now rewrite (Forall2_nth _ _ _ F _ _ _ Hn Hi).
Qed.
