(** Proofs about showing, printing, encoding and decoding in the standard library. *)
From Coq Require Import Strings.String Lia Sorting.Permutation.
From Verif Require Import Base Ast Value Json StdLib SpecText SpecLib SpecRun SpecShow SpecJson FuelProofs ShowProofs JsonProofs Utf8Proofs JsonFactsProofs.

Section Print.
Context {W : Type}.
Variable X : ext W.

Lemma show_not_busy h n v : show X n h v <> Busy.
Proof.
  assert (I : forall A (f : A -> walk bytes) l, (forall x, f x <> Busy) -> items_text f l <> Busy).
  { intros A f l F. unfold items_text. match goal with |- ?g true _ <> _ => set (go := g) end.
    assert (G : forall b, go b l <> Busy); [|apply G]. induction l as [|x l IH]; intros b; [discriminate|].
    unfold go. destruct (f x) as [t| |] eqn:Q; [|now apply F in Q|discriminate]. cbn [wbind]. fold go.
    destruct (go false l) eqn:R; [discriminate|now apply IH in R|discriminate]. }
  revert v. induction n as [|n IH]; intros v; [discriminate|]. cbn [show]. destruct v; try discriminate.
  - pose proof (I _ (show X n h) (arr_get h l) IH) as N. destruct (items_text _ _); [discriminate|congruence|discriminate].
  - match goal with |- wbind (items_text ?f ?l) _ <> _ => assert (N : items_text f l <> Busy) end.
    + apply I. intros [k v]. cbn [fst snd]. pose proof (IH k). pose proof (IH v). destruct (show X n h k); [|congruence|discriminate].
      cbn [wbind]. destruct (show X n h v); [discriminate|congruence|discriminate].
    + destruct (items_text _ _); [discriminate|congruence|discriminate].
  - destruct f; discriminate.
  - specialize (IH v). destruct (show X n h v); [discriminate|congruence|discriminate].
Qed.

Lemma to_string_call ra v p h w :
  (forall r, (exists n, std_call X n ra SToString [v] p h w = r /\ r <> Fuel) <->
     exists t, r = Val (VStr t) (h, w) /\ (v = VStr t \/ (forall s, v <> VStr s) /\ shown X h v t)) /\
  (some_order X -> showable h v -> exists n, std_call X n ra SToString [v] p h w <> Fuel).
Proof.
  assert (G : forall r, (exists n, std_call X n ra SToString [v] p h w = r /\ r <> Fuel) <->
     exists t, r = Val (VStr t) (h, w) /\ (v = VStr t \/ (forall s, v <> VStr s) /\ shown X h v t)).
  { intros r. destruct (match v with VStr s => Some s | _ => None end) as [s|] eqn:E.
    - assert (v = VStr s) by (destruct v; congruence). subst v. split.
      + intros (n & F & _). cbn in F. subst r. exists s. split; [reflexivity|now left].
      + intros (t & -> & [[= <-]|[N _]]); [|now destruct (N s)]. exists 0. now split.
    - assert (N : forall s, v <> VStr s) by (destruct v; congruence).
      assert (U : forall n, std_call X n ra SToString [v] p h w = walked (show X n h v) (fun t => Val (VStr t) (h, w))) by (destruct v; reflexivity || discriminate).
      split.
      + intros (n & F & NF). rewrite U in F. pose proof (show_not_busy h n v) as B. destruct (show X n h v) as [t| |] eqn:Q; cbn [walked] in F; [|congruence|congruence].
        exists t. split; [now symmetry|]. right. split; [exact N|]. apply shown_iff. eauto.
      + intros (t & -> & [F|[_ F]]); [now destruct (N t)|]. apply shown_iff in F. destruct F as [n F]. exists n. rewrite U, F. split; [reflexivity|discriminate]. }
  split; [exact G|]. intros SO SW. destruct (match v with VStr s => Some s | _ => None end) as [s|] eqn:E.
  - assert (v = VStr s) by (destruct v; congruence). subst v. exists 0. discriminate.
  - assert (N : forall s, v <> VStr s) by (destruct v; congruence). destruct (showable_shown X h v SO SW) as [t T].
    destruct (proj2 (G (Val (VStr t) (h, w)))) as (n & F & NF); [exists t; split; [reflexivity|right; now split]|]. exists n. congruence.
Qed.

(** ** Printing *)
Lemma print_text_printed h v t : printed X h v t <-> exists n, print_text X n h v = Known t.
Proof.
  split.
  - intros [s|b|v' t' N S]; [exists 0; reflexivity|exists 0; reflexivity|]. apply shown_iff in S. destruct S as [n S]. exists n. destruct v'; try contradiction; exact S.
  - intros [n E]. destruct v; try (apply Known_inj in E; subst; constructor); try (apply pr_other; [exact I|]; apply shown_iff; exists n; exact E).
Qed.
Lemma print_text_more h n m v t : n <= m -> print_text X n h v = Known t -> print_text X m h v = Known t.
Proof. intros L E. destruct v; try exact E; eapply show_more; eassumption. Qed.
Lemma print_all_rest h n args : forall ts, Forall2 (fun v t => print_text X n h v = Known t) args ts ->
  print_all X n h false args = Known (concat (map (fun t => [x09] ++ t) ts)).
Proof.
  induction args as [|v args IH]; intros ts F; inversion F as [|? t ? r E FR]; subst; [reflexivity|]. cbn [print_all]. rewrite E. cbn [wbind]. rewrite (IH _ FR). cbn [wbind map concat]. now rewrite <- app_assoc.
Qed.
Lemma join_tabs t ts : join [x09] (t :: ts) = t ++ concat (map (fun t => [x09] ++ t) ts).
Proof. revert t. induction ts as [|u ts IH]; intros t; [cbn; now rewrite app_nil_r|]. change (join [x09] (t :: u :: ts)) with (t ++ [x09] ++ join [x09] (u :: ts)). rewrite IH. reflexivity. Qed.
Lemma print_all_known h n args ts : Forall2 (fun v t => print_text X n h v = Known t) args ts -> print_all X n h true args = Known (join [x09] ts).
Proof.
  destruct 1 as [|v t args ts E F]; [reflexivity|]. cbn [print_all]. rewrite E. cbn [wbind]. rewrite (print_all_rest _ _ _ _ F), join_tabs. reflexivity.
Qed.
Lemma print_all_parts h n args : forall first t, print_all X n h first args = Known t -> exists ts, Forall2 (fun v t => print_text X n h v = Known t) args ts.
Proof.
  induction args as [|v args IH]; intros first t E; [exists []; constructor|]. cbn [print_all] in E. destruct (print_text X n h v) as [u| |] eqn:Q; try discriminate. cbn [wbind] in E.
  destruct (print_all X n h false args) as [u'| |] eqn:R; try discriminate. destruct (IH _ _ R) as [ts F]. exists (u :: ts). now constructor.
Qed.
Lemma print_all_not_busy h n args : forall first, print_all X n h first args <> Busy.
Proof.
  induction args as [|v args IH]; intros first; [discriminate|]. cbn [print_all].
  assert (B : print_text X n h v <> Busy) by (destruct v; try discriminate; apply show_not_busy).
  destruct (print_text X n h v); try congruence; cbn [wbind]; [|discriminate]. specialize (IH false). destruct (print_all X n h false args); cbn [wbind]; congruence.
Qed.

Lemma print_call newline args p h w r :
  (exists n, print X n newline args p h w = r /\ r <> Fuel) <->
  exists ts, Forall2 (printed X h) args ts /\ r = written X (join [x09] ts ++ newline) p h w.
Proof.
  split.
  - intros (n & E & NF). unfold print in E. pose proof (print_all_not_busy h n args true) as B.
    destruct (print_all X n h true args) as [t| |] eqn:Q; cbn [walked] in E; [|congruence|congruence].
    destruct (print_all_parts _ _ _ _ _ Q) as [ts F]. rewrite (print_all_known _ _ _ _ F) in Q. apply Known_inj in Q. subst t.
    exists ts. split; [|now symmetry]. eapply Forall2_weaken; [|exact F]. intros v t V. apply print_text_printed. exists n. exact V.
  - intros (ts & F & ->). assert (G : Forall2 (fun v t => exists n, print_text X n h v = Known t) args ts).
    { eapply Forall2_weaken; [|exact F]. intros v t. apply print_text_printed. }
    apply fuel_for2 with (P := fun n v t => print_text X n h v = Known t) in G; [|intros; eapply print_text_more; eassumption].
    destruct G as [n G]. exists n. unfold print. rewrite (print_all_known _ _ _ _ G). cbn [walked]. split; [reflexivity|]. unfold written. destruct (x_write X _ w) as [[e|] w']; discriminate.
Qed.
Lemma printed_exists h args : some_order X -> Forall (showable h) args -> exists ts, Forall2 (printed X h) args ts.
Proof.
  intros SO F. apply Forall2_exists. eapply Forall_impl; [|exact F]. intros v V. destruct (showable_shown X h v SO V) as [t T].
  destruct v; try (exists t; apply pr_other; [exact I|exact T]); eexists; constructor.
Qed.
Lemma printing ra args p h w :
  (forall r, (exists n, std_call X n ra SPrintln args p h w = r /\ r <> Fuel) <->
     exists ts, Forall2 (printed X h) args ts /\ r = written X (join [x09] ts ++ [x0a]) p h w) /\
  (forall r, (exists n, std_call X n ra SPrint args p h w = r /\ r <> Fuel) <->
     exists ts, Forall2 (printed X h) args ts /\ r = written X (join [x09] ts) p h w) /\
  (some_order X -> Forall (showable h) args -> exists ts, Forall2 (printed X h) args ts).
Proof.
  split; [|split].
  - intros r. exact (print_call [x0a] args p h w r).
  - intros r. pose proof (print_call [] args p h w r) as [A B]. split; [intros E; destruct (A E) as (ts & F & G)|intros (ts & F & G); apply B]; exists ts; rewrite app_nil_r in *; now split.
  - apply printed_exists.
Qed.

(** ** JSON *)
Lemma to_json_not_busy order h : forall n v, to_json order n h v <> Busy.
Proof.
  assert (I : forall A B (f : A -> walk (option B)) l, (forall x, f x <> Busy) -> each_json f l <> Busy).
  { intros A B f l H. induction l as [|x l IH]; [discriminate|]. cbn [each_json]. specialize (H x). destruct (f x) as [[y|]| |]; try congruence; cbn [wbind]; try discriminate.
    destruct (each_json f l) as [[r|]| |]; try congruence; discriminate. }
  induction n as [|n IH]; intros v; [discriminate|]. cbn [to_json]. destruct v; try discriminate.
  - specialize (I _ _ (to_json order n h) (arr_get h l) IH). destruct (each_json (to_json order n h) (arr_get h l)); cbn [wbind]; congruence.
  - match goal with |- context [each_json ?f ?l] => assert (J : each_json f l <> Busy) end.
    { apply I. intros [a b]. cbn [fst snd]. destruct a; try discriminate. specialize (IH b). destruct (to_json order n h b); cbn [wbind]; congruence. }
    match goal with |- context [each_json ?f ?l] => destruct (each_json f l); cbn [wbind]; congruence end.
Qed.
Lemma encode_call ra v p h w : some_order X ->
  (forall r, (exists n, std_call X n ra SJsonEncode [v] p h w = r /\ r <> Fuel) ->
     (exists j, encodes (x_order X) h v j /\ r = Val (VStr (x_json_text X j)) (h, w)) \/ (foreign h v /\ r = refused v p h w)) /\
  (forall j, encodes (x_order X) h v j -> exists n, std_call X n ra SJsonEncode [v] p h w = Val (VStr (x_json_text X j)) (h, w)) /\
  (showable h v -> exists n, std_call X n ra SJsonEncode [v] p h w <> Fuel) /\
  (foreign h v -> forall j, ~ encodes (x_order X) h v j).
Proof.
  intros SO. split; [|split; [|split]].
  - intros r (n & E & NF). cbn [std_call] in E. pose proof (to_json_not_busy (x_order X) h n v) as B.
    destruct (to_json (x_order X) n h v) as [[j|]| |] eqn:Q; cbn [walked] in E; try congruence.
    + left. exists j. split; [|now symmetry]. eapply to_json_encodes, Q.
    + right. split; [|now symmetry]. eapply to_json_foreign; eassumption.
  - intros j E. apply encodes_iff in E. destruct E as [n E]. exists n. cbn [std_call]. now rewrite E.
  - intros S. destruct (showable_known (x_order X) SO h v S) as (n & r & E). exists n. cbn [std_call]. rewrite E. destruct r; discriminate.
  - now apply foreign_not_encoded.
Qed.
Lemma encoding_unique order h v j j' : encodes order h v j -> encodes order h v j' -> j = j'.
Proof.
  intros A B. apply encodes_iff in A, B. destruct A as [n A], B as [m B].
  apply (to_json_more order h n (max n m)) in A; [|lia]. apply (to_json_more order h m (max n m)) in B; [|lia]. congruence.
Qed.

Lemma decode_call n ra s p h w :
  (forall j, x_json_parse X s = Some j -> decodable j ->
     exists v h', std_call X n ra SJsonDecode [VStr s] p h w = Val v (h', w) /\ decodes h' j v /\ adds_data h v h') /\
  ((forall j, x_json_parse X s = Some j -> ~ decodable j) ->
     std_call X n ra SJsonDecode [VStr s] p h w = Val (VErr (x_json_error X s) (VStr s)) (h, w)).
Proof.
  split.
  - intros j E D. apply (from_json_decodable j h) in D. destruct D as [[v h'] F]. exists v, h'. cbn [std_call]. rewrite E, F. split; [reflexivity|].
    split; [eapply from_json_decodes, F|apply from_json_adds in F; exact F].
  - intros N. cbn [std_call]. destruct (x_json_parse X s) as [j|]; [|reflexivity]. specialize (N j eq_refl).
    destruct (from_json j h) as [[v h']|] eqn:F; [|reflexivity]. destruct N. apply (from_json_decodable j h). eauto.
Qed.

Lemma round_trip n ra p h w v j : some_order X ->
  portable h v -> encodes (x_order X) h v j -> x_json_parse X (x_json_text X j) = Some j ->
  exists v' h', std_call X n ra SJsonDecode [VStr (x_json_text X j)] p h w = Val v' (h', w) /\
    alike h' v v' /\ adds_data h v' h' /\ exists m, eqv h' m false v v' = Known true.
Proof.
  intros SO P E J. destruct (proj1 (decode_call n ra (x_json_text X j) p h w) j J) as (v' & h' & R & D & A).
  { eapply portable_decodable; eassumption. }
  exists v', h'. split; [exact R|]. pose proof (proj1 (proj1 (adds_split _ _ _) A)) as G. apply adds_grows in G.
  assert (AL : alike h' v v') by (eapply back; eassumption). split; [exact AL|]. split; [exact A|].
  apply alike_equal; [exact AL|]. eapply portable_grows; eassumption.
Qed.
Lemma portable_encodes h : some_order X -> forall v, showable h v -> portable h v -> exists j, encodes (x_order X) h v j.
Proof.
  intros SO v S P. destruct (showable_known (x_order X) SO h v S) as (n & [j|] & E).
  - exists j. eapply to_json_encodes, E.
  - exfalso. apply to_json_foreign in E; [|exact SO]. clear S n. induction E as [f|d c|l v I F IH|l k v I F IH|l k v I N]; inversion P as [| | | | |? vs NE PF|? vs NE D PF]; subst.
    + rewrite (arr_get_nth _ _ _ NE) in I. rewrite Forall_forall in PF. auto.
    + rewrite (dict_get_nth _ _ _ NE) in I. rewrite Forall_forall in PF. apply PF in I. inversion I; auto.
    + rewrite (dict_get_nth _ _ _ NE) in I. rewrite Forall_forall in PF. apply PF in I. inversion I; subst. eapply N; reflexivity.
Qed.
End Print.
