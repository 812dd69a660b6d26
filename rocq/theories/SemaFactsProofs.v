(** Consequences of legality and of correct addressing. *)
From Coq Require Import Strings.String.
From Verif Require Import Base Lexer Ast Parser Program Sema SpecLexer SpecParser SpecSema SpecProgram
  ParserFactsProofs SemaProofs SemaTreeProofs SemaShapeProofs SemaMainProofs.
From Coq Require Import Lia Permutation.

(** ** Legal trees *)

Lemma in_order_each {A} (f : list symbol -> A -> Prop) d (g : A -> Prop) l : Forall (fun x => forall here, f here x -> g x) l ->
  forall here, in_order f d here l -> each g l.
Proof. induction 1 as [|x l H HF IH]; intros here; cbn; [auto|]. intros [H1 H2]. split; eauto. Qed.

Lemma each_each {A} (f g : A -> Prop) l : Forall (fun x => f x -> g x) l -> each f l -> each g l.
Proof. induction 1; cbn; tauto. Qed.

Lemma legal_placed :
  (forall e fn lp here outer, legal_expr fn lp here outer e -> placed_expr fn lp e) /\
  (forall s fn lp outer here, legal_statement fn lp outer here s -> placed_statement fn lp s) /\
  (forall b fn lp here outer, legal_block fn lp here outer b -> placed_block fn lp b).
Proof.
  apply tree_ind; intros; cbn [legal_expr legal_statement legal_block placed_expr placed_statement placed_block] in *; auto;
    repeat match goal with H : _ /\ _ |- _ => destruct H end; repeat split; eauto.
  - eapply each_each; [|eassumption]. eapply Forall_impl; [|eassumption]. cbv beta. eauto.
  - eapply each_each; [|eassumption]. eapply Forall_impl; [|eassumption]. cbv beta. eauto.
  - destruct op; eauto.
  - eapply each_each; [|eassumption]. eapply Forall_impl; [|eassumption]. cbv beta. eauto.
  - eapply in_order_each; [|eassumption]. eapply Forall_impl; [|eassumption]. cbv beta. eauto.
Qed.

Lemma legal_standalone vars b : legal_command_block vars b -> standalone b.
Proof.
  intros [H1 H2]. assert (HF : Forall (legal_command vars (cb_kind b)) (cb_head b :: cb_tail b)) by now constructor.
  intros c bc bi Hc Hbc Hb. rewrite Forall_forall in HF. destruct (HF c Hc) as [(bi' & Hbi & Hk & Ht & Hr & _)|[Hl Hls]].
  - rewrite Ht in Hbc. destruct Hbc as [<-|[]]. auto.
  - exfalso. destruct Hbc as [<-|Hbc]; [apply Hl in Hb; exact Hb|].
    rewrite Forall_forall in Hls. destruct (Hls bc Hbc) as [H _]. exact (H _ Hb).
Qed.

Lemma each_flat {A B} (f : A -> Prop) (g : A -> list B) (P : B -> Prop) l :
  Forall (fun x => f x -> Forall P (g x)) l -> each f l -> Forall P (flat_map g l).
Proof. induction 1; cbn; [constructor|]. intros [H1 H2]. apply Forall_app. auto. Qed.
Lemma in_order_flat {A B} (f : list symbol -> A -> Prop) d (g : A -> list B) (P : B -> Prop) l :
  Forall (fun x => forall here, f here x -> Forall P (g x)) l -> forall here, in_order f d here l -> Forall P (flat_map g l).
Proof. induction 1; intros here; cbn; [constructor|]. intros [H1 H2]. apply Forall_app. eauto. Qed.

Lemma legal_blocks :
  (forall e fn lp here outer, legal_expr fn lp here outer e -> Forall standalone (blocks_expr e)) /\
  (forall s fn lp outer here, legal_statement fn lp outer here s -> Forall standalone (blocks_statement s)) /\
  (forall b fn lp here outer, legal_block fn lp here outer b -> Forall standalone (blocks_block b)).
Proof.
  apply tree_ind; intros; cbn [legal_expr legal_statement legal_block blocks_expr blocks_statement blocks_block] in *; auto;
    repeat match goal with H : _ /\ _ |- _ => destruct H end; rewrite ?Forall_app; eauto 6.
  all: try (eapply each_flat; [|eassumption]; eapply Forall_impl; [|eassumption]; cbv beta; eauto; fail).
  all: try (eapply in_order_flat; [|eassumption]; eapply Forall_impl; [|eassumption]; cbv beta; eauto; fail).
  all: try (constructor; [|constructor]; eapply legal_standalone; eauto; fail).
  all: split; eauto.
  all: eapply each_flat; [|eassumption]; eapply Forall_impl; [|eassumption]; cbv beta; eauto.
Qed.

(** ** Addressed programs *)

Scheme addr_expr_mut := Induction for addr_expr Sort Prop
  with addr_exprs_mut := Induction for addr_exprs Sort Prop
  with addr_statement_mut := Induction for addr_statement Sort Prop
  with addr_statements_mut := Induction for addr_statements Sort Prop
  with addr_block_mut := Induction for addr_block Sort Prop.
Combined Scheme addr_mut from addr_expr_mut, addr_exprs_mut, addr_statement_mut, addr_statements_mut, addr_block_mut.

Definition size (en : env) : nat := match en with f :: _ => fi_slots (ef_info f) | [] => 0 end.

Definition frame_bounded (f : env_frame) : Prop :=
  Forall (fun xi => snd xi < fi_slots (ef_info f)) (concat (ef_scopes f)) /\
  Forall (fun c => cap_to c < fi_slots (ef_info f)) (fi_captures (ef_info f)) /\
  Forall (fun i => i < fi_slots (ef_info f)) (option_list (fi_self (ef_info f))).
Definition bounded : env -> Prop := Forall frame_bounded.

Lemma first_in x i l : first_of x i l -> In (x, i) l.
Proof. induction 1; [left|right]; auto. Qed.

Lemma denotes_bound en x i : denotes en x i -> bounded en -> i < size en.
Proof.
  intros H Hb. destruct H as [f en x i H|f en x from i Ha H Hd]; inversion Hb as [|? ? (H1 & H2 & H3) Hb']; subst; cbn.
  - apply first_in in H. rewrite Forall_forall in H1. exact (H1 _ H).
  - rewrite Forall_forall in H2. exact (H2 _ H).
Qed.

Lemma enter_bounded en : bounded en -> bounded (enter en) /\ size (enter en) = size en.
Proof. intros H. destruct H as [|f en (H1 & H2 & H3) H]; [split; constructor|]. cbn. split; [|reflexivity]. constructor; auto. repeat split; auto. Qed.
Lemma extend_bounded en x i : bounded en -> i < size en -> bounded (extend en x i) /\ size (extend en x i) = size en.
Proof.
  intros H Hi. destruct H as [|[fi scs] en (H1 & H2 & H3) H]; [split; constructor|]. cbn in *. destruct scs as [|sc scs]; cbn.
  - split; [|reflexivity]. constructor; auto. repeat split; auto.
  - split; [|reflexivity]. constructor; auto. cbn in *. repeat split; auto. cbn. constructor; auto.
Qed.

Lemma Forall2_valid {A B} (P : A -> B -> Prop) (Q : B -> Prop) l l' : (forall a b, P a b -> Q b) -> Forall2 P l l' -> Forall Q l'.
Proof. intros H. induction 1; constructor; eauto. Qed.

Section Commands.
  Context (en : env) (Hb : bounded en).
  Lemma addr_unit_valid u x : addr_unit en u x -> valid_unit (size en) x.
  Proof. destruct 1; cbn; [exact I|]. eauto using denotes_bound. Qed.
  Lemma addr_argument_valid a x : addr_argument en a x -> valid_argument (size en) x.
  Proof.
    intros [ps xs p H]. unfold valid_argument; cbn. eapply Forall2_valid; [|exact H]. intros ? ? []; cbn; auto. eapply addr_unit_valid; eauto.
  Qed.
  Lemma addr_redirection_valid a x : addr_redirection en a x -> valid_redirection (size en) x.
  Proof. destruct 1; cbn; eauto using addr_argument_valid. Qed.
  Lemma addr_basic_valid a x : addr_basic en a x -> valid_basic (size en) x.
  Proof.
    destruct 1 as [pr xpr vars xvars args xargs rs xrs abort p H1 H2 H3 H4]. repeat split; cbn.
    - eauto using addr_argument_valid.
    - eapply Forall2_valid; [|exact H2]. cbv beta. intros ? ? [? ?]. split; eauto using addr_argument_valid, addr_unit_valid.
    - eapply Forall2_valid; [|exact H3]. eauto using addr_argument_valid.
    - eapply Forall2_valid; [|exact H4]. eauto using addr_redirection_valid.
  Qed.
  Lemma addr_command_valid k a x : addr_command en k a x -> valid_command (size en) x.
  Proof.
    destruct 1 as [b w vars args xargs abort p q Hw H|k c xc cs xcs Hc Hcs H1 H2]; cbn.
    - eapply Forall2_valid; [|exact H]. eauto using addr_argument_valid.
    - split; [eauto using addr_basic_valid|]. eapply Forall2_valid; [|exact H2]. eauto using addr_basic_valid.
  Qed.
  Lemma addr_command_block_valid a x : addr_command_block en a x -> valid_block (size en) x.
  Proof. destruct 1. split; cbn; [eauto using addr_command_valid|]. eapply Forall2_valid; [|eassumption]. eauto using addr_command_valid. Qed.
End Commands.

Lemma Forall_lt_app (n : nat) (a b : list slot) : Forall (fun i => i < n) (a ++ b) <-> Forall (fun i => i < n) a /\ Forall (fun i => i < n) b.
Proof. apply Forall_app. Qed.

Lemma each_map {A B} (f : B -> Prop) (g : A -> B) l : each f (map g l) <-> each (fun x => f (g x)) l.
Proof. induction l; cbn; tauto. Qed.

Lemma combine_snd_in {A B} (l : list A) (l' : list B) a b : In (a, b) (combine l l') -> In b l'.
Proof. apply in_combine_r. Qed.

Lemma NoDup_app_r {A} (a b : list A) : NoDup (a ++ b) -> NoDup b.
Proof. induction a; cbn; auto. intros H; inversion H; auto. Qed.

Lemma addr_valid :
  (forall fn lp en e x ds, addr_expr fn lp en e x ds ->
     bounded en -> Forall (fun i => i < size en) ds -> valid_expr fn lp (size en) x) /\
  (forall fn lp en es xs ds, addr_exprs fn lp en es xs ds ->
     bounded en -> Forall (fun i => i < size en) ds -> each (valid_expr fn lp (size en)) xs) /\
  (forall fn lp en s x ds en', addr_statement fn lp en s x ds en' ->
     bounded en -> Forall (fun i => i < size en) ds ->
     valid_statement fn lp (size en) x /\ bounded en' /\ size en' = size en) /\
  (forall fn lp en ss xs ds, addr_statements fn lp en ss xs ds ->
     bounded en -> Forall (fun i => i < size en) ds -> each (valid_statement fn lp (size en)) xs) /\
  (forall fn lp en b xs ds, addr_block fn lp en b xs ds ->
     bounded en -> Forall (fun i => i < size en) ds -> each (valid_statement fn lp (size en)) xs).
Proof.
  apply addr_mut; intros; cbn [valid_expr valid_statement valid_lvalue each] in *; auto;
    repeat match goal with H : Forall _ (_ ++ _) |- _ => apply Forall_lt_app in H; destruct H
      | H : Forall (fun i => i < _) (_ :: _) |- _ => inversion_clear H
      | H : bounded ?e, H1 : bounded (enter ?e) -> _ |- _ =>
        let A := fresh in let B := fresh in destruct (enter_bounded e H) as [A B]; rewrite ?B in *; specialize (H1 A) end;
    auto.
  - (* self *) match goal with H : bounded _ |- _ => inversion H as [|? ? (_ & _ & H') _]; subst end.
    rewrite e in H'. cbn in *. now inversion H'.
  - eauto using denotes_bound.
  - rewrite <- each_map. auto.
  - (* function *)
    match goal with H : forall i, In i _ <-> _ |- _ => rename H into Hin end.
    match goal with H : NoDup (seq _ _ ++ _) |- _ => rename H into Hnd end.
    match goal with H : forall c, In c _ -> exists x, _ |- _ => rename H into Hcap end.
    assert (Hps : forall i, In i (seq 0 (List.length ps)) -> i < fi_slots fi) by (intros i Hi; apply Hin, in_or_app; auto).
    assert (Hds : Forall (fun i => i < fi_slots fi) ds).
    { apply Forall_forall. intros i Hi. apply Hin. apply in_or_app. right. apply in_or_app. auto. }
    assert (Hcs : Forall (fun c => cap_to c < fi_slots fi) (fi_captures fi)).
    { apply Forall_forall. intros c Hc. apply Hin. apply in_or_app. right. apply in_or_app. right. apply in_or_app. left. now apply in_map. }
    assert (Hself : Forall (fun i => i < fi_slots fi) (option_list (fi_self fi))).
    { apply Forall_forall. intros c Hc. apply Hin. apply in_or_app. right. apply in_or_app. right. apply in_or_app. now right. }
    assert (Hlow : forall i, In i (map cap_to (fi_captures fi) ++ option_list (fi_self fi)) -> List.length ps <= i).
    { intros i Hi. destruct (le_lt_dec (List.length ps) i) as [|Hlt]; [assumption|]. exfalso.
      assert (Hs : In i (seq 0 (List.length ps))) by (apply in_seq; lia).
      apply in_split in Hs as (l1 & l2 & Es). rewrite Es in Hnd. rewrite <- app_assoc in Hnd. cbn in Hnd.
      apply NoDup_remove_2 in Hnd. apply Hnd. rewrite !in_app_iff. rewrite in_app_iff in Hi. tauto. }
    split.
    + split; [|split; [|split]].
      * destruct (List.length ps) as [|k] eqn:Ek; [lia|]. specialize (Hps k). rewrite in_seq in Hps. lia.
      * apply Forall_forall. intros c Hc. split.
        -- destruct (Hcap c Hc) as (x & Hd). eauto using denotes_bound.
        -- split; [apply Hlow, in_or_app; left; now apply in_map|]. rewrite Forall_forall in Hcs. auto.
      * apply NoDup_app_r in Hnd. now apply NoDup_app_r in Hnd.
      * apply Forall_forall. intros i Hi. split; [apply Hlow, in_or_app; now right|]. rewrite Forall_forall in Hself. auto.
    + change (fi_slots fi) with (size (mkenv fi [rev (combine (map fst ps) (seq 0 (List.length ps)))] :: en)).
      apply H.
      * constructor; [|assumption]. split; [|split]; cbn [ef_info ef_scopes]; auto.
        cbn [concat]. rewrite app_nil_r. apply Forall_forall. intros [x i] Hx. apply in_rev in Hx. cbn. apply Hps.
        eapply in_combine_r; eauto.
      * exact Hds.
  - eauto using addr_command_block_valid.
  - (* let *)
    destruct (extend_bounded (mkenv fi (sc :: scs) :: en) x i H0 ltac:(assumption)) as [A B]. rewrite B in *. repeat split; auto.
  - repeat split; auto. eauto using denotes_bound.
  - (* for *)
    destruct (enter_bounded en H1) as [A B]. destruct (extend_bounded (enter en) x i A ltac:(now rewrite B)) as [A' B'].
    rewrite B', B in *. repeat split; auto.
  - (* statements *)
    destruct H as (V & Hb & Hs); auto. split; [exact V|]. rewrite Hs in *. auto.
Qed.

Lemma addressed_valid b p : addressed b p -> valid_program p.
Proof.
  intros (ds & H & Hn & Hs). split; [apply Hs; now left|].
  apply (proj2 (proj2 (proj2 (proj2 addr_valid)))) in H; auto.
  - constructor; [|constructor]. repeat split; cbn; constructor; auto. apply Hs. now left.
  - apply Forall_forall. intros i Hi. apply Hs. now right.
Qed.
