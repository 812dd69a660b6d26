(** Lemmas on how command blocks are made and what they ask of the operating system. *)
From Coq Require Import Strings.String Lia.
From Verif Require Import Base Lexer Ast Program Value Text StdLib Exec SpecExec ExecProofs SpecCmd.

Section Made.
Context {W : Type} (X : ext W) (fetch : slot -> option value) (h : heap) (w : W) (path : bytes).

(** ** Values *)
Lemma value_built v p s : build_basic_value X v p = Built s <-> scalar_text X v s.
Proof.
  split.
  - destruct v; cbn; intros E; try discriminate; injection E as <-; try constructor. destruct b; constructor.
  - apply scalar_built.
Qed.
Lemma value_panic v p q : build_basic_value X v p = BPanic q ->
  no_text v /\ q = PTypeError v (bs "nil, bool, int, float, byte or string") p.
Proof. destruct v; cbn; intros E; try discriminate; injection E as <-; auto. Qed.
Lemma value_crash v p c : build_basic_value X v p <> BCrash c.
Proof. destruct v; discriminate. Qed.

(** ** Lists *)
Section Lists.
Context {A B : Type} (f : A -> built B).
Lemma bmap_built : forall l r, bmap f l = Built r <-> Forall2 (fun a b => f a = Built b) l r.
Proof.
  induction l as [|a l IH]; intros r; cbn [bmap].
  - split; [intros E; injection E as <-; constructor|]. now inversion 1.
  - split.
    + destruct (f a) as [b| |] eqn:E; cbn [bbind]; try discriminate. destruct (bmap f l) as [r'| |] eqn:E'; cbn [bbind]; try discriminate.
      intros Q. injection Q as <-. constructor; [exact E|]. now apply IH.
    + inversion 1 as [|? b ? r' E F]; subst. rewrite E. cbn [bbind]. apply IH in F. now rewrite F.
Qed.
Lemma bmap_panic : forall l q, bmap f l = BPanic q -> exists a, In a l /\ f a = BPanic q.
Proof.
  induction l as [|a l IH]; intros q; cbn [bmap]; [discriminate|]. destruct (f a) as [b|p|] eqn:E; cbn [bbind]; try discriminate.
  - destruct (bmap f l) as [r| |] eqn:E'; cbn [bbind]; try discriminate. intros Q. injection Q as <-. destruct (IH _ eq_refl) as (x & I & Ex). exists x. split; [now right|exact Ex].
  - intros Q. injection Q as <-. exists a. split; [now left|exact E].
Qed.
Lemma bmap_crash : forall l c, bmap f l = BCrash c -> exists a, In a l /\ f a = BCrash c.
Proof.
  induction l as [|a l IH]; intros q; cbn [bmap]; [discriminate|]. destruct (f a) as [b|p|p] eqn:E; cbn [bbind]; try discriminate.
  - destruct (bmap f l) as [r| |] eqn:E'; cbn [bbind]; try discriminate. intros Q. injection Q as <-. destruct (IH _ eq_refl) as (x & I & Ex). exists x. split; [now right|exact Ex].
  - intros Q. injection Q as <-. exists a. split; [now left|exact E].
Qed.
End Lists.
Lemma bbind_built {A B} (x : built A) (f : A -> built B) r : bbind x f = Built r <-> exists a, x = Built a /\ f a = Built r.
Proof. destruct x; cbn; split; try discriminate; try (intros (? & ? & ?); congruence); eauto. Qed.
Lemma bbind_panic {A B} (x : built A) (f : A -> built B) q : bbind x f = BPanic q -> x = BPanic q \/ exists a, x = Built a /\ f a = BPanic q.
Proof. destruct x; cbn; try discriminate; [eauto|]. intros E. injection E as <-. now left. Qed.
Lemma bbind_crash {A B} (x : built A) (f : A -> built B) q : bbind x f = BCrash q -> x = BCrash q \/ exists a, x = Built a /\ f a = BCrash q.
Proof. destruct x; cbn; try discriminate; [eauto|]. intros E. injection E as <-. now left. Qed.
Lemma Forall2_iff {A B} (R S : A -> B -> Prop) : (forall a b, R a b <-> S a b) -> forall l r, Forall2 R l r <-> Forall2 S l r.
Proof. intros H. split; apply Forall2_impl'; intros; now apply H. Qed.

(** ** Arguments *)
Lemma part_offers part a a' : build_part X fetch h w path part a = Built a' -> exists alts, offers X fetch h w part alts.
Proof.
  destruct part as [[s|ix p]| | |]; cbn [build_part]; intros E; try (eexists; constructor; reflexivity); try (eexists; constructor; now apply home_path_iff).
  unfold bfetch in E. destruct (fetch ix) as [v|] eqn:F; [|discriminate]. cbn [bbind] in E.
  assert (H : (exists l, v = VArr l) \/ exists s, scalar_text X v s).
  { destruct v; try (right; eexists; apply (proj1 (value_built _ (mkspos path p) _)); reflexivity); try discriminate E. left. eauto. }
  destruct H as [[l ->]|[s S]].
  - apply bbind_built in E. destruct E as (ss & E & _). apply bmap_built in E. eexists. eapply of_array; [exact F|].
    eapply Forall2_impl'; [|exact E]. intros v s. apply value_built.
  - eexists. eapply of_scalar; eassumption.
Qed.
Lemma parts_offers : forall parts a a', build_parts X fetch h w path parts a = Built a' -> exists altss, Forall2 (offers X fetch h w) parts altss.
Proof.
  induction parts as [|p parts IH]; intros a a' E; cbn [build_parts] in E; [exists []; constructor|].
  apply bbind_built in E. destruct E as (b & E & E'). apply part_offers in E. apply IH in E'. destruct E as [x ?], E' as [y ?]. exists (x :: y). now constructor.
Qed.
Lemma in_use_filled altss : in_use altss = filled altss.
Proof. reflexivity. Qed.
Lemma expands_built a altss : Forall2 (offers X fetch h w) (xa_parts a) altss -> exists l, build_argument X fetch h w path a = Built l /\ expands X fetch h w a l.
Proof.
  intros F. destruct (argument_built X fetch h w path a altss F) as (l & E & A & B). exists l. split; [exact E|]. exists altss. split; [exact F|].
  rewrite in_use_filled. destruct (filled altss) as [|x used] eqn:U; [now apply A|]. destruct B as [B C]; [discriminate|]. split; [exact B|]. now apply Forall_forall.
Qed.
Lemma argument_expands a l : build_argument X fetch h w path a = Built l -> expands X fetch h w a l.
Proof.
  intros E. pose proof E as E'. unfold build_argument in E'. apply bbind_built in E'. destruct E' as (r & P & _). apply parts_offers in P. destruct P as [altss F].
  destruct (expands_built a altss F) as (l' & Q & H). congruence.
Qed.
Lemma argument_made a l : expands X fetch h w a l -> exists l', build_argument X fetch h w path a = Built l' /\ expands X fetch h w a l'.
Proof. intros (altss & F & _). destruct (expands_built a altss F) as (l' & E & H). eauto. Qed.
Lemma offers_fun part x y : offers X fetch h w part x -> offers X fetch h w part y -> x = y.
Proof.
  assert (S1 : forall v s t, scalar_text X v s -> scalar_text X v t -> s = t) by (intros v s t A B; apply (proj2 (value_built v (mkspos path (mkpos 0 0)) s)) in A; apply (proj2 (value_built v (mkspos path (mkpos 0 0)) t)) in B; congruence).
  assert (S2 : forall l s, ~ scalar_text X (VArr l) s) by (intros l s Q; inversion Q).
  intros A B. destruct A as [s|s E| | |ix p v s E S|ix p l ss E F]; inversion B as [s'|s' E'| | |ix' p' v' s' E' S'|ix' p' l' ss' E' F']; subst; try reflexivity.
  - apply home_path_iff in E. apply home_path_iff in E'. congruence.
  - assert (v' = v) by congruence. subst. f_equal. f_equal. eauto.
  - rewrite E in E'. injection E' as ->. now apply S2 in S.
  - rewrite E in E'. injection E' as <-. now apply S2 in S'.
  - assert (l' = l) by congruence. subst. f_equal. clear -S1 F F'. revert ss' F'. induction F; intros ss' F'; inversion F'; subst; [reflexivity|]. f_equal; eauto.
Qed.
Lemma expands_count a l l' : expands X fetch h w a l -> expands X fetch h w a l' -> length l = length l'.
Proof.
  intros (x & F & A) (y & G & B). assert (x = y).
  { clear A B. revert y G. induction F; intros z G; inversion G; subst; [reflexivity|]. f_equal; [eapply offers_fun; eassumption|auto]. }
  subst y. destruct (in_use x) eqn:U; [now subst|]. destruct A as [A _], B as [B _]. apply Forall2_len in A. apply Forall2_len in B. congruence.
Qed.
Lemma part_panic part a q : build_part X fetch h w path part a = BPanic q ->
  exists ix p v, part = XPUnit (XUDollar ix p) /\ fetch ix = Some v /\
    ((no_text v /\ (forall l, v <> VArr l) /\ q = not_scalar path v p) \/
     exists l x, v = VArr l /\ In x (arr_get h l) /\ no_text x /\ q = not_scalar path x p).
Proof.
  destruct part as [[s|ix p]| | |]; cbn [build_part]; intros E; try discriminate. exists ix, p. unfold bfetch in E.
  destruct (fetch ix) as [v|] eqn:F; [|discriminate]. cbn [bbind] in E. exists v. split; [reflexivity|]. split; [reflexivity|].
  destruct v; try discriminate E.
  - right. apply bbind_panic in E. destruct E as [E|(? & _ & E)]; [|discriminate]. apply bmap_panic in E. destruct E as (x & I & E). apply value_panic in E. destruct E. eauto 6.
  - left. injection E as <-. repeat split; auto; discriminate.
  - left. injection E as <-. repeat split; auto; discriminate.
  - left. injection E as <-. repeat split; auto; discriminate.
Qed.
Lemma parts_panic : forall parts a q, build_parts X fetch h w path parts a = BPanic q -> exists part a', In part parts /\ build_part X fetch h w path part a' = BPanic q.
Proof.
  induction parts as [|p parts IH]; intros a q E; cbn [build_parts] in E; [discriminate|]. apply bbind_panic in E. destruct E as [E|(b & _ & E)].
  - exists p, a. split; [now left|exact E].
  - apply IH in E. destruct E as (part & a' & I & E). exists part, a'. split; [now right|exact E].
Qed.
Lemma argument_panic a q : build_argument X fetch h w path a = BPanic q -> unsuitable fetch h path a q.
Proof.
  intros E. apply bbind_panic in E. destruct E as [E|(? & _ & E)]; [|discriminate]. apply parts_panic in E. destruct E as (part & a' & I & E).
  apply part_panic in E. destruct E as (ix & p & v & -> & F & [(N & NA & ->)|(l & x & -> & Ix & N & ->)]).
  - eapply us_value; eassumption.
  - eapply us_item; eassumption.
Qed.
Lemma parts_crash : forall parts a c, build_parts X fetch h w path parts a = BCrash c ->
  exists ix p, In (XPUnit (XUDollar ix p)) parts /\ fetch ix = None.
Proof.
  induction parts as [|part parts IH]; intros a c E; cbn [build_parts] in E; [discriminate|]. apply bbind_crash in E. destruct E as [E|(b & _ & E)].
  - destruct part as [[s|ix p]| | |]; cbn [build_part] in E; try discriminate. exists ix, p. split; [now left|]. unfold bfetch in E.
    destruct (fetch ix) as [v|]; [|reflexivity]. cbn [bbind] in E. exfalso. destruct v; try discriminate E.
    apply bbind_crash in E. destruct E as [E|(? & _ & E)]; [|discriminate]. apply bmap_crash in E. destruct E as (x & _ & E). now apply value_crash in E.
  - apply IH in E. destruct E as (ix & p & I & F). exists ix, p. split; [now right|exact F].
Qed.
Lemma argument_crash a c : build_argument X fetch h w path a = BCrash c -> exists ix, In ix (argument_slots a) /\ fetch ix = None.
Proof.
  intros E. apply bbind_crash in E. destruct E as [E|(? & _ & E)]; [|discriminate]. apply parts_crash in E. destruct E as (ix & p & I & F). exists ix. split; [|exact F].
  unfold argument_slots. apply in_flat_map. exists (XPUnit (XUDollar ix p)). split; [exact I|]. cbn. auto.
Qed.

(** ** Single arguments *)
Lemma single_built o a x : build_single_argument X fetch h w path o a = Built x -> expands_to X fetch h w a x.
Proof.
  unfold build_single_argument. intros E. apply bbind_built in E. destruct E as (l & E & E'). destruct l as [|y [|z l]]; try discriminate. injection E' as <-.
  now apply argument_expands in E.
Qed.
Lemma single_made o a x : expands_to X fetch h w a x -> exists y, build_single_argument X fetch h w path o a = Built y /\ expands_to X fetch h w a y.
Proof.
  intros E. destruct (argument_made a [x] E) as (l & B & E'). pose proof (expands_count _ _ _ E E') as L. destruct l as [|y [|z l]]; try discriminate.
  exists y. split; [|exact E']. unfold build_single_argument. now rewrite B.
Qed.
Lemma single_panic o a q : build_single_argument X fetch h w path o a = BPanic q -> bad_single X fetch h w path o a q.
Proof.
  unfold build_single_argument. intros E. apply bbind_panic in E. destruct E as [E|(l & E & E')]; [left; now apply argument_panic|].
  right. exists l. split; [now apply argument_expands|]. destruct l as [|y [|z l]]; try discriminate; injection E' as <-; split; try discriminate; auto.
Qed.
Lemma no_item o a : expands X fetch h w a [] ->
  build_single_argument X fetch h w path o a = BPanic (PInvalidCommandArgs o 0 (mkspos path (xa_pos a))).
Proof.
  intros E. destruct (argument_made a [] E) as (l & B & E'). pose proof (expands_count _ _ _ E E') as L. destruct l as [|y l]; try discriminate.
  unfold build_single_argument. now rewrite B.
Qed.
Lemma single_crash o a c : build_single_argument X fetch h w path o a = BCrash c -> exists ix, In ix (argument_slots a) /\ fetch ix = None.
Proof.
  unfold build_single_argument. intros E. apply bbind_crash in E. destruct E as [E|(l & E & E')]; [now apply argument_crash in E|].
  destruct l as [|y [|z l]]; discriminate.
Qed.

(** ** Building and finding again what was built *)
Definition makes {A B} (f : A -> built B) (R : A -> B -> Prop) : Prop :=
  (forall a b, f a = Built b -> R a b) /\ (forall a b, R a b -> exists b', f a = Built b').
Lemma makes_list {A B} (f : A -> built B) R : makes f R -> makes (bmap f) (Forall2 R).
Proof.
  intros [P Q]. split.
  - intros l r E. apply bmap_built in E. eapply Forall2_impl'; [|exact E]. exact P.
  - intros l r F. induction F as [|a b l r H F IH]; [now exists []|]. destruct (Q _ _ H) as [b' E], IH as [r' E']. exists (b' :: r'). cbn [bmap]. now rewrite E, E'.
Qed.
Lemma makes_single o : makes (build_single_argument X fetch h w path o) (expands_to X fetch h w).
Proof. split; [intros a b; apply single_built|]. intros a b H. apply (single_made o) in H. destruct H as (y & E & _). eauto. Qed.
Lemma makes_variable : makes (build_env X fetch h w path) (variable_as X fetch h w).
Proof.
  split.
  - intros [u a] [k x] E. unfold build_env in E. cbn [fst snd] in E. apply bbind_built in E. destruct E as (s & E & E'). apply bbind_built in E'. destruct E' as (y & E' & Q).
    injection Q as <- <-. apply single_built in E'. destruct u as [t|ix p].
    + injection E as <-. now constructor.
    + unfold bfetch in E. destruct (fetch ix) as [v|] eqn:F; [|discriminate]. cbn [bbind] in E. apply value_built in E. econstructor; eassumption.
  - intros [u a] [k x] V. unfold build_env. cbn [fst snd]. inversion V as [s a' x' E|ix p v s a' x' F S E]; subst; apply (single_made (bs "env")) in E; destruct E as (y & E & _).
    + cbn [bbind]. rewrite E. cbn [bbind]. eauto.
    + unfold bfetch. rewrite F. cbn [bbind]. rewrite (proj2 (value_built _ _ _) S). cbn [bbind]. rewrite E. cbn [bbind]. eauto.
Qed.
Lemma makes_redirection : makes (build_redirection X fetch h w path) (redirection_as X fetch h w).
Proof.
  split.
  - intros [source [fd|a|a]|literal a] e E; cbn [build_redirection] in E; try (injection E as <-; constructor);
      apply bbind_built in E; destruct E as (x & E & Q); injection Q as <-; apply single_built in E; now constructor.
  - intros r e V. inversion V as [? ?|? a x E|? a x E|? a x E]; subst; cbn [build_redirection]; eauto; apply (single_made (bs "redirection")) in E; destruct E as (y & E & _); rewrite E; cbn [bbind]; eauto.
Qed.
Lemma makes_arguments : makes (build_arguments X fetch h w path) (arguments_as X fetch h w).
Proof.
  assert (M : makes (build_argument X fetch h w path) (expands X fetch h w)).
  { split; [apply argument_expands|]. intros a l H. apply argument_made in H. destruct H as (l' & E & _). eauto. }
  apply makes_list in M. destruct M as [M1 M2]. split.
  - intros l r E. unfold build_arguments in E. apply bbind_built in E. destruct E as (ls & E & Q). injection Q as <-. exists ls. split; [now apply M1|reflexivity].
  - intros l r (ls & F & _). apply M2 in F. destruct F as [ls' E]. unfold build_arguments. rewrite E. cbn [bbind]. eauto.
Qed.
Lemma makes_basic : makes (build_basic_command X fetch h w path) (basic_as X fetch h w path).
Proof.
  pose proof (makes_single (bs "program")) as [P1 P2]. pose proof (makes_list _ _ makes_variable) as [V1 V2]. pose proof makes_arguments as [A1 A2].
  pose proof (makes_list _ _ makes_redirection) as [R1 R2]. split.
  - intros c e E. unfold build_basic_command in E. apply bbind_built in E. destruct E as (p & Ep & E). apply bbind_built in E. destruct E as (v & Ev & E).
    apply bbind_built in E. destruct E as (l & El & E). apply bbind_built in E. destruct E as (r & Er & E). injection E as <-.
    repeat split; cbn; eauto.
  - intros c e (Hp & Hv & Hl & Hr & _). apply P2 in Hp. apply V2 in Hv. apply A2 in Hl. apply R2 in Hr. destruct Hp as [? Hp], Hv as [? Hv], Hl as [? Hl], Hr as [? Hr].
    unfold build_basic_command. rewrite Hp. cbn [bbind]. rewrite Hv. cbn [bbind]. rewrite Hl. cbn [bbind]. rewrite Hr. cbn [bbind]. eauto.
Qed.
Lemma makes_command : makes (build_command X fetch h w path) (command_as X fetch h w path).
Proof.
  pose proof makes_arguments as [A1 A2]. pose proof makes_basic as [B1 B2]. pose proof (makes_list _ _ makes_basic) as [L1 L2]. split.
  - intros [b l abort p|c cs] e E; cbn [build_command] in E; apply bbind_built in E; destruct E as (x & Ex & E).
    + injection E as <-. constructor. now apply A1.
    + apply bbind_built in E. destruct E as (y & Ey & E). injection E as <-. constructor; auto.
  - intros c e V. inversion V as [b l l' abort p A|c' cs e' es B L]; subst; cbn [build_command].
    + apply A2 in A. destruct A as [? A]. rewrite A. cbn [bbind]. eauto.
    + apply B2 in B. apply L2 in L. destruct B as [? B], L as [? L]. rewrite B. cbn [bbind]. rewrite L. cbn [bbind]. eauto.
Qed.
Lemma makes_block : makes (build_command_block X fetch h w path) (block_as X fetch h w path).
Proof.
  pose proof makes_command as [B1 B2]. pose proof (makes_list _ _ makes_command) as [L1 L2]. split.
  - intros b e E. unfold build_command_block in E. apply bbind_built in E. destruct E as (x & Ex & E). apply bbind_built in E. destruct E as (y & Ey & E). injection E as <-.
    constructor; cbn; auto.
  - intros b e V. unfold block_as in V. inversion V as [|? ? ? ? B L]; subst. apply B2 in B. apply L2 in L. destruct B as [? B], L as [? L].
    unfold build_command_block. rewrite B. cbn [bbind]. rewrite L. cbn [bbind]. eauto.
Qed.

(** ** What is wrong *)
Lemma basic_panic c q : build_basic_command X fetch h w path c = BPanic q -> bad_basic X fetch h w path c q.
Proof.
  intros E. unfold build_basic_command in E. apply bbind_panic in E. destruct E as [E|(p & _ & E)]; [apply bb_program; now apply single_panic|].
  apply bbind_panic in E. destruct E as [E|(v & _ & E)].
  - apply bmap_panic in E. destruct E as ([u a] & I & E). unfold build_env in E. cbn [fst snd] in E. apply bbind_panic in E. destruct E as [E|(k & _ & E)].
    + destruct u as [s|ix p']; [discriminate|]. unfold bfetch in E. destruct (fetch ix) as [v|] eqn:F; [|discriminate]. cbn [bbind] in E. apply value_panic in E. destruct E as [N ->].
      eapply bb_name; eassumption.
    + apply bbind_panic in E. destruct E as [E|(? & _ & E)]; [|discriminate]. eapply bb_env; [exact I|now apply single_panic].
  - apply bbind_panic in E. destruct E as [E|(l & _ & E)].
    + unfold build_arguments in E. apply bbind_panic in E. destruct E as [E|(? & _ & E)]; [|discriminate]. apply bmap_panic in E. destruct E as (a & I & E).
      eapply bb_argument; [exact I|now apply argument_panic].
    + apply bbind_panic in E. destruct E as [E|(r & _ & E)]; [|discriminate]. apply bmap_panic in E. destruct E as (r & I & E).
      destruct r as [source [fd|a|a]|literal a]; cbn [build_redirection] in E; try discriminate; apply bbind_panic in E; destruct E as [E|(? & _ & E)]; try discriminate;
        (eapply bb_redirection; [exact I|reflexivity|now apply single_panic]).
Qed.
Lemma command_panic c q : build_command X fetch h w path c = BPanic q -> bad_command X fetch h w path c q.
Proof.
  destruct c as [b l abort p|c cs]; cbn [build_command bad_command]; intros E; apply bbind_panic in E; destruct E as [E|(x & _ & E)].
  - unfold build_arguments in E. apply bbind_panic in E. destruct E as [E|(? & _ & E)]; [|discriminate]. apply bmap_panic in E. destruct E as (a & I & E). exists a. split; [exact I|now apply argument_panic].
  - discriminate.
  - exists c. split; [now left|now apply basic_panic].
  - apply bbind_panic in E. destruct E as [E|(? & _ & E)]; [|discriminate]. apply bmap_panic in E. destruct E as (b & I & E). exists b. split; [now right|now apply basic_panic].
Qed.
Lemma block_panic b q : build_command_block X fetch h w path b = BPanic q -> bad_block X fetch h w path b q.
Proof.
  intros E. unfold build_command_block in E. apply bbind_panic in E. destruct E as [E|(x & _ & E)].
  - exists (xc_head b). split; [now left|now apply command_panic].
  - apply bbind_panic in E. destruct E as [E|(? & _ & E)]; [|discriminate]. apply bmap_panic in E. destruct E as (c & I & E). exists c. split; [now right|now apply command_panic].
Qed.
Lemma basic_crash c k : build_basic_command X fetch h w path c = BCrash k -> exists ix, In ix (basic_slots c) /\ fetch ix = None.
Proof.
  intros E. unfold build_basic_command in E. unfold basic_slots. apply bbind_crash in E. destruct E as [E|(p & _ & E)].
  { apply single_crash in E. destruct E as (ix & I & F). exists ix. split; [|exact F]. apply in_or_app. now left. }
  apply bbind_crash in E. destruct E as [E|(v & _ & E)].
  { apply bmap_crash in E. destruct E as ([u a] & I & E). unfold build_env in E. cbn [fst snd] in E.
    assert (Q : exists ix, In ix (unit_slots u ++ argument_slots a) /\ fetch ix = None).
    { apply bbind_crash in E. destruct E as [E|(s & _ & E)].
      - destruct u as [s|ix p']; [discriminate|]. unfold bfetch in E. destruct (fetch ix) as [v|] eqn:F; [|exists ix; split; [cbn; auto|exact F]].
        cbn [bbind] in E. now apply value_crash in E.
      - apply bbind_crash in E. destruct E as [E|(? & _ & E)]; [|discriminate]. apply single_crash in E. destruct E as (ix & J & F). exists ix. split; [apply in_or_app; now right|exact F]. }
    destruct Q as (ix & J & F). exists ix. split; [|exact F]. apply in_or_app. right. apply in_or_app. left. apply in_flat_map. exists (u, a). auto. }
  apply bbind_crash in E. destruct E as [E|(l & _ & E)].
  { unfold build_arguments in E. apply bbind_crash in E. destruct E as [E|(? & _ & E)]; [|discriminate]. apply bmap_crash in E. destruct E as (a & I & E).
    apply argument_crash in E. destruct E as (ix & J & F). exists ix. split; [|exact F]. apply in_or_app. right. apply in_or_app. right. apply in_or_app. left. apply in_flat_map. eauto. }
  apply bbind_crash in E. destruct E as [E|(r & _ & E)]; [|discriminate]. apply bmap_crash in E. destruct E as (r & I & E).
  assert (Q : exists a ix, redirection_argument r = Some a /\ In ix (argument_slots a) /\ fetch ix = None).
  { destruct r as [source [fd|a|a]|literal a]; cbn [build_redirection] in E; try discriminate; apply bbind_crash in E; destruct E as [E|(? & _ & E)]; try discriminate;
      apply single_crash in E; destruct E as (ix & J & F); exists a, ix; auto. }
  destruct Q as (a & ix & Ra & J & F). exists ix. split; [|exact F]. apply in_or_app. right. apply in_or_app. right. apply in_or_app. right. apply in_flat_map. exists r. rewrite Ra. auto.
Qed.
Lemma command_crash c k : build_command X fetch h w path c = BCrash k -> exists ix, In ix (command_slots c) /\ fetch ix = None.
Proof.
  destruct c as [b l abort p|c cs]; cbn [build_command command_slots]; intros E; apply bbind_crash in E; destruct E as [E|(x & _ & E)].
  - unfold build_arguments in E. apply bbind_crash in E. destruct E as [E|(? & _ & E)]; [|discriminate]. apply bmap_crash in E. destruct E as (a & I & E).
    apply argument_crash in E. destruct E as (ix & J & F). exists ix. split; [|exact F]. apply in_flat_map. eauto.
  - discriminate.
  - apply basic_crash in E. destruct E as (ix & J & F). exists ix. split; [|exact F]. apply in_flat_map. exists c. split; [now left|exact J].
  - apply bbind_crash in E. destruct E as [E|(? & _ & E)]; [|discriminate]. apply bmap_crash in E. destruct E as (b & I & E). apply basic_crash in E. destruct E as (ix & J & F).
    exists ix. split; [|exact F]. apply in_flat_map. exists b. split; [now right|exact J].
Qed.
Lemma block_crash b k : build_command_block X fetch h w path b = BCrash k -> exists ix, In ix (block_slots b) /\ fetch ix = None.
Proof.
  intros E. unfold build_command_block in E. unfold block_slots. apply bbind_crash in E. destruct E as [E|(x & _ & E)].
  - apply command_crash in E. destruct E as (ix & J & F). exists ix. split; [|exact F]. apply in_flat_map. exists (xc_head b). split; [now left|exact J].
  - apply bbind_crash in E. destruct E as [E|(? & _ & E)]; [|discriminate]. apply bmap_crash in E. destruct E as (c & I & E). apply command_crash in E. destruct E as (ix & J & F).
    exists ix. split; [|exact F]. apply in_flat_map. exists c. split; [now right|exact J].
Qed.
End Made.

Section Asked.
Context {W : Type} (X : ext W) (O : os W).
Notation xstate := (@Exec.xstate W).
Notation ran := (@Exec.ran W).

Lemma block_made fetch h w path b :
  (forall eb, build_command_block X fetch h w path b = Built eb -> block_as X fetch h w path b eb) /\
  (forall eb, block_as X fetch h w path b eb -> exists eb', build_command_block X fetch h w path b = Built eb') /\
  (forall p, (forall ix, In ix (block_slots b) -> fetch ix <> None) -> (forall eb, ~ block_as X fetch h w path b eb) ->
     exists q, bad_block X fetch h w path b q /\ eval_command_block X O fetch path b p h w = Pan q (h, w)).
Proof.
  destruct (makes_block X fetch h w path) as [A B]. split; [exact (A b)|]. split; [exact (B b)|].
  intros p S N. unfold eval_command_block. destruct (build_command_block X fetch h w path b) as [eb|q|c] eqn:E.
  - apply A in E. now apply N in E.
  - exists q. split; [now apply block_panic|reflexivity].
  - apply block_crash in E. destruct E as (ix & I & F). now apply S in I.
Qed.

(** ** Patterns *)
Lemma resolve_iff a p (s : xstate) l s' : resolve O a p s = Ran l s' <-> s' = s /\ resolves O (xs_world s) a l.
Proof.
  split.
  - destruct a as [x|x]; cbn [resolve].
    + destruct (o_glob O x (xs_world s)) as [paths|] eqn:G; [|discriminate]. intros E. injection E as <- <-. split; [reflexivity|].
      destruct x as [|c x]; [now apply rs_relative|]. destruct (byte_eqb c x2f) eqn:Q.
      * apply Byte.byte_dec_bl in Q. subst c. now apply rs_absolute.
      * assert (H : forall t, c :: x <> x2f :: t) by (intros t F; injection F as -> ->; discriminate).
        replace (match c with x2f => paths | _ => _ end) with (map (fun y => x2e :: x2f :: y) paths); [now apply (rs_relative O _ (c :: x) paths)|].
        destruct c; try reflexivity. now destruct (H x).
    + intros E. injection E as <- <-. split; [reflexivity|constructor].
  - intros [-> R]. destruct R as [x|x paths G|x paths N G]; cbn [resolve]; [reflexivity|now rewrite G|]. rewrite G.
    destruct x as [|c x]; [reflexivity|]. destruct c; try reflexivity. now destruct (N x).
Qed.
Lemma resolve_all_iff p : forall args (s : xstate) l s', resolve_all O args p s = Ran l s' <->
  s' = s /\ exists ls, Forall2 (resolves O (xs_world s)) args ls /\ l = concat ls.
Proof.
  induction args as [|a args IH]; intros s l s'; cbn [resolve_all].
  - split.
    + intros E. injection E as <- <-. split; [reflexivity|]. exists []. split; [constructor|reflexivity].
    + intros [-> (ls & F & ->)]. inversion F. reflexivity.
  - split.
    + intros E. apply xbind_ran in E. destruct E as (x & s1 & Q & E). apply resolve_iff in Q. destruct Q as [-> R].
      apply xbind_ran in E. destruct E as (y & s2 & Q & E). apply IH in Q. destruct Q as [-> (ls & F & ->)]. injection E as <- <-. split; [reflexivity|].
      exists (x :: ls). split; [now constructor|reflexivity].
    + intros [-> (ls & F & ->)]. inversion F as [|? x ? ls' R F']; subst. unfold xbind. rewrite (proj2 (resolve_iff a p s x s)); [|auto].
      rewrite (proj2 (IH s (concat ls') s)); [reflexivity|]. split; [reflexivity|eauto].
Qed.
Lemma resolve_one_iff o a p (s : xstate) x s' : resolve_one O o a p s = Ran x s' <-> s' = s /\ resolves O (xs_world s) a [x].
Proof.
  unfold resolve_one. split.
  - intros E. apply xbind_ran in E. destruct E as (l & s1 & Q & E). apply resolve_iff in Q. destruct Q as [-> R]. destruct l as [|y [|z l]]; try discriminate.
    injection E as <- <-. auto.
  - intros [-> R]. unfold xbind. rewrite (proj2 (resolve_iff a p s [x] s)); auto.
Qed.
Lemma resolve_env_iff p : forall env (s : xstate) l s', resolve_env O env p s = Ran l s' <->
  s' = s /\ Forall2 (fun kx kv => fst kv = fst kx /\ resolves O (xs_world s) (snd kx) [snd kv]) env l.
Proof.
  induction env as [|[k a] env IH]; intros s l s'; cbn [resolve_env].
  - split; [intros E; injection E as <- <-; split; constructor|]. intros [-> F]. inversion F. reflexivity.
  - split.
    + intros E. apply xbind_ran in E. destruct E as (x & s1 & Q & E). apply resolve_one_iff in Q. destruct Q as [-> R].
      apply xbind_ran in E. destruct E as (y & s2 & Q & E). apply IH in Q. destruct Q as [-> F]. injection E as <- <-. split; [reflexivity|]. constructor; auto.
    + intros [-> F]. inversion F as [|? [k' x] ? l' [K R] F']; subst. cbn in K, R. subst k'. unfold xbind.
      rewrite (proj2 (resolve_one_iff _ a p s x s)); [|auto]. rewrite (proj2 (IH s l' s)); [reflexivity|auto].
Qed.

(** ** Starting a command *)
Lemma basic_requested c io (s : xstate) child s' : basic_exec O c io s = Ran child s' ->
  exists l r io', xs_log s' = xs_log s ++ l ++ [EvSpawn r child] /\ redirected (eb_redirections c) l io io' /\ requested O (xs_world s) c io' r.
Proof.
  unfold basic_exec. intros E. apply xbind_ran in E. destruct E as (prog & s1 & Q & E). apply resolve_one_iff in Q. destruct Q as [-> N].
  apply xbind_ran in E. destruct E as (env & s2 & Q & E). apply resolve_env_iff in Q. destruct Q as [-> Ev].
  apply xbind_ran in E. destruct E as (args & s3 & Q & E). apply resolve_all_iff in Q. destruct Q as [-> (ls & A & ->)].
  apply xbind_ran in E. destruct E as (io' & s4 & Q & E). apply redirect_ran in Q. destruct Q as (_ & l & L & R).
  apply ask_ran in E. destruct E as [_ E]. exists l, (mkrequest prog None env (concat ls) (Some io')), io'. rewrite E, L, app_assoc. split; [reflexivity|]. split; [exact R|].
  exists prog, env, ls. auto.
Qed.
Lemma program_number c io (s : xstate) l : resolves O (xs_world s) (eb_program c) l -> length l <> 1 ->
  basic_exec O c io s = RPanic (PInvalidCommandArgs (bs "program") (length l) (eb_pos c)) s.
Proof.
  intros R N. unfold basic_exec, resolve_one, xbind. rewrite (proj2 (resolve_iff (eb_program c) (eb_pos c) s l s)); [|auto].
  destruct l as [|x [|y l]]; [reflexivity|now destruct N|reflexivity].
Qed.

(** What is wrong with a command that panics *)
Lemma xbind_panic {A B} (m : xstate -> ran A) (f : A -> xstate -> ran B) s e s' : xbind m f s = RPanic e s' ->
  m s = RPanic e s' \/ exists a s1, m s = Ran a s1 /\ f a s1 = RPanic e s'.
Proof. unfold xbind. destruct (m s); intros E; try discriminate; [right; eauto|left]. now injection E as -> ->. Qed.
Lemma resolve_panic a p (s : xstate) e s' : resolve O a p s = RPanic e s' ->
  exists x, a = EPattern x /\ o_glob O x (xs_world s) = None /\ e = PInvalidPattern x p.
Proof.
  destruct a as [x|x]; cbn [resolve]; [|discriminate]. destruct (o_glob O x (xs_world s)) eqn:G; [discriminate|].
  intros E. injection E as <- <-. eauto.
Qed.
Lemma resolve_one_panic o a p (s : xstate) e s' : resolve_one O o a p s = RPanic e s' ->
  (exists x, a = EPattern x /\ o_glob O x (xs_world s) = None /\ e = PInvalidPattern x p) \/
  exists l, resolves O (xs_world s) a l /\ length l <> 1 /\ e = PInvalidCommandArgs o (length l) p.
Proof.
  unfold resolve_one. intros E. apply xbind_panic in E. destruct E as [E|(l & s1 & Q & E)]; [left; now apply resolve_panic in E|].
  apply resolve_iff in Q. destruct Q as [-> R]. right. exists l. destruct l as [|y [|z l]]; [..|]; try discriminate; injection E as <- <-; (split; [exact R|split; [discriminate|reflexivity]]).
Qed.
Lemma resolve_all_panic p e s' : forall args (s : xstate), resolve_all O args p s = RPanic e s' ->
  exists x, In (EPattern x) args /\ o_glob O x (xs_world s) = None /\ e = PInvalidPattern x p.
Proof.
  induction args as [|a args IH]; intros s E; cbn [resolve_all] in E; [discriminate|].
  apply xbind_panic in E. destruct E as [E|(l & s1 & Q & E)].
  - apply resolve_panic in E. destruct E as (x & -> & G & ->). exists x. split; [now left|auto].
  - apply resolve_iff in Q. destruct Q as [-> _]. apply xbind_panic in E. destruct E as [E|(r & s2 & _ & E)]; [|discriminate].
    apply IH in E. destruct E as (x & I & G). exists x. split; [now right|exact G].
Qed.
Lemma resolve_env_panic p e s' : forall env (s : xstate), resolve_env O env p s = RPanic e s' ->
  (exists x, In (EPattern x) (map snd env) /\ o_glob O x (xs_world s) = None /\ e = PInvalidPattern x p) \/
  exists k a l, In (k, a) env /\ resolves O (xs_world s) a l /\ length l <> 1 /\ e = PInvalidCommandArgs (bs "env variable") (length l) p.
Proof.
  induction env as [|[k a] env IH]; intros s E; cbn [resolve_env] in E; [discriminate|].
  apply xbind_panic in E. destruct E as [E|(v & s1 & Q & E)].
  - apply resolve_one_panic in E. destruct E as [(x & -> & G & ->)|(l & R & N & ->)].
    + left. exists x. split; [now left|auto].
    + right. exists k, a, l. split; [now left|auto].
  - apply resolve_one_iff in Q. destruct Q as [-> _]. apply xbind_panic in E. destruct E as [E|(r & s2 & _ & E)]; [|discriminate].
    apply IH in E. destruct E as [(x & I & G)|(k' & a' & l & I & G)].
    + left. exists x. split; [now right|exact G].
    + right. exists k', a', l. split; [now right|exact G].
Qed.
Lemma ask_panic {A} p (f : W -> (bytes + A) * W) log (s : xstate) e s' : ask p f log s <> RPanic e s'.
Proof. unfold ask. destruct (f (xs_world s)) as [[x|x] w]; discriminate. Qed.
(** One redirection *)
Definition blamed (r : eredirection) (p : spos) (e : panic) : Prop :=
  (exists w x, file_of r = Some (EPattern x) /\ o_glob O x w = None /\ e = PInvalidPattern x p) \/
  (exists w a l, file_of r = Some a /\ resolves O w a l /\ length l <> 1 /\ e = PInvalidCommandArgs (bs "redirection") (length l) p) \/
  (exists fd t, r = EOutput fd t /\ fd <> 1%Z /\ fd <> 2%Z /\ e = PUnsupportedFd fd p) \/
  (exists fd fd', r = EOutput fd (TFd fd') /\ fd' <> 1%Z /\ fd' <> 2%Z /\ e = PUnsupportedFd fd' p).
Lemma resolve_target_panic fd t io p (s : xstate) e s' : resolve_target O t io p s = RPanic e s' -> blamed (EOutput fd t) p e.
Proof.
  assert (F : forall a m, xbind (resolve_one O (bs "redirection") a p) (fun path =>
      xbind (ask p (o_open O path m) (fun handle => [EvOpen path m handle])) (fun handle => xret (IOFile handle))) s = RPanic e s' ->
      file_of (EOutput fd t) = Some a -> blamed (EOutput fd t) p e).
  { intros a m E Ft. apply xbind_panic in E. destruct E as [E|(x & s1 & _ & E)].
    - apply resolve_one_panic in E. destruct E as [(x & -> & G & ->)|(l & R & N & ->)]; [left; eauto 6|right; left; eauto 8].
    - apply xbind_panic in E. destruct E as [E|(y & s2 & _ & E)]; [now apply ask_panic in E|discriminate]. }
  destruct t as [fd'|a|a]; cbn [resolve_target].
  1: { destruct (fd' =? 1)%Z eqn:E1; [|destruct (fd' =? 2)%Z eqn:E2].
    1, 2: intros E; apply xbind_panic in E; destruct E as [E|(y & s2 & _ & E)]; [now apply ask_panic in E|discriminate].
    intros E. injection E as <- <-. right. right. right. exists fd, fd'. apply Z.eqb_neq in E1, E2. auto. }
  all: intros E; eapply F; [exact E|reflexivity].
Qed.
Lemma redirect_panic r io p (s : xstate) e s' : redirect O r io p s = RPanic e s' -> blamed r p e.
Proof.
  destruct r as [fd t|lit a]; cbn [redirect]; intros E; apply xbind_panic in E; destruct E as [E|(x & s1 & _ & E)].
  - now apply resolve_target_panic with (fd := fd) in E.
  - destruct (fd =? 1)%Z eqn:E1; [discriminate|]. destruct (fd =? 2)%Z eqn:E2; [discriminate|]. injection E as <- <-.
    right. right. left. exists fd, t. apply Z.eqb_neq in E1, E2. auto.
  - apply resolve_one_panic in E. destruct E as [(x & -> & G & ->)|(l & R & N & ->)]; [left; exists (xs_world s), x; auto|].
    right. left. exists (xs_world s), a, l. auto.
  - apply xbind_panic in E. destruct E as [E|(y & s2 & _ & E)]; [|discriminate].
    destruct lit; apply xbind_panic in E; destruct E as [E|(z & s3 & _ & E)]; try discriminate; now apply ask_panic in E.
Qed.
Lemma redirect_all_panic p e s' : forall rs io (s : xstate), redirect_all O rs io p s = RPanic e s' -> exists r, In r rs /\ blamed r p e.
Proof.
  induction rs as [|r rs IH]; intros io s E; cbn [redirect_all] in E; [discriminate|].
  apply xbind_panic in E. destruct E as [E|(io' & s1 & _ & E)].
  - apply redirect_panic in E. exists r. split; [now left|exact E].
  - apply IH in E. destruct E as (r' & I & B). exists r'. split; [now right|exact B].
Qed.
Lemma basic_complaint c io (s : xstate) e s' : basic_exec O c io s = RPanic e s' -> complaint O (xs_world s) c e.
Proof.
  unfold basic_exec. intros E. apply xbind_panic in E. destruct E as [E|(prog & s1 & Q & E)].
  { apply resolve_one_panic in E. destruct E as [(x & Ep & G & ->)|(l & R & N & ->)]; [|now apply cp_program].
    apply cp_pattern; [left; exact Ep|exact G]. }
  apply resolve_one_iff in Q. destruct Q as [-> _]. apply xbind_panic in E. destruct E as [E|(env & s1 & Q & E)].
  { apply resolve_env_panic in E. destruct E as [(x & I & G & ->)|(k & a & l & I & R & N & ->)]; [|now apply cp_env with k a].
    apply cp_pattern; [right; apply in_or_app; now left|exact G]. }
  apply resolve_env_iff in Q. destruct Q as [-> _]. apply xbind_panic in E. destruct E as [E|(args & s1 & Q & E)].
  { apply resolve_all_panic in E. destruct E as (x & I & G & ->). apply cp_pattern; [right; apply in_or_app; now right|exact G]. }
  apply resolve_all_iff in Q. destruct Q as [-> _]. apply xbind_panic in E. destruct E as [E|(io' & s1 & Q & E)]; [|now apply ask_panic in E].
  apply redirect_all_panic in E.
  destruct E as (r & I & [(w & x & F & G & ->)|[(w & a & l & F & R & N & ->)|[(fd & t & -> & N1 & N2 & ->)|(fd & fd' & -> & N1 & N2 & ->)]]]).
  - now apply cp_file with w r.
  - now apply cp_redirection with w r a.
  - now apply cp_from with t.
  - now apply cp_to with fd.
Qed.

(** Nothing is started and nothing waited for *)
Definition idle (l : list event) : Prop := started l = [] /\ existsb is_wait l = false.
Lemma idle_app l l' : idle l -> idle l' -> idle (l ++ l').
Proof. intros [A B] [A' B']. split; [now rewrite started_app, A, A'|]. now rewrite existsb_app, B, B'. Qed.
(** The computation starts nothing if it does not succeed *)
Definition careful {A} (m : xstate -> ran A) : Prop := forall s,
  match m s with
  | Ran _ _ => True
  | RIo _ _ s' | RPanic _ s' | RExit _ s' => exists l, xs_log s' = xs_log s ++ l /\ idle l
  | RCrash _ => False
  end.
Definition quiet {A} (m : xstate -> ran A) : Prop := forall s,
  match m s with
  | Ran _ s' | RIo _ _ s' | RPanic _ s' | RExit _ s' => exists l, xs_log s' = xs_log s ++ l /\ idle l
  | RCrash _ => False
  end.
Lemma quiet_careful {A} (m : xstate -> ran A) : quiet m -> careful m.
Proof. intros Q s. specialize (Q s). destruct (m s); auto. Qed.
Lemma quiet_bind {A B} (m : xstate -> ran A) (f : A -> xstate -> ran B) : quiet m -> (forall a, quiet (f a)) -> quiet (xbind m f).
Proof.
  intros M F s. unfold xbind. specialize (M s). destruct (m s) as [a s1|e p s1|p s1|c s1|c]; auto. specialize (F a s1). destruct M as (l & E & I).
  destruct (f a s1) as [b s2|e p s2|p s2|c s2|c]; try contradiction; destruct F as (l' & E' & I'); exists (l ++ l'); rewrite E', E, app_assoc; split; auto using idle_app.
Qed.
Lemma careful_bind {A B} (m : xstate -> ran A) (f : A -> xstate -> ran B) : quiet m -> (forall a, careful (f a)) -> careful (xbind m f).
Proof.
  intros M F s. unfold xbind. specialize (M s). destruct (m s) as [a s1|e p s1|p s1|c s1|c]; auto. specialize (F a s1). destruct M as (l & E & I).
  destruct (f a s1) as [b s2|e p s2|p s2|c s2|c]; try contradiction; auto; destruct F as (l' & E' & I'); exists (l ++ l'); rewrite E', E, app_assoc; split; auto using idle_app.
Qed.
Lemma idle_nil : idle []. Proof. split; reflexivity. Qed.
Ltac still := exists []; rewrite app_nil_r; split; [reflexivity|exact idle_nil].
Lemma quiet_ret {A} (a : A) : quiet (xret a).
Proof. intros s. cbn. still. Qed.
Lemma quiet_panic {A} q : quiet (A := A) (xpanic q).
Proof. intros s. cbn. still. Qed.
Lemma quiet_ask {A} p (f : W -> (bytes + A) * W) log : (forall a, idle (log a)) -> quiet (ask p f log).
Proof. intros L s. unfold ask. destruct (f (xs_world s)) as [[e|a] w]; cbn; [still|]. eauto. Qed.
Lemma quiet_resolve a p : quiet (resolve O a p).
Proof. intros s. destruct a; cbn [resolve]; [destruct (o_glob _ _ _)|]; still. Qed.
Lemma quiet_one o a p : quiet (resolve_one O o a p).
Proof. apply quiet_bind; [apply quiet_resolve|]. intros [|x [|y l]]; [apply quiet_panic|apply quiet_ret|apply quiet_panic]. Qed.
Lemma quiet_all p : forall l, quiet (resolve_all O l p).
Proof. induction l as [|a l IH]; cbn [resolve_all]; [apply quiet_ret|]. apply quiet_bind; [apply quiet_resolve|]. intros x. apply quiet_bind; [exact IH|]. intros. apply quiet_ret. Qed.
Lemma quiet_env p : forall l, quiet (resolve_env O l p).
Proof. induction l as [|[k a] l IH]; cbn [resolve_env]; [apply quiet_ret|]. apply quiet_bind; [apply quiet_one|]. intros x. apply quiet_bind; [exact IH|]. intros. apply quiet_ret. Qed.
Lemma quiet_target t io p : quiet (resolve_target O t io p).
Proof.
  destruct t as [fd|a|a]; cbn [resolve_target].
  - destruct (fd =? 1)%Z; [|destruct (fd =? 2)%Z]; try apply quiet_panic; (apply quiet_bind; [apply quiet_ask; intros; apply idle_nil|]; intros; apply quiet_ret).
  - apply quiet_bind; [apply quiet_one|]. intros. apply quiet_bind; [apply quiet_ask; intros; split; reflexivity|]. intros. apply quiet_ret.
  - apply quiet_bind; [apply quiet_one|]. intros. apply quiet_bind; [apply quiet_ask; intros; split; reflexivity|]. intros. apply quiet_ret.
Qed.
Lemma quiet_redirect p : forall rs io, quiet (redirect_all O rs io p).
Proof.
  induction rs as [|r rs IH]; intros io; cbn [redirect_all]; [apply quiet_ret|]. apply quiet_bind; [|auto]. destruct r as [source t|literal a]; cbn [redirect].
  - apply quiet_bind; [apply quiet_target|]. intros. destruct (source =? 1)%Z; [apply quiet_ret|]. destruct (source =? 2)%Z; [apply quiet_ret|apply quiet_panic].
  - apply quiet_bind; [apply quiet_one|]. intros. apply quiet_bind; [|intros; apply quiet_ret]. destruct literal.
    + apply quiet_bind; [apply quiet_ask; intros; apply idle_nil|]. intros. apply quiet_ret.
    + apply quiet_bind; [apply quiet_ask; intros; split; reflexivity|]. intros. apply quiet_ret.
Qed.
Lemma basic_careful c io : careful (basic_exec O c io).
Proof.
  unfold basic_exec. apply careful_bind; [apply quiet_one|]. intros prog. apply careful_bind; [apply quiet_env|]. intros env. apply careful_bind; [apply quiet_all|]. intros args.
  apply careful_bind; [apply quiet_redirect|]. intros io' s. unfold ask. destruct (o_spawn O _ _) as [[e|k] w]; [|exact I]. cbn. still.
Qed.
Lemma not_started c io (s : xstate) :
  match basic_exec O c io s with
  | Ran _ _ => True
  | RIo _ _ s' | RPanic _ s' | RExit _ s' => exists l, xs_log s' = xs_log s ++ l /\ started l = []
  | RCrash _ => False
  end.
Proof. pose proof (basic_careful c io s) as H. destruct (basic_exec O c io s); auto; destruct H as (l & E & [S _]); eauto. Qed.

(** ** Capture blocks *)
Lemma no_empty_errors cs l ess n : block_ran cs l ess n -> Forall (fun es => es <> []) ess.
Proof. induction 1 as [|c cs l es R Ne|c cs l es l' ess n R B IH]; [constructor|repeat constructor; assumption|]. destruct es; [exact IH|]. constructor; [discriminate|exact IH]. Qed.
Lemma reported_error hh ess v : Forall (fun es => es <> []) ess -> reported X hh ess v -> (ess = [] /\ v = VNil) \/ exists d c, v = VErr d c.
Proof.
  intros F R. inversion R as [|es v' R'|? vs a]; subst; [now left| |right; eauto]. right. inversion F as [|? ? N _]; subst.
  inversion R' as [|e v' E|? vs a]; subst; [now destruct N| |eauto]. destruct E as (l & t & -> & _). eauto.
Qed.
Lemma capture_result fetch path b p h w v h' w' : xc_kind b = Capture ->
  eval_command_block X O fetch path b p h w = Val v (h', w') ->
  exists eb ess w1 s out err, build_command_block X fetch h w path b = Built eb /\ o_pipe O w = (None, w1) /\
    ((exists n, commands_exec X O (ek_head eb :: ek_tail eb) IOCaptureOut IOCaptureErr [] (mkxstate 0 [] w1) = Ran ess s /\ block_ran (ek_head eb :: ek_tail eb) (xs_log s) ess n) \/
     (exists e q, commands_exec X O (ek_head eb :: ek_tail eb) IOCaptureOut IOCaptureErr [] (mkxstate 0 [] w1) = RIo e q s /\ ess = [[mkerror e 127 q]])) /\
    o_captured O (xs_world s) = (inr (out, err), w') /\
    ((ess = [] /\ exists l, v = VDict l /\ captured_in h' l out err []) \/
     exists d c l, v = VErr d (VDict l) /\ captured_in h' l out err [(VStr (bs "error"), c)] /\ reported X h' ess (VErr d c)).
Proof.
  intros K E. unfold eval_command_block in E. destruct (build_command_block X fetch h w path b) as [eb| |]; try discriminate. rewrite K in E.
  destruct (o_pipe O w) as [[e|] w1] eqn:P; [discriminate|]. destruct (block_exec X O eb IOCaptureOut IOCaptureErr (mkxstate 0 [] w1)) as [ess s| | | |] eqn:B; try discriminate.
  destruct (block_value X ess h) as [v1 h1] eqn:V. destruct (o_captured O (xs_world s)) as [[e|[out err]] w2] eqn:C; [discriminate|].
  apply block_reported in V. destruct V as [G R].
  assert (H : ((exists n, commands_exec X O (ek_head eb :: ek_tail eb) IOCaptureOut IOCaptureErr [] (mkxstate 0 [] w1) = Ran ess s /\ block_ran (ek_head eb :: ek_tail eb) (xs_log s) ess n) \/
     (exists e q, commands_exec X O (ek_head eb :: ek_tail eb) IOCaptureOut IOCaptureErr [] (mkxstate 0 [] w1) = RIo e q s /\ ess = [[mkerror e 127 q]]))).
  { unfold block_exec in B. destruct (commands_exec X O (ek_head eb :: ek_tail eb) IOCaptureOut IOCaptureErr [] (mkxstate 0 [] w1)) as [ess' s'|e q s'| | |] eqn:Q; try discriminate; injection B as <- <-.
    - left. pose proof Q as Q'. apply commands_ran in Q'. destruct Q' as (l & ess2 & n & L & -> & Br). cbn in L. subst l. exists n. split; [reflexivity|exact Br].
    - right. eauto. }
  assert (F : Forall (fun es => es <> []) ess) by (destruct H as [(n & _ & Br)|(e & q & _ & ->)]; [eapply no_empty_errors; exact Br|repeat constructor; discriminate]).
  exists eb, ess, w1, s, out, err. split; [reflexivity|]. split; [reflexivity|]. split; [exact H|].
  destruct (reported_error _ _ _ F R) as [[-> ->]|(d & c & ->)].
  - unfold new_dict in E. injection E as <- <- <-. split; [exact C|]. left. split; [reflexivity|]. eexists. split; [reflexivity|].
    unfold captured_in. cbn [h_dicts]. rewrite nth_error_app2, Nat.sub_diag; auto.
  - unfold new_dict in E. injection E as <- <- <-. split; [exact C|]. right. exists d, c. eexists. split; [reflexivity|]. split.
    + unfold captured_in. cbn [h_dicts]. rewrite nth_error_app2, Nat.sub_diag; auto.
    + assert (GG : grown h1 (mkheap (h_cells h1) (h_arrs h1) (h_dicts h1 ++ [(VStr (bs "stdout"), VStr out) :: (VStr (bs "stderr"), VStr err) :: [(VStr (bs "error"), c)]]) (h_iters h1))).
      { exists [], [(VStr (bs "stdout"), VStr out) :: (VStr (bs "stderr"), VStr err) :: [(VStr (bs "error"), c)]]. cbn. rewrite app_nil_r. auto. }
      exact (several_lasting _ _ (several_lasting _ _ (error_lasting X)) _ _ _ _ GG R).
Qed.

(** ** Built-ins *)
Lemma builtin_law b args p (s : xstate) ls : Forall2 (resolves O (xs_world s)) args ls ->
  let st w l := mkxstate (xs_pipes s) (xs_log s ++ l) w in
  match b, concat ls with
  | BCd, [dir] =>
      forall e w, x_cd X dir (xs_world s) = (e, w) ->
      builtin_exec X O b args p s = match e with None => Ran None (st w [EvCd dir]) | Some e => RIo e p (st w []) end
  | BCd, l => builtin_exec X O b args p s = RPanic (PInvalidCommandArgs (bs "argument") (length l) p) s
  | BExec, program :: l =>
      let r := mkrequest program None [] l None in
      forall e w, o_exec O r (xs_world s) = (e, w) ->
      builtin_exec X O b args p s = match e with inr code => RExit code (st w [EvExec r]) | inl e => RIo e p (st w []) end
  | BExec0, program :: name :: l =>
      let r := mkrequest program (Some name) [] l None in
      forall e w, o_exec O r (xs_world s) = (e, w) ->
      builtin_exec X O b args p s = match e with inr code => RExit code (st w [EvExec r]) | inl e => RIo e p (st w []) end
  | BSpawn0, program :: name :: l =>
      let r := mkrequest program (Some name) [] l None in
      forall e w, o_spawn O r (xs_world s) = (e, w) ->
      match e with
      | inr child => forall x w', o_wait O child w = (x, w') ->
          builtin_exec X O b args p s = Ran (hd_error (failures [(p, x)])) (st w' [EvSpawn r child; EvWait child x])
      | inl e => builtin_exec X O b args p s = RIo e p (st w [])
      end
  | (BExec0 | BSpawn0), [_] => builtin_exec X O b args p s = RPanic (PInvalidCommandArgs (bs "arg0") 0 p) s
  | (BExec | BExec0 | BSpawn0), [] => builtin_exec X O b args p s = RPanic (PInvalidCommandArgs (bs "argument") 0 p) s
  | BAlias, _ => builtin_exec X O b args p s = RCrash CAlias
  end.
Proof.
  intros F st. assert (E : resolve_all O args p s = Ran (concat ls) s) by (apply resolve_all_iff; eauto).
  unfold builtin_exec, xbind. rewrite E. subst st.
  assert (Z : mkxstate (xs_pipes s) (xs_log s) (xs_world s) = s) by now destruct s.
  destruct b; cbv zeta; try reflexivity.
  - destruct (concat ls) as [|dir [|y l]]; try reflexivity. intros e w Q. unfold ask, attempt. rewrite Q. destruct e; cbn [xs_world xs_log xs_pipes xret]; rewrite ?app_nil_r; reflexivity.
  - destruct (concat ls) as [|cmd l]; [reflexivity|]. intros e w Q. unfold ask. rewrite Q. destruct e; rewrite ?app_nil_r; reflexivity.
  - destruct (concat ls) as [|cmd [|arg0 l]]; try reflexivity. intros e w Q. unfold ask. rewrite Q. destruct e; rewrite ?app_nil_r; reflexivity.
  - destruct (concat ls) as [|cmd [|arg0 l]]; try reflexivity. intros e w Q. unfold ask. rewrite Q. destruct e as [e|child]; [rewrite app_nil_r; reflexivity|].
    intros x w' Q'. unfold wait_child. cbn [xs_world xs_log xs_pipes]. rewrite Q', <- app_assoc. cbn [app].
    destruct x as [e|[z|z|]]; cbn [failures failed status_of message hd_error app negb]; try reflexivity.
    + unfold failed, status_of. destruct (z =? 0)%Z; reflexivity.
    + unfold failed, status_of. destruct (z + 255 =? 0)%Z; reflexivity.
Qed.

(** The status of a command is what the operating system says. *)
Lemma status_law child p (s : xstate) x w : o_wait O child (xs_world s) = (x, w) ->
  let s' := mkxstate (xs_pipes s) (xs_log s ++ [EvWait child x]) w in
  match x with
  | inr (WCode z) => wait_child O child p s = Ran (if (z =? 0)%Z then None else Some (mkerror (bs "command returned non-zero") z p)) s'
  | inl e => wait_child O child p s = Ran (Some (mkerror e 127 p)) s'
  | _ => True
  end.
Proof. intros Q. cbv zeta. unfold wait_child. rewrite Q. now destruct x as [e|[z|z|]]. Qed.
End Asked.

Section Builtins.
Context {W : Type} (X : ext W) (O : os W).
Notation xstate := (@Exec.xstate W).

Lemma cd_law args p (s : xstate) ls : Forall2 (resolves O (xs_world s)) args ls ->
  (forall dir e w, concat ls = [dir] -> x_cd X dir (xs_world s) = (e, w) ->
     builtin_exec X O BCd args p s =
     match e with
     | None => Ran None (mkxstate (xs_pipes s) (xs_log s ++ [EvCd dir]) w)
     | Some e => RIo e p (mkxstate (xs_pipes s) (xs_log s) w)
     end) /\
  (length (concat ls) <> 1 -> builtin_exec X O BCd args p s = RPanic (PInvalidCommandArgs (bs "argument") (length (concat ls)) p) s).
Proof.
  intros F. pose proof (builtin_law X O BCd args p s ls F) as L. cbv zeta in L. split.
  - intros dir e w E Q. rewrite E in L. rewrite (L e w Q), app_nil_r. reflexivity.
  - intros N. destruct (concat ls) as [|x [|y l]]; [exact L|now destruct N|exact L].
Qed.
Lemma exec_law b args p (s : xstate) ls : b = BExec \/ b = BExec0 -> Forall2 (resolves O (xs_world s)) args ls ->
  (forall r e w, match b, concat ls with
                 | BExec, program :: l => r = mkrequest program None [] l None
                 | BExec0, program :: name :: l => r = mkrequest program (Some name) [] l None
                 | _, _ => False
                 end -> o_exec O r (xs_world s) = (e, w) ->
     builtin_exec X O b args p s =
     match e with
     | inr code => RExit code (mkxstate (xs_pipes s) (xs_log s ++ [EvExec r]) w)
     | inl e => RIo e p (mkxstate (xs_pipes s) (xs_log s) w)
     end) /\
  (match b, concat ls with BExec, [] | BExec0, [] | BExec0, [_] => True | _, _ => False end ->
     exists what, builtin_exec X O b args p s = RPanic (PInvalidCommandArgs what 0 p) s).
Proof.
  intros B F. pose proof (builtin_law X O b args p s ls F) as L. cbv zeta in L. destruct B as [-> | ->].
  - split.
    + intros r e w M Q. destruct (concat ls) as [|x l]; [contradiction|]. subst r. rewrite (L e w Q), app_nil_r. reflexivity.
    + destruct (concat ls) as [|x l]; [eauto|contradiction].
  - split.
    + intros r e w M Q. destruct (concat ls) as [|x [|y l]]; try contradiction. subst r. rewrite (L e w Q), app_nil_r. reflexivity.
    + destruct (concat ls) as [|x [|y l]]; [eauto|eauto|contradiction].
Qed.
Lemma spawn0_law args p (s : xstate) ls : Forall2 (resolves O (xs_world s)) args ls ->
  (forall program name l e w, concat ls = program :: name :: l ->
     o_spawn O (mkrequest program (Some name) [] l None) (xs_world s) = (e, w) ->
     match e with
     | inr child => forall x w', o_wait O child w = (x, w') ->
         builtin_exec X O BSpawn0 args p s =
         Ran (hd_error (failures [(p, x)]))
             (mkxstate (xs_pipes s) (xs_log s ++ [EvSpawn (mkrequest program (Some name) [] l None) child; EvWait child x]) w')
     | inl e => builtin_exec X O BSpawn0 args p s = RIo e p (mkxstate (xs_pipes s) (xs_log s) w)
     end) /\
  (length (concat ls) < 2 -> exists what, builtin_exec X O BSpawn0 args p s = RPanic (PInvalidCommandArgs what 0 p) s).
Proof.
  intros F. pose proof (builtin_law X O BSpawn0 args p s ls F) as L. cbv zeta in L. split.
  - intros program name l e w E Q. rewrite E in L. specialize (L e w Q). rewrite app_nil_r in L. exact L.
  - intros N. destruct (concat ls) as [|x [|y l]]; [eauto|eauto|cbn in N; lia].
Qed.
End Builtins.
