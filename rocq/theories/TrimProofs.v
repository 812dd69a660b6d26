(** [std.trim] *)
From Coq Require Import Strings.String Lia.
From Verif Require Import Base Lexer Ast Program Value Text Json StdLib SpecSig SpecShow SpecRest TextProofs.

(** The encodings, by their length *)
Lemma white_cases c : white_space c ->
  (exists x, utf8 c = [x] /\ white1 x = true) \/
  (exists x y, utf8 c = [x; y] /\ white1 x = false /\ white1 y = false /\ white2 x y = true) \/
  (exists x y z, utf8 c = [x; y; z] /\ white1 x = false /\ white1 z = false /\ white2 x y = false /\ white2 y z = false /\ white3 x y z = true).
Proof.
  intros H.
  assert (In c [9;10;11;12;13;32;133;160;5760;8192;8193;8194;8195;8196;8197;8198;8199;8200;8201;8202;8232;8233;8239;8287;12288]%N) as I.
  { unfold white_space in H. assert (D : forall n, c = n -> In c [n]) by (intros; left; congruence).
    destruct H as [H|[H|[H|[H|[H|[H|[H|[H|[H|[H|H]]]]]]]]]]; try (subst c; cbn; tauto); cbn; lia. }
  clear H. repeat (destruct I as [<-|I]; [first
    [left; eexists; split; vm_compute; reflexivity
    |right; left; eexists _, _; split; [vm_compute; reflexivity|vm_compute; auto]
    |right; right; eexists _, _, _; split; [vm_compute; reflexivity|vm_compute; auto]]|]). contradiction.
Qed.

Lemma white1_char a : white1 a = true -> exists c, white_space c /\ utf8 c = [a].
Proof.
  intros H. exists (Byte.to_N a). unfold white_space. destruct a; vm_compute in H; try discriminate; (split; [vm_compute; intuition (discriminate || auto)|reflexivity]).
Qed.
Lemma white2_char a b : white2 a b = true -> exists c, white_space c /\ utf8 c = [a; b].
Proof.
  unfold white2. intros H. apply andb_true_iff in H as [H1 H2]. apply byte_eqb_eq in H1 as ->. apply orb_true_iff in H2 as [H|H]; apply byte_eqb_eq in H as ->.
  - exists 133%N. split; [unfold white_space; lia|reflexivity].
  - exists 160%N. split; [unfold white_space; lia|reflexivity].
Qed.
Lemma white3_char a b d : white3 a b d = true -> exists c, white_space c /\ utf8 c = [a; b; d].
Proof.
  unfold white3. cbv zeta. intros H. apply orb_true_iff in H as [H|H]; [apply orb_true_iff in H as [H|H]; [apply orb_true_iff in H as [H|H]|]|];
    apply andb_true_iff in H as [H H3]; apply andb_true_iff in H as [H1 H2]; apply byte_eqb_eq in H1 as ->; apply byte_eqb_eq in H2 as ->.
  - apply byte_eqb_eq in H3 as ->. exists 5760%N. split; [unfold white_space; lia|reflexivity].
  - exists (8064 + Byte.to_N d)%N. destruct d; vm_compute in H3; try discriminate; (split; [unfold white_space; cbn; lia|reflexivity]).
  - apply byte_eqb_eq in H3 as ->. exists 8287%N. split; [unfold white_space; lia|reflexivity].
  - apply byte_eqb_eq in H3 as ->. exists 12288%N. split; [unfold white_space; lia|reflexivity].
Qed.

(** ** Forwards *)

Lemma start_char c r : white_space c -> trim_start (utf8 c ++ r) = trim_start r.
Proof.
  intros H. destruct (white_cases c H) as [(x & -> & E)|[(x & y & -> & E1 & _ & E)|(x & y & z & -> & E1 & _ & E2 & _ & E)]]; cbn [app trim_start].
  - rewrite E. reflexivity.
  - rewrite E1, E. reflexivity.
  - rewrite E1, E2, E. reflexivity.
Qed.
Lemma start_whites a r : whites a -> trim_start (a ++ r) = trim_start r.
Proof. induction 1 as [|c a Hc _ IH]; [reflexivity|]. rewrite <- app_assoc, start_char; assumption. Qed.

(** A case for every way through [trim_start] *)
Lemma start_step s : (exists c r, white_space c /\ s = utf8 c ++ r) \/ (trim_start s = s).
Proof.
  destruct s as [|a [|b [|d s]]]; [right; reflexivity|..]; cbn [trim_start].
  - destruct (white1 a) eqn:E; [|right; reflexivity]. left. destruct (white1_char a E) as (c & H & U). exists c, []. rewrite U. auto.
  - destruct (white1 a) eqn:E; [left; destruct (white1_char a E) as (c & H & U); exists c, [b]; rewrite U; auto|].
    destruct (white2 a b) eqn:E2; [|right; reflexivity]. left. destruct (white2_char a b E2) as (c & H & U). exists c, []. rewrite U. auto.
  - destruct (white1 a) eqn:E; [left; destruct (white1_char a E) as (c & H & U); exists c, (b :: d :: s); rewrite U; auto|].
    destruct (white2 a b) eqn:E2; [left; destruct (white2_char a b E2) as (c & H & U); exists c, (d :: s); rewrite U; auto|].
    destruct (white3 a b d) eqn:E3; [|right; reflexivity]. left. destruct (white3_char a b d E3) as (c & H & U). exists c, s. rewrite U. auto.
Qed.
Lemma utf8_white_length c : white_space c -> 0 < length (utf8 c).
Proof. intros H. destruct (white_cases c H) as [(x & -> & E)|[(x & y & -> & _)|(x & y & z & -> & _)]]; cbn; lia. Qed.

Lemma start_shorter s : length (trim_start s) <= length s.
Proof.
  induction s as [s IH] using (well_founded_induction (Wf_nat.well_founded_ltof _ (@length byte))). unfold Wf_nat.ltof in IH.
  destruct (start_step s) as [(c & r & H & ->)|E]; [|rewrite E; lia]. rewrite start_char by exact H.
  pose proof (utf8_white_length c H). assert (length (trim_start r) <= length r) by (apply IH; rewrite app_length; lia). rewrite app_length. lia.
Qed.
Lemma start_fixed s : trim_start s = s <-> ~ begins_white s.
Proof.
  split.
  - intros E (c & r & H & ->). rewrite start_char in E by exact H. pose proof (start_shorter r) as L. rewrite E, app_length in L.
    pose proof (utf8_white_length c H). lia.
  - intros N. destruct (start_step s) as [H|E]; [destruct (N H)|exact E].
Qed.
Lemma start_split s : exists a, s = a ++ trim_start s /\ whites a /\ ~ begins_white (trim_start s).
Proof.
  induction s as [s IH] using (well_founded_induction (Wf_nat.well_founded_ltof _ (@length byte))). unfold Wf_nat.ltof in IH.
  destruct (start_step s) as [(c & r & H & ->)|E].
  - rewrite start_char by exact H. pose proof (utf8_white_length c H). destruct (IH r) as (a & E & Wa & N); [rewrite app_length; lia|].
    exists (utf8 c ++ a). split; [rewrite <- app_assoc; f_equal; exact E|]. split; [constructor; assumption|exact N].
  - exists []. split; [symmetry; exact E|]. split; [constructor|]. rewrite E. apply start_fixed. exact E.
Qed.

(** ** Backwards *)

Lemma back_char c r : white_space c -> trim_back (rev (utf8 c) ++ r) = trim_back r.
Proof.
  intros H. destruct (white_cases c H) as [(x & -> & E)|[(x & y & -> & _ & E1 & E)|(x & y & z & -> & _ & E1 & _ & E2 & E)]]; cbn [app rev trim_back].
  - rewrite E. reflexivity.
  - rewrite E1, E. reflexivity.
  - rewrite E1, E2, E. reflexivity.
Qed.
Lemma back_step s : (exists c r, white_space c /\ s = rev (utf8 c) ++ r) \/ (trim_back s = s).
Proof.
  destruct s as [|a [|b [|d s]]]; [right; reflexivity|..]; cbn [trim_back].
  - destruct (white1 a) eqn:E; [|right; reflexivity]. left. destruct (white1_char a E) as (c & H & U). exists c, []. rewrite U. auto.
  - destruct (white1 a) eqn:E; [left; destruct (white1_char a E) as (c & H & U); exists c, [b]; rewrite U; auto|].
    destruct (white2 b a) eqn:E2; [|right; reflexivity]. left. destruct (white2_char b a E2) as (c & H & U). exists c, []. rewrite U. auto.
  - destruct (white1 a) eqn:E; [left; destruct (white1_char a E) as (c & H & U); exists c, (b :: d :: s); rewrite U; auto|].
    destruct (white2 b a) eqn:E2; [left; destruct (white2_char b a E2) as (c & H & U); exists c, (d :: s); rewrite U; auto|].
    destruct (white3 d b a) eqn:E3; [|right; reflexivity]. left. destruct (white3_char d b a E3) as (c & H & U). exists c, s. rewrite U. auto.
Qed.
Lemma back_shorter s : length (trim_back s) <= length s.
Proof.
  induction s as [s IH] using (well_founded_induction (Wf_nat.well_founded_ltof _ (@length byte))). unfold Wf_nat.ltof in IH.
  destruct (back_step s) as [(c & r & H & ->)|E]; [|rewrite E; lia]. rewrite back_char by exact H.
  pose proof (utf8_white_length c H). 
  assert (length (trim_back r) <= length r) by (apply IH; rewrite app_length, rev_length; lia). rewrite app_length, rev_length. lia.
Qed.

Definition trim_end (s : bytes) : bytes := rev (trim_back (rev s)).

Lemma end_char c r : white_space c -> trim_end (r ++ utf8 c) = trim_end r.
Proof. intros H. unfold trim_end. rewrite rev_app_distr, back_char by exact H. reflexivity. Qed.
Lemma whites_app a b : whites a -> whites b -> whites (a ++ b).
Proof. induction 1; intros Hb; [exact Hb|]. rewrite <- app_assoc. constructor; auto. Qed.
Lemma whites_one c : white_space c -> whites (utf8 c).
Proof. intros H. rewrite <- (app_nil_r (utf8 c)). constructor; [exact H|constructor]. Qed.
Lemma end_whites b : whites b -> forall r, trim_end (r ++ b) = trim_end r.
Proof.
  induction 1 as [|c b Hc Hb IH]; intros r; [rewrite app_nil_r; reflexivity|]. rewrite app_assoc, IH, end_char by exact Hc. reflexivity.
Qed.
Lemma end_fixed s : trim_end s = s <-> ~ ends_white s.
Proof.
  split.
  - intros E (c & r & H & ->). rewrite end_char in E by exact H. unfold trim_end in E. pose proof (back_shorter (rev r)) as L.
    apply (f_equal (@length byte)) in E. rewrite app_length, rev_length in E. rewrite rev_length in L.
    pose proof (utf8_white_length c H). lia.
  - intros N. unfold trim_end. destruct (back_step (rev s)) as [(c & r & H & E)|E]; [|rewrite E, rev_involutive; reflexivity].
    exfalso. apply N. exists c, (rev r). split; [exact H|]. apply (f_equal (@rev byte)) in E. rewrite rev_involutive, rev_app_distr, rev_involutive in E. exact E.
Qed.
Lemma end_split s : exists b, s = trim_end s ++ b /\ whites b /\ ~ ends_white (trim_end s).
Proof.
  induction s as [s IH] using (well_founded_induction (Wf_nat.well_founded_ltof _ (@length byte))). unfold Wf_nat.ltof in IH.
  destruct (back_step (rev s)) as [(c & r & H & E)|E].
  - apply (f_equal (@rev byte)) in E. rewrite rev_involutive, rev_app_distr, rev_involutive in E. subst s.
    rewrite end_char by exact H. pose proof (utf8_white_length c H). destruct (IH (rev r)) as (b & E & Wb & N); [rewrite app_length; lia|].
    exists (b ++ utf8 c). split; [rewrite app_assoc; f_equal; exact E|]. split; [apply whites_app; [exact Wb|apply whites_one; exact H]|exact N].
  - assert (F : trim_end s = s) by (unfold trim_end; rewrite E; apply rev_involutive). exists []. rewrite F, app_nil_r. split; [reflexivity|].
    split; [constructor|]. apply end_fixed. exact F.
Qed.

(** ** Both *)

Lemma begins_app m b : begins_white m -> begins_white (m ++ b).
Proof. intros (c & r & H & ->). exists c, (r ++ b). rewrite app_assoc. auto. Qed.

Lemma trim_trimmed t : trimmed t (trim t).
Proof.
  destruct (start_split t) as (a & Ea & Wa & Na). destruct (end_split (trim_start t)) as (b & Eb & Wb & Nb). unfold trim. fold (trim_end (trim_start t)).
  exists a, b. split; [rewrite <- Eb; exact Ea|]. split; [exact Wa|]. split; [exact Wb|]. split; [|exact Nb].
  intros H. apply Na. rewrite Eb. apply begins_app. exact H.
Qed.

(** White space does not begin with a byte in the middle of a character. *)
Definition middle (x : byte) : bool := ((128 <=? Byte.to_N x) && (Byte.to_N x <=? 191))%N.
Lemma whites_first x r : whites (x :: r) -> middle x = false.
Proof.
  intros H. remember (x :: r) as l eqn:E. destruct H as [|c l H _]; [discriminate|].
  destruct (white_cases c H) as [(y & U & F)|[(y & z & U & _ & _ & F)|(y & z & u & U & _ & _ & _ & _ & F)]]; rewrite U in E; injection E as -> _.
  - destruct x; vm_compute in F; try discriminate; reflexivity.
  - unfold white2 in F. apply andb_true_iff in F as [F _]. apply byte_eqb_eq in F as ->. reflexivity.
  - destruct x; try reflexivity; discriminate F.
Qed.
Lemma white_later c x r : white_space c -> utf8 c = x :: r -> Forall (fun y => middle y = true) r.
Proof.
  intros H E. destruct (white_cases c H) as [(y & U & F)|[(y & z & U & _ & _ & F)|(y & z & u & U & _ & _ & _ & _ & F)]]; rewrite U in E; injection E as -> <-.
  - constructor.
  - unfold white2 in F. apply andb_true_iff in F as [_ F]. constructor; [|constructor]. apply orb_true_iff in F as [F|F]; apply byte_eqb_eq in F as ->; reflexivity.
  - unfold white3 in F. cbv zeta in F. repeat rewrite orb_true_iff in F. repeat rewrite andb_true_iff in F.
    destruct F as [[[F|F]|F]|F]; destruct F as [[_ F1] F2]; apply byte_eqb_eq in F1 as ->; (constructor; [reflexivity|constructor; [|constructor]]);
      try (apply byte_eqb_eq in F2 as ->; reflexivity). destruct u; try reflexivity; vm_compute in F2; decompose [and or] F2; discriminate.
Qed.
Lemma not_begins_app m b : m <> [] -> whites b -> ~ begins_white m -> ~ begins_white (m ++ b).
Proof.
  intros Hm Hb N (c & r & H & E). apply N. destruct m as [|x m]; [congruence|]. clear Hm N.
  pose proof (utf8_white_length c H) as L. destruct (utf8 c) as [|x' u] eqn:U; [cbn in L; lia|]. pose proof (white_later c _ _ H U) as Hl.
  cbn in E. injection E as <- E. assert (G : exists r', m = u ++ r').
  { clear U L H. revert m E. induction Hl as [|y u Hy _ IH]; intros m E; [exists m; reflexivity|]. destruct m as [|z m].
    - cbn in E. subst b. apply whites_first in Hb. congruence.
    - cbn in E. injection E as -> E. destruct (IH m E) as [r' ->]. exists r'. reflexivity. }
  destruct G as [r' ->]. exists c, r'. split; [exact H|]. rewrite U. reflexivity.
Qed.

Lemma trimmed_trim t m : trimmed t m -> m = trim t.
Proof.
  intros (a & b & -> & Wa & Wb & N1 & N2). unfold trim. rewrite start_whites by exact Wa. fold (trim_end (trim_start (m ++ b))).
  destruct m as [|x m].
  - cbn [app]. rewrite <- (app_nil_r b). rewrite start_whites by exact Wb. reflexivity.
  - rewrite (proj2 (start_fixed _) (not_begins_app (x :: m) b ltac:(discriminate) Wb N1)). rewrite end_whites by exact Wb. symmetry. apply end_fixed. exact N2.
Qed.

Lemma trim_call {W} (X : ext W) n ra t p h w v :
  std_call X n ra STrim [VStr t] p h w = Val v (h, w) <-> exists m, trimmed t m /\ v = VStr m.
Proof.
  cbn. split.
  - intros E. injection E as <-. exists (trim t). split; [apply trim_trimmed|reflexivity].
  - intros (m & H & ->). apply trimmed_trim in H as ->. reflexivity.
Qed.
