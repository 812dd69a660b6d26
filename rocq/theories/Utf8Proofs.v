(** Proofs about UTF-8. *)
From Coq Require Import Lia ZifyClasses Zify.
From Verif Require Import Base Text Json TextProofs SpecShow SpecJson.

Definition fits_range (c : byte) (r : N * N) : Prop := (fst r <= Byte.to_N c <= snd r)%N.
Lemma to_N_byte_of n : (n < 256)%N -> Byte.to_N (byte_of n) = n.
Proof.
  intros H. unfold byte_of. destruct (Byte.of_N n) as [b|] eqn:E.
  - now apply Byte.to_of_N_iff in E.
  - apply Byte.of_N_None_iff in E. lia.
Qed.
Lemma byte_bound b : (Byte.to_N b < 256)%N.
Proof. pose proof (Byte.to_N_bounded b). lia. Qed.

(** ** The table of first bytes describes the encoding *)
Lemma divmod a b : (b <> 0)%N -> exists q r, a = (b * q + r)%N /\ (r < b)%N /\ (a / b = q)%N /\ (a mod b = r)%N.
Proof. intros H. exists (a / b)%N, (a mod b)%N. repeat split; [now apply N.div_mod|now apply N.mod_lt]. Qed.

Ltac follow_cases := unfold follow; rewrite ?to_N_byte_of by lia;
  repeat match goal with |- context [(?a <? ?b)%N] => destruct (N.ltb_spec a b); try lia
                       | |- context [(?a =? ?b)%N] => destruct (N.eqb_spec a b); try lia end.

Lemma utf8_follow c : scalar c -> exists b rest rs, utf8 c = b :: rest /\ follow b = Some rs /\ Forall2 fits_range rest rs.
Proof.
  intros H. unfold scalar in H. unfold utf8.
  destruct (N.ltb_spec c 128); [|destruct (N.ltb_spec c 2048); [|destruct (N.ltb_spec c 65536)]].
  - eexists _, _, []. split; [reflexivity|]. split; [|constructor]. now follow_cases.
  - destruct (divmod c 64 ltac:(lia)) as (q & r & E & B & -> & ->).
    eexists _, _, [(128, 191)%N]. split; [reflexivity|]. split; [now follow_cases|].
    repeat constructor; unfold fits_range; cbn [fst snd]; rewrite to_N_byte_of; lia.
  - destruct (divmod c 64 ltac:(lia)) as (q & r & E & B & -> & ->).
    destruct (divmod q 64 ltac:(lia)) as (q' & r' & E' & B' & EQ & ->).
    replace (c / 4096)%N with q'.
    2: { change 4096%N with (64 * 64)%N. rewrite <- N.div_div by lia. replace (c / 64)%N with q; [congruence|]. apply N.div_unique with r; lia. }
    eexists _, _, (match follow (byte_of (224 + q')) with Some rs => rs | None => [] end). split; [reflexivity|].
    split; follow_cases; try reflexivity; repeat constructor; unfold fits_range; cbn [fst snd]; rewrite to_N_byte_of; lia.
  - destruct (divmod c 64 ltac:(lia)) as (q & r & E & B & E1 & ->). rewrite E1.
    destruct (divmod q 64 ltac:(lia)) as (q' & r' & E' & B' & E2 & ->).
    destruct (divmod q' 64 ltac:(lia)) as (q'' & r'' & E'' & B'' & E3 & E4).
    replace (c / 4096)%N with q' by (change 4096%N with (64 * 64)%N; rewrite <- N.div_div by lia; congruence). rewrite E4.
    replace (c / 262144)%N with q'' by (change 262144%N with (64 * 64 * 64)%N; rewrite <- !N.div_div by lia; congruence).
    eexists _, _, (match follow (byte_of (240 + q'')) with Some rs => rs | None => [] end). split; [reflexivity|].
    split; follow_cases; try reflexivity; repeat constructor; unfold fits_range; cbn [fst snd]; rewrite to_N_byte_of; lia.
Qed.

Lemma byte_is b n : Byte.to_N b = n -> b = byte_of n.
Proof. intros <-. symmetry. apply byte_of_N. Qed.
Lemma utf8_2 b x : (194 <= Byte.to_N b < 224)%N -> (128 <= Byte.to_N x <= 191)%N -> exists c, scalar c /\ utf8 c = [b; x].
Proof.
  intros B X. exists (64 * (Byte.to_N b - 192) + (Byte.to_N x - 128))%N. split; [left; lia|]. unfold utf8.
  destruct (N.ltb_spec (64 * (Byte.to_N b - 192) + (Byte.to_N x - 128)) 128); [lia|].
  destruct (N.ltb_spec (64 * (Byte.to_N b - 192) + (Byte.to_N x - 128)) 2048); [|lia].
  rewrite <- (N.div_unique _ 64 (Byte.to_N b - 192) (Byte.to_N x - 128)) by lia.
  rewrite <- (N.mod_unique _ 64 (Byte.to_N b - 192) (Byte.to_N x - 128)) by lia.
  f_equal; [|f_equal]; symmetry; apply byte_is; lia.
Qed.
Lemma utf8_3 b x y c : c = (4096 * (Byte.to_N b - 224) + 64 * (Byte.to_N x - 128) + (Byte.to_N y - 128))%N ->
  (224 <= Byte.to_N b < 240)%N -> (128 <= Byte.to_N x <= 191)%N -> (128 <= Byte.to_N y <= 191)%N -> (2048 <= c)%N -> utf8 c = [b; x; y].
Proof.
  intros E B X Y L. unfold utf8. destruct (N.ltb_spec c 128); [lia|]. destruct (N.ltb_spec c 2048); [lia|]. destruct (N.ltb_spec c 65536); [|lia].
  rewrite <- (N.div_unique c 4096 (Byte.to_N b - 224) (64 * (Byte.to_N x - 128) + (Byte.to_N y - 128))) by lia.
  rewrite <- (N.div_unique c 64 (64 * (Byte.to_N b - 224) + (Byte.to_N x - 128)) (Byte.to_N y - 128)) by lia.
  rewrite <- (N.mod_unique c 64 (64 * (Byte.to_N b - 224) + (Byte.to_N x - 128)) (Byte.to_N y - 128)) by lia.
  rewrite <- (N.mod_unique _ 64 (Byte.to_N b - 224) (Byte.to_N x - 128)) by lia.
  f_equal; [|f_equal; [|f_equal]]; symmetry; apply byte_is; lia.
Qed.
Lemma utf8_4 b x y z c : c = (262144 * (Byte.to_N b - 240) + 4096 * (Byte.to_N x - 128) + 64 * (Byte.to_N y - 128) + (Byte.to_N z - 128))%N ->
  (240 <= Byte.to_N b < 248)%N -> (128 <= Byte.to_N x <= 191)%N -> (128 <= Byte.to_N y <= 191)%N -> (128 <= Byte.to_N z <= 191)%N ->
  (65536 <= c)%N -> utf8 c = [b; x; y; z].
Proof.
  intros E B X Y Z L. unfold utf8. destruct (N.ltb_spec c 128); [lia|]. destruct (N.ltb_spec c 2048); [lia|]. destruct (N.ltb_spec c 65536); [lia|].
  rewrite <- (N.div_unique c 262144 (Byte.to_N b - 240) (4096 * (Byte.to_N x - 128) + 64 * (Byte.to_N y - 128) + (Byte.to_N z - 128))) by lia.
  rewrite <- (N.div_unique c 4096 (64 * (Byte.to_N b - 240) + (Byte.to_N x - 128)) (64 * (Byte.to_N y - 128) + (Byte.to_N z - 128))) by lia.
  rewrite <- (N.div_unique c 64 (4096 * (Byte.to_N b - 240) + 64 * (Byte.to_N x - 128) + (Byte.to_N y - 128)) (Byte.to_N z - 128)) by lia.
  rewrite <- (N.mod_unique c 64 (4096 * (Byte.to_N b - 240) + 64 * (Byte.to_N x - 128) + (Byte.to_N y - 128)) (Byte.to_N z - 128)) by lia.
  rewrite <- (N.mod_unique (64 * (Byte.to_N b - 240) + _) 64 (Byte.to_N b - 240) (Byte.to_N x - 128)) by lia.
  rewrite <- (N.mod_unique _ 64 (64 * (Byte.to_N b - 240) + (Byte.to_N x - 128)) (Byte.to_N y - 128)) by lia.
  f_equal; [|f_equal; [|f_equal; [|f_equal]]]; symmetry; apply byte_is; lia.
Qed.
Lemma follow_utf8 b rest rs : follow b = Some rs -> Forall2 fits_range rest rs -> exists c, scalar c /\ utf8 c = b :: rest.
Proof.
  intros F R. pose proof (byte_bound b) as Bb. unfold follow in F.
  repeat match type of F with
    | context [(?a <? ?x)%N] => destruct (N.ltb_spec a x) in F
    | context [(?a =? ?x)%N] => destruct (N.eqb_spec a x) in F
    end; try discriminate; injection F as <-.
  all: repeat match goal with H : Forall2 fits_range _ (_ :: _) |- _ => inversion H; clear H; subst
                            | H : Forall2 fits_range _ [] |- _ => inversion H; clear H; subst end.
  all: repeat match goal with H : fits_range ?x _ |- _ => unfold fits_range in H; cbn [fst snd] in H end.
  all: try lia.
  { exists (Byte.to_N b). split; [left; lia|]. unfold utf8. destruct (N.ltb_spec (Byte.to_N b) 128); [|lia]. f_equal. apply byte_of_N. }
  { apply utf8_2; lia. }
  all: try match goal with |- exists c, _ /\ utf8 c = [?b; ?x; ?y] =>
         exists (4096 * (Byte.to_N b - 224) + 64 * (Byte.to_N x - 128) + (Byte.to_N y - 128))%N; split; [unfold scalar; lia|apply utf8_3; lia] end.
  all: match goal with |- exists c, _ /\ utf8 c = [?b; ?x; ?y; ?z] =>
         exists (262144 * (Byte.to_N b - 240) + 4096 * (Byte.to_N x - 128) + 64 * (Byte.to_N y - 128) + (Byte.to_N z - 128))%N;
           split; [unfold scalar; lia|apply utf8_4; lia] end.
Qed.

(** ** Beginnings of characters *)
Lemma range_inhabited b rs r : follow b = Some rs -> In r rs -> exists c, fits_range c r.
Proof.
  intros F I. assert (A : (r = (128, 191) \/ r = (160, 191) \/ r = (128, 159) \/ r = (144, 191) \/ r = (128, 143))%N).
  { unfold follow in F.
    repeat match type of F with
    | context [(?a <? ?x)%N] => destruct (N.ltb_spec a x) in F
    | context [(?a =? ?x)%N] => destruct (N.eqb_spec a x) in F
    end; try discriminate; injection F as <-; cbn in I; intuition. }
  decompose [or] A; subst; [exists x80|exists xa0|exists x80|exists x90|exists x80]; unfold fits_range; cbn; lia.
Qed.
Lemma fill b rs rs2 : follow b = Some (rs ++ rs2) -> exists l, Forall2 fits_range l rs2.
Proof.
  intros F. assert (A : forall r, In r rs2 -> exists c, fits_range c r).
  { intros r I. eapply range_inhabited; [exact F|]. apply in_or_app. now right. }
  clear F. induction rs2 as [|r rs2 IH]; [exists []; constructor|].
  destruct IH as [l L]; [intros; apply A; now right|]. destruct (A r (or_introl eq_refl)) as [c C]. exists (c :: l). now constructor.
Qed.
Lemma begun_follow b rest rs1 rs2 : follow b = Some (rs1 ++ rs2) -> rs2 <> [] -> Forall2 fits_range rest rs1 -> begun (b :: rest).
Proof.
  intros F N R. destruct (fill _ _ _ F) as [l L]. destruct (follow_utf8 b (rest ++ l) _ F) as (c & S & E); [now apply Forall2_app|].
  exists c, l. split; [exact S|]. split; [|exact E]. intros ->. inversion L. congruence.
Qed.
Lemma follow_begun p : begun p -> p = [] \/ exists b rest rs1 rs2, p = b :: rest /\ follow b = Some (rs1 ++ rs2) /\ rs2 <> [] /\ Forall2 fits_range rest rs1.
Proof.
  intros (c & q & S & N & E). destruct p as [|b rest]; [now left|right]. destruct (utf8_follow c S) as (b' & rest' & rs & U & F & R).
  rewrite U in E. injection E as -> ->. apply Forall2_app_inv_l in R. destruct R as (rs1 & rs2 & R1 & R2 & ->).
  exists b, rest, rs1, rs2. repeat split; try assumption. intros ->. inversion R2. congruence.
Qed.
Lemma ranges_prefix (rest : bytes) rs rest' rs' q q' : Forall2 fits_range rest rs -> Forall2 fits_range rest' rs' ->
  rest ++ q = rest' ++ q' -> length rest = length rest' -> rest = rest' /\ q = q'.
Proof.
  intros _ _. revert rest'. induction rest as [|x rest IH]; intros [|y rest'] E L; try discriminate; [now split|].
  injection E as -> E. cbn in L. destruct (IH rest' E ltac:(lia)) as [-> ->]. now split.
Qed.

(** ** The replaced text *)
Lemma app_longer {A} (a b c d : list A) : a ++ b = c ++ d -> length a <= length c -> exists e, c = a ++ e /\ b = e ++ d.
Proof.
  revert c. induction a as [|x a IH]; intros c E L; [now exists c|]. destruct c as [|y c]; [cbn in L; lia|].
  injection E as -> E. cbn in L. destruct (IH c E ltac:(lia)) as (e & -> & ->). now exists e.
Qed.
Lemma Forall2_len {A B} (R : A -> B -> Prop) l k : Forall2 R l k -> length l = length k.
Proof. induction 1; cbn; congruence. Qed.

(** [b :: rest] was read, bytes in [rs2] are missing, and [r] follows, whose first byte is not one of them. *)
Lemma bad_here b rest rs1 r1 rs2 r : follow b = Some (rs1 ++ r1 :: rs2) -> Forall2 fits_range rest rs1 ->
  (forall c r', r = c :: r' -> ~ fits_range c r1) ->
  (forall c q, scalar c -> (b :: rest) ++ r <> utf8 c ++ q) /\
  (forall p' q, begun p' -> (b :: rest) ++ r = p' ++ q -> length p' <= length (b :: rest)).
Proof.
  intros F R N.
  assert (K : forall rest' rsa rsb q, rest ++ r = rest' ++ q -> rs1 ++ r1 :: rs2 = rsa ++ rsb -> Forall2 fits_range rest' rsa -> length rest' <= length rest).
  { intros rest' rsa rsb q E S R'. destruct (Nat.le_gt_cases (length rest') (length rest)) as [|L]; [assumption|exfalso].
    destruct (app_longer _ _ _ _ E ltac:(lia)) as (e & -> & ->).
    pose proof (Forall2_len _ _ _ R) as L1. pose proof (Forall2_len _ _ _ R') as L2. rewrite app_length in *.
    destruct e as [|c e]; [cbn in *; lia|].
    destruct (app_longer _ _ _ _ S ltac:(lia)) as (f & -> & G). apply Forall2_app_inv_l in R'. destruct R' as (x & y & Rx & Ry & X).
    assert (x = rs1 /\ y = f) as [-> ->].
    { destruct (app_longer rs1 f x y X) as (z & -> & Hz); [rewrite <- (Forall2_len _ _ _ Rx); lia|].
      destruct z; [rewrite app_nil_r; now split|]. pose proof (Forall2_len _ _ _ Rx) as Q. rewrite app_length in Q. cbn in Q. lia. }
    destruct f as [|r2 f]; [inversion Ry|]. injection G as <- _. inversion Ry; subst. eapply N; [reflexivity|assumption]. }
  split.
  - intros c q S E. destruct (utf8_follow c S) as (b' & rest' & rs & U & F' & R'). rewrite U in E. injection E as <- E.
    rewrite F in F'. injection F' as <-. pose proof (K rest' _ [] q E (eq_sym (app_nil_r _)) R') as L.
    pose proof (Forall2_len _ _ _ R) as L1. pose proof (Forall2_len _ _ _ R') as L2. rewrite app_length in L2. cbn in L2. lia.
  - intros p' q B E. destruct (follow_begun p' B) as [->|(b' & rest' & rsa & rsb & -> & F' & _ & R')]; [cbn; lia|].
    injection E as <- E. rewrite F in F'. injection F' as F'. cbn. apply le_n_S. exact (K rest' rsa rsb q E F' R').
Qed.
Lemma bad_start b r : follow b = None ->
  (forall c q, scalar c -> [b] ++ r <> utf8 c ++ q) /\ (forall p' q, begun p' -> [b] ++ r = p' ++ q -> length p' <= length [b]).
Proof.
  intros F. split.
  - intros c q S E. destruct (utf8_follow c S) as (b' & rest' & rs & U & F' & R'). rewrite U in E. injection E as <- E. congruence.
  - intros p' q B E. destruct (follow_begun p' B) as [->|(b' & rest' & rsa & rsb & -> & F' & _ & R')]; [cbn; lia|].
    injection E as <- E. congruence.
Qed.
Lemma replacement_utf8 : replacement = utf8 65533.
Proof. reflexivity. Qed.

Lemma lossy_both s :
  (repaired s (lossy_from [] [] s)) /\
  (forall b rest rs1 r1 rs2, follow b = Some (rs1 ++ r1 :: rs2) -> Forall2 fits_range rest rs1 ->
     repaired ((b :: rest) ++ s) (lossy_from (b :: rest) (r1 :: rs2) s)).
Proof.
  induction s as [|c s [IH1 IH2]].
  - split; [constructor|]. intros b rest rs1 r1 rs2 F R. cbn [lossy_from].
    change replacement with (utf8 65533 ++ []). destruct (bad_here b rest rs1 r1 rs2 [] F R) as [H1 H2]; [discriminate|].
    apply rp_bad; [discriminate|left; eapply begun_follow; [exact F|discriminate|exact R]|exact H1|exact H2|constructor].
  - assert (S : repaired (c :: s) (match follow c with None => replacement ++ lossy_from [] [] s | Some [] => c :: lossy_from [] [] s | Some rs => lossy_from [c] rs s end)).
    { destruct (follow c) as [[|r rs]|] eqn:F.
      - destruct (follow_utf8 c [] [] F) as (n & N & U); [constructor|]. change (c :: s) with ([c] ++ s). change (c :: lossy_from [] [] s) with ([c] ++ lossy_from [] [] s).
        rewrite <- U. now constructor.
      - apply (IH2 c [] [] r rs F). constructor.
      - change (c :: s) with ([c] ++ s). destruct (bad_start c s F) as [H1 H2]. apply rp_bad; auto. discriminate. }
    split; [exact S|]. intros b rest rs1 [lo hi] rs2 F R. cbn [lossy_from].
    destruct ((lo <=? Byte.to_N c) && (Byte.to_N c <=? hi))%N eqn:Q.
    + apply andb_prop in Q. destruct Q as [Q1 Q2]. apply N.leb_le in Q1, Q2.
      assert (R' : Forall2 fits_range (rest ++ [c]) (rs1 ++ [(lo, hi)])) by (apply Forall2_app; [exact R|repeat constructor; exact Q1 || exact Q2]).
      destruct rs2 as [|r2 rs2].
      * destruct (follow_utf8 b (rest ++ [c]) _ F R') as (n & N & U).
        change ((b :: rest) ++ c :: s) with (b :: rest ++ [c] ++ s). change ((b :: rest) ++ c :: lossy_from [] [] s) with (b :: rest ++ [c] ++ lossy_from [] [] s).
        rewrite !(app_assoc rest). change (b :: (rest ++ [c]) ++ s) with ((b :: rest ++ [c]) ++ s).
        change (b :: (rest ++ [c]) ++ lossy_from [] [] s) with ((b :: rest ++ [c]) ++ lossy_from [] [] s). rewrite <- U. now constructor.
      * change ((b :: rest) ++ c :: s) with (b :: rest ++ [c] ++ s). rewrite (app_assoc rest). 
        apply (IH2 b (rest ++ [c]) (rs1 ++ [(lo, hi)]) r2 rs2); [rewrite <- app_assoc; exact F|exact R'].
    + destruct (bad_here b rest rs1 (lo, hi) rs2 (c :: s) F R) as [H1 H2].
      { intros c' r' [= <- <-] [A B]. cbn in A, B. apply N.leb_le in A, B. rewrite A, B in Q. discriminate. }
      apply rp_bad; [discriminate|left; eapply begun_follow; [exact F|discriminate|exact R]|exact H1|exact H2|exact S].
Qed.
Lemma lossy_repaired s : repaired s (lossy s).
Proof. apply lossy_both. Qed.

(** ** The specification gives one result *)
Lemma utf8_prefix c c' r r' : scalar c -> scalar c' -> utf8 c ++ r = utf8 c' ++ r' -> utf8 c = utf8 c' /\ r = r'.
Proof.
  intros S S' E. destruct (utf8_follow c S) as (b & rest & rs & U & F & R), (utf8_follow c' S') as (b' & rest' & rs' & U' & F' & R').
  rewrite U, U' in *. injection E as -> E. rewrite F in F'. injection F' as <-.
  destruct (ranges_prefix _ _ _ _ _ _ R R' E) as [-> ->]; [|now split]. now rewrite (Forall2_len _ _ _ R), (Forall2_len _ _ _ R').
Qed.
Lemma utf8_nonempty c : scalar c -> utf8 c <> [].
Proof. intros S. destruct (utf8_follow c S) as (b & rest & rs & U & _). now rewrite U. Qed.
Lemma repaired_fun s t : repaired s t -> forall t', repaired s t' -> t = t'.
Proof.
  induction 1 as [|c r t S R IH|p r t NE BG NC MX R IH]; intros t' H.
  - remember [] as s eqn:E. destruct H as [|c r t S R|p r t NE BG NC MX R]; [reflexivity| |].
    + apply app_eq_nil in E. now destruct (utf8_nonempty c S).
    + apply app_eq_nil in E. now destruct NE.
  - remember (utf8 c ++ r) as s eqn:E. destruct H as [|c' r' t' S' R'|p r' t' NE BG NC MX R'].
    + symmetry in E. apply app_eq_nil in E. now destruct (utf8_nonempty c S).
    + destruct (utf8_prefix _ _ _ _ S' S E) as [-> ->]. f_equal. now apply IH.
    + now apply NC in E.
  - remember (p ++ r) as s eqn:E in H. destruct H as [|c' r' t' S' R'|p' r' t' NE' BG' NC' MX' R'].
    + symmetry in E. apply app_eq_nil in E. now destruct NE.
    + symmetry in E. now apply NC in E.
    + assert (L : length p = length p').
      { assert (0 < length p /\ 0 < length p') as [L1 L2] by (destruct p, p'; cbn; split; try lia; congruence).
        assert (length p' <= length p) by (destruct BG' as [B|B]; [now apply (MX p' r')|lia]).
        assert (length p <= length p') by (destruct BG as [B|B]; [now apply (MX' p r)|lia]). lia. }
      destruct (app_longer _ _ _ _ E ltac:(lia)) as (e & -> & ->). rewrite app_length in L. destruct e; [|cbn in L; lia].
      f_equal. now apply IH.
Qed.
Lemma repaired_iff s t : repaired s t <-> t = lossy s.
Proof. split; [intros H; eapply repaired_fun; [exact H|apply lossy_repaired]|intros ->; apply lossy_repaired]. Qed.

Lemma scalar_replacement : scalar 65533.
Proof. right. lia. Qed.
Lemma repaired_text s t : repaired s t -> text t.
Proof. induction 1 as [|c r t S R IH|p r t NE BG NC MX R IH]; constructor; auto using scalar_replacement. Qed.
Lemma text_repaired s : text s -> repaired s s.
Proof. induction 1; constructor; assumption. Qed.
Lemma lossy_text s : text (lossy s).
Proof. eapply repaired_text, lossy_repaired. Qed.
Lemma lossy_unchanged s : lossy s = s <-> text s.
Proof. split; [intros <-; apply lossy_text|]. intros T. symmetry. now apply repaired_iff, text_repaired. Qed.
Lemma repaired_prefix s r t : text s -> repaired r t -> repaired (s ++ r) (s ++ t).
Proof. induction 1 as [|c s S T IH]; intros R; [exact R|]. rewrite <- !app_assoc. constructor; auto. Qed.
Lemma repair s : (forall t, repaired s t <-> t = lossy s) /\ text (lossy s) /\ (lossy s = s <-> text s).
Proof. split; [intros t; apply repaired_iff|]. split; [apply lossy_text|apply lossy_unchanged]. Qed.
Lemma letter (b : byte) : (Byte.to_N b < 128)%N -> text [b].
Proof.
  intros L. change [b] with ([b] ++ []). rewrite <- (app_nil_r [b]).
  assert (E : [b] = utf8 (Byte.to_N b)) by (unfold utf8; apply N.ltb_lt in L; rewrite L; destruct b; reflexivity).
  rewrite E. rewrite app_nil_r. apply tx_char; [unfold scalar; lia|constructor].
Qed.
