(** Lemmas on containers, conversions and the environment. *)
From Coq Require Import Strings.String Lia.
From Verif Require Import Base Lexer Ast Program Value StdLib Exec Runtime SpecSig FuelProofs DataProofs ConvProofs.

Section Cont.
Context {W : Type}.
Variable X : ext W.

Lemma len_call n ra v p h w k : counts h v k ->
  std_call X n ra SLen [v] p h w = Val (VInt (Z.of_nat k)) (h, w) /\
  std_call X n ra SIsEmpty [v] p h w = Val (VBool (Nat.eqb k 0)) (h, w).
Proof.
  intros C. destruct C as [s|l items E|l es E]; cbn [std_call].
  - split; [reflexivity|]. now destruct s.
  - unfold arr_get. rewrite (nth_error_nth _ _ _ E). split; [reflexivity|]. now destruct items.
  - unfold dict_entries. rewrite (nth_error_nth _ _ _ E). split; [reflexivity|]. now destruct es.
Qed.

Lemma compared_le h n m a b r : n <= m -> eqv h n false a b = Known r -> eqv h m false a b = Known r.
Proof. intros L E. destruct (eqv_le h n m L false a b) as [D|D]; congruence. Qed.
Lemma any_among h v r : forall items, (exists n, any (fun x => eqv h n false x v) items = Known r) <-> among h items v r.
Proof.
  induction items as [|x items IH].
  - split; [intros [n E]; cbn in E|].
    + injection E as <-. intros y [].
    + intros A. destruct r; [destruct A as (b & y & a & E & _); now destruct b|]. now exists 0.
  - split.
    + intros [n E]. cbn [any] in E. destruct (eqv h n false x v) as [[]| |] eqn:Q; cbn [wbind] in E; try discriminate.
      * injection E as <-. exists [], x, items. split; [reflexivity|]. split; [intros ? []|now exists n].
      * assert (A : among h items v r) by (apply IH; eauto). destruct r.
        -- destruct A as (b & y & a & -> & F & T). exists (x :: b), y, a. split; [reflexivity|]. split; [|exact T]. intros z [<-|I]; [now exists n|auto].
        -- intros y [<-|I]; [now exists n|auto].
    + intros A. destruct r.
      * destruct A as ([|z b] & y & a & E & F & [n T]); injection E as <- ->.
        -- exists n. cbn [any]. now rewrite T.
        -- destruct (proj2 IH) as [m Q]; [exists b, y, a; split; [reflexivity|]; split; [intros u I; apply F; now right|now exists n]|].
           destruct (F x (or_introl eq_refl)) as [k Fx]. exists (m + k). cbn [any]. rewrite (compared_le h k (m + k) _ _ _ ltac:(lia) Fx). cbn [wbind].
           destruct (any_le (fun x => eqv h m false x v) (fun x => eqv h (m + k) false x v) (fun x => eqv_le h m (m + k) ltac:(lia) false x v) (b ++ y :: a)) as [D|D]; congruence.
      * destruct (proj2 IH) as [m Q]; [intros y I; apply A; now right|]. destruct (A x (or_introl eq_refl)) as [k Fx].
        exists (m + k). cbn [any]. rewrite (compared_le h k (m + k) _ _ _ ltac:(lia) Fx). cbn [wbind].
        destruct (any_le (fun x => eqv h m false x v) (fun x => eqv h (m + k) false x v) (fun x => eqv_le h m (m + k) ltac:(lia) false x v) items) as [D|D]; congruence.
Qed.
Lemma contains_array ra l items v p h w r : nth_error (h_arrs h) l = Some items ->
  (exists n, std_call X n ra SContains [VArr l; v] p h w = Val (VBool r) (h, w)) <-> among h items v r.
Proof.
  intros E. rewrite <- any_among. cbn [std_call]. unfold arr_contains, arr_get. rewrite (nth_error_nth _ _ _ E).
  split; intros [n Q]; exists n.
  - destruct (any _ items); cbn [walked] in Q; congruence.
  - now rewrite Q.
Qed.
Lemma contains_dict n ra l k p q (s : state W) r :
  std_call X n ra SContains [VDict l; k] p (st_heap s) (st_world s) = Val (VBool r) (st_heap s, st_world s) <->
  if r then exists v, access n (VDict l) q k p s = Val v s
  else access n (VDict l) q k p s = Pan (PIndexOutOfBounds k p) s.
Proof.
  cbn [std_call]. unfold access, bind, get. destruct (dict_get (st_heap s) n l k) as [[v|]| |]; cbn [walked of_walk]; destruct r; cbn; split; intros Q; try discriminate; try reflexivity; try (now exists v); try (destruct Q; discriminate).
Qed.
Lemma contains_string n ra s c p h w : exists r,
  std_call X n ra SContains [VStr s; VByte c] p h w = Val (VBool r) (h, w) /\ (r = true <-> In c s).
Proof.
  exists (existsb (byte_eqb c) s). split; [reflexivity|]. rewrite existsb_exists. split.
  - intros (x & I & E). apply byte_eqb_bytec in E. now subst.
  - intros I. exists c. split; [exact I|]. now apply byte_eqb_bytec.
Qed.

(** ** Environment *)
Lemma has_byte c s : existsb (byte_eqb c) s = true <-> In c s.
Proof.
  rewrite existsb_exists. split; [intros (x & I & E); apply byte_eqb_bytec in E; now subst|]. intros I. exists c. split; [exact I|]. now apply byte_eqb_bytec.
Qed.
Lemma has_no_byte c s : existsb (byte_eqb c) s = false <-> ~ In c s.
Proof. rewrite <- has_byte. destruct (existsb _ s); split; congruence || (intros H; now destruct H). Qed.
Lemma export_call n ra k v p h w :
  (exportable k v -> std_call X n ra SExport [VStr k; VStr v] p h w = Val VNil (h, x_set_env X k v w)) /\
  (In x3d k \/ In x00 k -> std_call X n ra SExport [VStr k; VStr v] p h w = Val (VErr (bs "invalid export key") (VStr k)) (h, w)) /\
  (~ In x3d k -> ~ In x00 k -> In x00 v -> std_call X n ra SExport [VStr k; VStr v] p h w = Val (VErr (bs "invalid export value") (VStr v)) (h, w)).
Proof.
  cbn [std_call]. split; [|split].
  - intros (N & A & B & C). apply has_no_byte in A, B, C. rewrite A, B, C. cbn [orb]. destruct k; [now destruct N|reflexivity].
  - intros H. replace (existsb (byte_eqb x3d) k || existsb (byte_eqb x00) k) with true; [reflexivity|]. symmetry. apply Bool.orb_true_iff. now rewrite !has_byte.
  - intros A B C. apply has_no_byte in A, B. apply has_byte in C. now rewrite A, B, C.
Qed.
Lemma env_after_export n m ra ra' k v p q h h' w : environment X -> exportable k v -> exists w',
  std_call X n ra SExport [VStr k; VStr v] p h w = Val VNil (h, w') /\
  std_call X m ra' SEnv [VStr k] q h' w' = Val (VStr v) (h', w') /\
  forall k', k' <> k -> exists r, std_call X m ra' SEnv [VStr k'] q h' w = Val r (h', w) /\ std_call X m ra' SEnv [VStr k'] q h' w' = Val r (h', w').
Proof.
  intros E Q. exists (x_set_env X k v w). split; [now apply export_call|]. destruct (E k v w) as [A B]. cbn [std_call]. split; [now rewrite A|].
  intros k' N. exists (match x_env X k' w with Some v => VStr v | None => VNil end). split; [reflexivity|]. now rewrite B.
Qed.

(** ** Conversions *)
Lemma int_call n ra f p h w z : std_call X n ra SInt [VFloat f] p h w = Val (VInt z) (h, w) <-> truncated f z.
Proof. cbn [std_call]. rewrite int_truncated. split; congruence. Qed.
Lemma float_call n m ra ra' z p q h w h' w' : (Z.abs z <= 2 ^ 53)%Z -> exists f,
  std_call X n ra SFloat [VInt z] p h w = Val (VFloat f) (h, w) /\ same_number z f /\
  std_call X m ra' SInt [VFloat f] q h' w' = Val (VInt z) (h', w').
Proof.
  intros L. exists (float_of_int z). split; [reflexivity|]. pose proof (float_small z L) as S. split; [exact S|]. cbn [std_call].
  rewrite (same_number_back z); [reflexivity| |exact S]. unfold in_i64, i64_min, i64_max. apply andb_true_intro. split; apply Z.leb_le; lia.
Qed.
End Cont.
