(** Proofs about JSON. *)
From Verif Require Import Base Value Json SpecRun SpecShare.

Section Induction.
Variable P : json -> Prop.
Hypotheses (PN : P JNull) (PB : forall b, P (JBool b)) (PI : forall z, P (JInt z)) (PF : forall f, P (JFloat f)) (PS : forall s, P (JStr s))
  (PA : forall l, Forall P l -> P (JArr l)) (PO : forall l, Forall (fun e => P (snd e)) l -> P (JObj l)).
Fixpoint json_nested (j : json) : P j :=
  match j with
  | JNull => PN | JBool b => PB b | JInt z => PI z | JFloat f => PF f | JStr s => PS s
  | JArr l => PA l ((fix go l : Forall P l := match l with [] => Forall_nil _ | x :: l' => Forall_cons x (json_nested x) (go l') end) l)
  | JObj l => PO l ((fix go l : Forall (fun e => P (snd e)) l := match l with [] => Forall_nil _ | x :: l' => Forall_cons x (json_nested (snd x)) (go l') end) l)
  end.
End Induction.

Fixpoint from_items (l : list json) (acc : list value) (h : heap) : option (value * heap) :=
  match l with
  | [] => Some (new_arr h acc)
  | x :: l' => match from_json x h with None => None | Some (v, h) => from_items l' (acc ++ [v]) h end
  end.
Fixpoint from_entries (l : list (bytes * json)) (acc : list (value * value)) (h : heap) : option (value * heap) :=
  match l with
  | [] => Some (new_dict h acc)
  | (k, x) :: l' => match from_json x h with None => None | Some (v, h) => from_entries l' (insert_key k v acc) h end
  end.
Lemma from_arr l h : from_json (JArr l) h = from_items l [] h.
Proof. cbn [from_json]. match goal with |- ?g l [] h = _ => set (go := g) end. assert (G : forall acc h, go l acc h = from_items l acc h); [|apply G]. clear h. induction l as [|x l IH]; intros acc h; [reflexivity|]. cbn [from_items]. unfold go. fold go. destruct (from_json x h) as [[v h1]|]; [apply IH|reflexivity]. Qed.
Lemma from_obj l h : from_json (JObj l) h = from_entries l [] h.
Proof.
  cbn [from_json]. match goal with |- ?g l [] h = _ => set (go := g) end. assert (G : forall acc h, go l acc h = from_entries l acc h); [|apply G]. clear h. induction l as [|[k x] l IH]; intros acc h; [reflexivity|].
  cbn [from_entries]. unfold go. fold go. destruct (from_json x h) as [[v h1]|]; [apply IH|reflexivity].
Qed.

(** ** Decoding adds data *)
Definition adds_more (h h' : heap) : Prop := adds_data h VNil h'.
Lemma adds_split h v h' : adds_data h v h' <-> adds_more h h' /\ plain v.
Proof.
  split.
  - intros (a & d & E & P & A & D). split; [|exact P]. exists a, d. now repeat split.
  - intros [(a & d & E & _ & A & D) P]. exists a, d. now repeat split.
Qed.
Lemma adds_more_refl h : adds_more h h.
Proof. exists [], []. rewrite !app_nil_r. destruct h. repeat split; constructor. Qed.
Lemma adds_more_trans a b c : adds_more a b -> adds_more b c -> adds_more a c.
Proof.
  intros (x & y & -> & _ & A & D) (x' & y' & -> & _ & A' & D'). exists (x ++ x'), (y ++ y'). cbn [h_cells h_arrs h_dicts h_iters].
  rewrite !app_assoc. repeat split; apply Forall_app; now split.
Qed.
Definition plain_entry (e : value * value) : Prop := plain (fst e) /\ plain (snd e).
Lemma insert_key_plain k v d : plain v -> Forall plain_entry d -> Forall plain_entry (insert_key k v d).
Proof.
  intros V F. induction F as [|[a b] d [A B] F IH]; cbn [insert_key]; [repeat constructor; exact V|].
  destruct a; try (constructor; [now split|exact IH]). destruct (bytes_eqb k s); constructor; try exact IH; try exact F; split; cbn in *; auto.
Qed.

Lemma from_json_adds : forall j h v h', from_json j h = Some (v, h') -> adds_data h v h'.
Proof.
  induction j as [|b|z|f|s|l IH|l IH] using json_nested; intros h v h' E.
  1-2: injection E as <- <-; apply adds_split; split; [apply adds_more_refl|exact I].
  - cbn [from_json] in E. destruct (z <=? _)%Z; [|discriminate]. injection E as <- <-; apply adds_split; split; [apply adds_more_refl|exact I].
  - injection E as <- <-; apply adds_split; split; [apply adds_more_refl|exact I].
  - injection E as <- <-; apply adds_split; split; [apply adds_more_refl|exact I].
  - rewrite from_arr in E. assert (A : Forall plain []) by constructor. revert E A. generalize (@nil value). revert h.
    induction IH as [|x l H _ IHl]; intros h acc E A; cbn [from_items] in E.
    + injection E as <- <-. apply adds_split. split; [|exact I]. exists [acc], []. rewrite app_nil_r. repeat split; repeat constructor; exact A.
    + destruct (from_json x h) as [[u h1]|] eqn:F; [|discriminate]. apply H, adds_split in F. destruct F as [F P].
      apply IHl in E; [|apply Forall_app; split; [exact A|now repeat constructor]]. apply adds_split in E. apply adds_split.
      split; [eapply adds_more_trans; [exact F|apply E]|apply E].
  - rewrite from_obj in E. assert (A : Forall plain_entry []) by constructor. revert E A. generalize (@nil (value * value)). revert h.
    induction IH as [|[k x] l H _ IHl]; intros h acc E A; cbn [from_entries] in E.
    + injection E as <- <-. apply adds_split. split; [|exact I]. exists [], [acc]. rewrite app_nil_r. repeat split; repeat constructor; exact A.
    + destruct (from_json x h) as [[u h1]|] eqn:F; [|discriminate]. cbn [snd] in H. apply H, adds_split in F. destruct F as [F P].
      apply IHl in E; [|now apply insert_key_plain]. apply adds_split in E. apply adds_split.
      split; [eapply adds_more_trans; [exact F|apply E]|apply E].
Qed.

(** ** Closed variables do not matter *)
Definition recelled (cs : list value) (r : option (value * heap)) : option (value * heap) :=
  match r with Some (v, h) => Some (v, recell cs h) | None => None end.
Lemma from_json_recell cs : forall j h, from_json j (recell cs h) = recelled cs (from_json j h).
Proof.
  induction j as [|b|z|f|s|l IH|l IH] using json_nested; intros h; try reflexivity.
  - cbn [from_json]. now destruct (z <=? _)%Z.
  - rewrite !from_arr. generalize (@nil value). revert h. induction IH as [|x l H _ IHl]; intros h acc; [reflexivity|].
    cbn [from_items]. rewrite H. destruct (from_json x h) as [[v h1]|]; [cbn [recelled]; apply IHl|reflexivity].
  - rewrite !from_obj. generalize (@nil (value * value)). revert h. induction IH as [|[k x] l H _ IHl]; intros h acc; [reflexivity|].
    cbn [from_entries]. cbn [snd] in H. rewrite H. destruct (from_json x h) as [[v h1]|]; [cbn [recelled]; apply IHl|reflexivity].
Qed.
Lemma each_json_ext {A B} (f g : A -> walk (option B)) l : (forall x, f x = g x) -> each_json f l = each_json g l.
Proof. intros H. induction l as [|x l IH]; [reflexivity|]. cbn [each_json]. rewrite H. destruct (g x) as [[y|]| |]; cbn [wbind]; try reflexivity. now rewrite IH. Qed.
Lemma to_json_recell order cs h : forall n v, to_json order n (recell cs h) v = to_json order n h v.
Proof.
  induction n as [|n IH]; intros v; [reflexivity|]. cbn [to_json]. destruct v; try reflexivity.
  - change (arr_get (recell cs h) l) with (arr_get h l). now rewrite (each_json_ext _ _ _ IH).
  - change (dict_entries (recell cs h) l) with (dict_entries h l). f_equal. apply each_json_ext. intros [k v]. cbn [fst snd]. destruct k; try reflexivity. now rewrite IH.
Qed.
