(** Proofs about finding the library's functions in a running program. *)
From Coq Require Import Strings.String Permutation Lia.
From Verif Require Import Base Lexer Ast Program Value Text StdLib Exec Runtime SpecLaws LawProofs SpecRuntime Library SpecNames NamesProofs.

Lemma found_same_dicts h h' l path v : h_dicts h = h_dicts h' -> found h l path v -> found h' l path v.
Proof.
  intros E F. assert (forall l, dict_entries h l = dict_entries h' l) as D by (intros; unfold dict_entries; now rewrite E).
  induction F as [l k v I|l k l' path v I F IH]; [apply fo_last|apply (fo_more _ _ _ l'); [|exact IH]]; now rewrite <- D.
Qed.
Lemma holds_same_dicts h h' l : h_dicts h = h_dicts h' -> holds_library h l -> holds_library h' l.
Proof.
  intros E (A & B & C). split; [|split].
  - intros path f I. apply (found_same_dicts h); auto.
  - intros path v v' X Y. apply (B path); apply (found_same_dicts h'); auto.
  - intros path v X. apply C. apply (found_same_dicts h'); auto.
Qed.

Definition model_order : list std_fun :=
  std_functions ++ [SBase64Encode; SBase64Decode; SHexEncode; SHexDecode; SJsonEncode; SJsonDecode].
Lemma model_order_all f : In f model_order.
Proof. destruct f; vm_compute; repeat (first [left; reflexivity|right]). Qed.
Lemma model_library : lib_new model_order empty_library = Some (mkheap [] [] std_dicts []).
Proof. vm_compute. reflexivity. Qed.
Lemma initial_library {W} args (w : W) : holds_library (st_heap (initial args w)) 0.
Proof.
  apply (holds_same_dicts (mkheap [] [] std_dicts [])); [reflexivity|].
  destruct (new_built model_order [] empty_library built_empty) as (h & E & B). rewrite model_library in E. injection E as <-.
  apply (built_holds (rev model_order ++ [])); [|exact B]. intros f. rewrite app_nil_r. apply -> in_rev. apply model_order_all.
Qed.

Section Run.
Context {W : Type} (X : ext W) (O : os W).
Lemma access_name n u e s l s1 k p : gives X O n u e s (VDict l) s1 ->
  match field_of (dict_entries (st_heap s1) l) k with
  | Some v => gives X O (S n) u (XAccess e (XLit (LString k) p) p) s v s1
  | None => panics X O (S n) u (XAccess e (XLit (LString k) p) p) s (PIndexOutOfBounds (VStr k) (at_ u p)) s1
  end.
Proof.
  intros (q & o & E). destruct n as [|n]; [discriminate|].
  assert (ev_expr (interp X O (S (S n))) u (XAccess e (XLit (LString k) p) p) s =
    bind (ev_expr (interp X O (S n)) u e) (fun '(fo, op, _) =>
      match fo with
      | Reg obj => bind (access (S n) obj op (VStr k) (at_ u p)) (fun v => ret (Reg v, at_ u p, obj))
      | f => ret (f, at_ u p, VNil)
      end) s) as R by reflexivity.
  unfold gives, panics. rewrite R. unfold bind. rewrite E. unfold access, bind, get. rewrite get_name.
  destruct (field_of (dict_entries (st_heap s1) l) k) as [v|]; [repeat eexists|reflexivity].
Qed.
Lemma field_of_get d k : field_of d k = str_get k d.
Proof. induction d as [|[[] v] d IH]; cbn; try exact IH; [reflexivity|]. destruct (bytes_eqb k s); [reflexivity|exact IH]. Qed.
Lemma field_of_some d k v : field_of d k = Some v -> In (VStr k, v) d.
Proof.
  induction d as [|[a b] d IH]; [discriminate|]. destruct a; cbn [field_of]; auto using in_cons.
  destruct (bytes_eqb k s) eqn:E; [|auto using in_cons]. apply beq_eq in E. intros [= ->]. subst. now left.
Qed.
Lemma field_of_none d k v : field_of d k = None -> ~ In (VStr k, v) d.
Proof.
  induction d as [|[a b] d IH]; [auto|]. destruct a; cbn [field_of]; intros E [I|I]; try discriminate I; try (now apply IH in E).
  - injection I as -> ->. now rewrite beq_refl in E.
  - destruct (bytes_eqb k s); [discriminate|]. now apply IH in E.
Qed.

Lemma find_along n u e s s1 path f p l : gives X O n u e s (VDict l) s1 -> holds_library (st_heap s1) l ->
  In (path, f) library -> exists m, gives X O m u (along e path p) s (function_of f) s1.
Proof.
  intros G (A & B & _) I. pose proof (A _ _ I) as Fd. apply in_library in I.
  destruct (path_shape f) as [(k & E & _)|(g & k & E & _)]; rewrite I, E in *; cbn [along fold_left].
  - pose proof (access_name n u e s l s1 k p G) as N.
    destruct (field_of (dict_entries (st_heap s1) l) k) as [v|] eqn:Q.
    + apply field_of_some in Q. rewrite (B [k] _ v Fd) by now apply fo_last. exists (S n). exact N.
    + inversion Fd as [? ? ? J|? ? ? ? ? J K]; subst; [|inversion K]. now apply (field_of_none _ _ _ Q) in J.
  - inversion Fd as [|? ? l' ? ? J K]; subst. inversion K as [? ? ? J'|? ? ? ? ? J' K']; subst; [|inversion K'].
    pose proof (access_name n u e s l s1 g p G) as N.
    destruct (field_of (dict_entries (st_heap s1) l) g) as [v|] eqn:Q; [|now apply (field_of_none _ _ _ Q) in J].
    apply field_of_some in Q. rewrite (B [g] v (VDict l')) in N by now apply fo_last.
    pose proof (access_name (S n) u _ s l' s1 k p N) as N'.
    destruct (field_of (dict_entries (st_heap s1) l') k) as [w|] eqn:Q'; [|now apply (field_of_none _ _ _ Q') in J'].
    apply field_of_some in Q'. rewrite (B [g; k] _ w Fd); [exists (S (S n)); exact N'|].
    apply (fo_more _ _ _ l'); [exact J|]. now apply fo_last.
Qed.
Lemma missing_name n u e s s1 k p l : gives X O n u e s (VDict l) s1 -> holds_library (st_heap s1) l ->
  (forall path f, ~ In (k :: path, f) library) ->
  panics X O (S n) u (along e [k] p) s (PIndexOutOfBounds (VStr k) (at_ u p)) s1.
Proof.
  intros G (_ & _ & C) N. pose proof (access_name n u e s l s1 k p G) as H. cbn [along fold_left].
  destruct (field_of (dict_entries (st_heap s1) l) k) as [v|] eqn:Q; [|exact H]. apply field_of_some in Q.
  destruct (C [k] v) as [(f & I & _)|(_ & x & f & I)]; [now apply fo_last|now apply N in I|now apply N in I].
Qed.
End Run.

Lemma initial_std {W} args (w : W) : std_value = VDict 0 /\ holds_library (st_heap (initial args w)) 0.
Proof. split; [reflexivity|apply initial_library]. Qed.
Lemma named_once f : exists path, In (path, f) library /\
  (forall path' f', In (path', f') library -> (path' = path <-> f' = f)) /\ std_name f = bs "std" ++ dotted path.
Proof.
  exists (path_of f). split; [now apply in_library|]. split; [|apply dotted_name].
  intros p g I. apply in_library in I. subst. split; [apply path_inj|now intros ->].
Qed.
