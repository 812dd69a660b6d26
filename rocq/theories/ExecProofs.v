(** Proofs about command blocks. *)
From Coq Require Import Strings.String.
From Verif Require ShowProofs.
From Verif Require Import Base Lexer Ast Program Value Text StdLib Exec SpecShow SpecExec LibProofs DataProofs.

(** ** Arguments *)
Lemma glob_det s ts : glob_syntax s ts -> forall us, glob_syntax s us -> ts = us.
Proof. induction 1; intros us H'; inversion H'; subst; try congruence; f_equal; auto. Qed.

Lemma escape_reads s p ts : glob_syntax p ts -> glob_syntax (pattern_escape s ++ p) (map GByte s ++ ts).
Proof.
  intros G. induction s as [|c s IH]; [exact G|]. unfold pattern_escape in *. cbn [flat_map map].
  destruct (is_pattern_meta c) eqn:E; cbn [app].
  - constructor; [|exact IH]. now intros ->.
  - constructor; auto; now intros ->.
Qed.
Lemma glob_app p ts q us : glob_syntax p ts -> glob_syntax q us -> glob_syntax (p ++ q) (ts ++ us).
Proof. induction 1; intros G; cbn [app]; try constructor; auto. Qed.
Lemma escaped s : glob_syntax (pattern_escape s) (map GByte s).
Proof. rewrite <- (app_nil_r (pattern_escape s)), <- (app_nil_r (map GByte s)). apply escape_reads. constructor. Qed.

(** What the arguments so far stand for; no arguments yet is one empty argument. *)
Inductive holds : args -> bool -> list (list gtoken) -> Prop :=
| ho_literals l : holds (Literals l) false (map (map GByte) (or_empty l))
| ho_patterns l tss : Forall2 glob_syntax (or_empty l) tss -> holds (Patterns l) true tss.

Lemma or_empty_ne l : or_empty l <> [].
Proof. destruct l; discriminate. Qed.
Lemma or_empty_id l : l <> [] -> or_empty l = l.
Proof. destruct l; [congruence|reflexivity]. Qed.
Lemma or_empty_map f l : or_empty (map f (or_empty l)) = map f (or_empty l).
Proof. apply or_empty_id. destruct l; discriminate. Qed.

Definition grow (alts : list (list gtoken)) (tss : list (list gtoken)) : list (list gtoken) :=
  flat_map (fun a => map (fun t => t ++ a) tss) alts.

Lemma grow_one a tss : grow [a] tss = map (fun t => t ++ a) tss.
Proof. unfold grow. cbn. apply app_nil_r. Qed.

Lemma literal_holds a b tss s : holds a b tss -> holds (push_literal s a) b (grow [map GByte s] tss).
Proof.
  rewrite grow_one. destruct 1 as [l|l tss F]; cbn [push_literal].
  - replace (map _ (map _ _)) with (map (map GByte) (or_empty (map (fun x => x ++ s) (or_empty l)))); [constructor|].
    rewrite or_empty_map, !map_map. apply map_ext. intros x. apply map_app.
  - constructor. rewrite or_empty_map. induction F; cbn; constructor; auto. apply glob_app; [assumption|apply escaped].
Qed.
Lemma pattern_holds a b tss s ts : glob_syntax s ts -> holds a b tss -> holds (push_pattern s a) true (grow [ts] tss).
Proof.
  rewrite grow_one. intros G. destruct 1 as [l|l tss F]; cbn [push_pattern]; constructor; rewrite or_empty_map.
  - induction (or_empty l); cbn; constructor; auto. apply glob_app; [apply escaped|exact G].
  - induction F; cbn; constructor; auto. now apply glob_app.
Qed.
Lemma literals_holds a b tss items : items <> [] -> holds a b tss -> holds (push_literals items a) b (grow (map (map GByte) items) tss).
Proof.
  intros N H. unfold push_literals, grow. destruct items as [|i0 items0] eqn:Ei; [congruence|]. rewrite <- Ei in *. clear i0 items0 Ei.
  assert (NE : forall (f : bytes -> bytes) l, flat_map (fun item => map (fun x : bytes => x ++ f item) (or_empty l)) items <> []).
  { intros f l. destruct items as [|i items]; [congruence|]. cbn. destruct l; discriminate. }
  destruct H as [l|l tss F].
  - match goal with |- holds (Literals ?x) _ ?y => replace y with (map (map GByte) (or_empty x)); [constructor|] end.
    rewrite or_empty_id by (apply (NE (fun x => x) l)). clear. induction items as [|i items IH]; [reflexivity|]. cbn [flat_map map].
    rewrite map_app, IH. f_equal. rewrite !map_map. apply map_ext. intros x. apply map_app.
  - constructor. rewrite or_empty_id by (apply (NE pattern_escape l)). clear -F. induction items as [|i items IH]; [constructor|]. cbn [flat_map map].
    apply Forall2_app; [|exact IH]. clear -F. induction F; cbn; constructor; auto. apply glob_app; [assumption|apply escaped].
Qed.

Definition ready (a : args) : Prop := match a with Literals [] | Patterns [] => False | _ => True end.
Lemma literal_ready s a : ready (push_literal s a).
Proof. destruct a as [[]|[]]; exact I. Qed.
Lemma pattern_ready s a : ready (push_pattern s a).
Proof. destruct a as [[]|[]]; exact I. Qed.
Lemma literals_ready items a : items <> [] -> ready (push_literals items a).
Proof. destruct items as [|i items]; [congruence|]. intros _. destruct a as [[]|[]]; exact I. Qed.

Section Build.
Context {W : Type} (X : ext W) (fetch : slot -> option value) (h : heap) (w : W) (path : bytes).

Lemma scalar_built v s p : scalar_text X v s -> build_basic_value X v p = Built s.
Proof. destruct 1; reflexivity. Qed.
Lemma scalars_built l ss p : Forall2 (scalar_text X) l ss -> bmap (fun x => build_basic_value X x p) l = Built ss.
Proof. induction 1 as [|v s l ss S F IH]; [reflexivity|]. cbn [bmap]. rewrite (scalar_built _ _ _ S). cbn [bbind]. now rewrite IH. Qed.

Lemma home_path_iff s : home_path (x_env X (bs "HOME") w) s <-> s = home_text X w.
Proof.
  unfold home_text. split.
  - intros H. inversion H as [E|E|d E|d c N E]; try reflexivity; rewrite rev_app_distr; cbn; [reflexivity|].
    rewrite <- app_assoc. destruct c; try reflexivity. congruence.
  - intros ->. destruct (x_env X (bs "HOME") w) as [t|]; [|constructor]. destruct (rev t) as [|c r] eqn:E.
    + apply (f_equal (@rev byte)) in E. rewrite rev_involutive in E. subst t. constructor.
    + apply (f_equal (@rev byte)) in E. rewrite rev_involutive in E. subst t. cbn [rev].
      pose proof (hp_plain (rev r) c) as P. rewrite app_assoc in P. destruct c; try (apply P; discriminate). apply hp_slash.
Qed.

Lemma part_built part alts a b tss : offers X fetch h w part alts -> alts <> [] -> holds a b tss ->
  exists a', build_part X fetch h w path part a = Built a' /\ holds a' (b || wildcard part) (grow alts tss) /\ ready a'.
Proof.
  intros Of N H. destruct Of as [s|s E| | |ix p v s E S|ix p l ss E F]; cbn [build_part wildcard]; rewrite ?orb_false_r, ?orb_true_r.
  - eexists. split; [reflexivity|]. split; [now apply literal_holds|apply literal_ready].
  - apply home_path_iff in E. subst s. eexists. split; [reflexivity|]. split; [now apply literal_holds|apply literal_ready].
  - eexists. split; [reflexivity|]. split; [eapply pattern_holds; [|exact H]; repeat constructor|apply pattern_ready].
  - eexists. split; [reflexivity|]. split; [eapply pattern_holds; [|exact H]; repeat constructor|apply pattern_ready].
  - unfold bfetch. rewrite E. cbn [bbind].
    assert (G : forall v', match v' with VArr _ => False | _ => True end -> scalar_text X v' s ->
      exists a', match v' with VArr l => bbind (bmap (fun x => build_basic_value X x (mkspos path p)) (arr_get h l)) (fun items => Built (push_literals items a))
                 | _ => bbind (build_basic_value X v' (mkspos path p)) (fun s => Built (push_literal s a)) end = Built a' /\ holds a' b (grow [map GByte s] tss) /\ ready a').
    { intros v' Q S'. exists (push_literal s a). split; [|split; [now apply literal_holds|apply literal_ready]]. destruct v'; try contradiction; now rewrite (scalar_built _ _ _ S'). }
    apply G; [|exact S]. now destruct S.
  - unfold bfetch. rewrite E. cbn [bbind]. rewrite (scalars_built _ _ _ F). cbn [bbind]. eexists. split; [reflexivity|].
    assert (ss <> []) by (destruct ss; [cbn in N; congruence|discriminate]). split; [now apply literals_holds|now apply literals_ready].
Qed.
Lemma part_skipped part a : offers X fetch h w part [] -> build_part X fetch h w path part a = Built a /\ wildcard part = false.
Proof.
  inversion 1 as [| | | | |ix p l ss E F Q]; subst. destruct ss; [|discriminate]. cbn [build_part]. unfold bfetch. rewrite E. cbn [bbind].
  inversion F. cbn [bmap bbind push_literals wildcard]. auto.
Qed.

Definition filled (altss : list (list (list gtoken))) := filter (fun a => match a with [] => false | _ => true end) altss.

Lemma flat_map_assoc {A B C} (f : A -> list B) (g : B -> list C) l : flat_map g (flat_map f l) = flat_map (fun x => flat_map g (f x)) l.
Proof. induction l as [|x l IH]; [reflexivity|]. cbn. now rewrite flat_map_app, IH. Qed.
Lemma map_flat {A B C} (f : A -> list B) (g : B -> C) l : map g (flat_map f l) = flat_map (fun x => map g (f x)) l.
Proof. induction l as [|x l IH]; [reflexivity|]. cbn. now rewrite map_app, IH. Qed.
Lemma flat_map_ext' {A B} (f g : A -> list B) l : (forall x, f x = g x) -> flat_map f l = flat_map g l.
Proof. intros H. induction l as [|x l IH]; [reflexivity|]. cbn. now rewrite H, IH. Qed.
Lemma flat_map_map {A B C} (f : A -> B) (g : B -> list C) l : flat_map g (map f l) = flat_map (fun x => g (f x)) l.
Proof. induction l as [|x l IH]; [reflexivity|]. cbn. now rewrite IH. Qed.

Lemma parts_built parts altss : Forall2 (offers X fetch h w) parts altss -> forall a b tss, holds a b tss ->
  exists a', build_parts X fetch h w path parts a = Built a' /\ 
    holds a' (b || existsb wildcard parts) (flat_map (fun r => map (fun t => t ++ r) tss) (combinations (filled altss))) /\
    (filled altss = [] -> a' = a) /\ (filled altss <> [] -> ready a').
Proof.
  induction 1 as [|part alts parts altss Of F IH]; intros a b tss H.
  - exists a. split; [reflexivity|]. cbn [existsb filled filter combinations flat_map]. rewrite orb_false_r, app_nil_r.
    replace (map (fun t => t ++ []) tss) with tss by (symmetry; erewrite map_ext; [apply map_id|]; intros; apply app_nil_r).
    split; [exact H|]. split; [auto|congruence].
  - cbn [build_parts existsb]. destruct alts as [|a0 alts0] eqn:Ea.
    + destruct (part_skipped part a Of) as [-> ->]. cbn [bbind orb filled filter]. apply IH. exact H.
    + rewrite <- Ea in *. assert (N : alts <> []) by (rewrite Ea; discriminate).
      destruct (part_built part alts a b tss Of N H) as (a1 & -> & H1 & R1). cbn [bbind].
      destruct (IH a1 _ _ H1) as (a' & E & H' & Q1 & Q2). exists a'. split; [exact E|]. split; [|split].
      * rewrite orb_assoc. replace (filled (alts :: altss)) with (alts :: filled altss) by (unfold filled; cbn [filter]; rewrite Ea; reflexivity).
        cbn [combinations]. rewrite flat_map_assoc. erewrite flat_map_ext'; [exact H'|]. intros r. cbn beta.
        rewrite flat_map_map. unfold grow. rewrite map_flat. apply flat_map_ext'. intros x. rewrite map_map. apply map_ext. intros t. apply app_assoc.
      * unfold filled. cbn [filter]. rewrite Ea. discriminate.
      * intros _. destruct (filled altss) as [|f fs] eqn:Ef; [|apply Q2; discriminate]. now rewrite (Q1 eq_refl).
Qed.

Lemma argument_built a altss : Forall2 (offers X fetch h w) (xa_parts a) altss ->
  exists l, build_argument X fetch h w path a = Built l /\
    (filled altss = [] -> l = []) /\
    (filled altss <> [] -> Forall2 stands_for l (combinations (filled altss)) /\
       forall x, In x l -> match x with ELiteral _ => existsb wildcard (xa_parts a) = false | EPattern _ => existsb wildcard (xa_parts a) = true end).
Proof.
  intros F. destruct (parts_built _ _ F args_default false [[]]) as (r & E & H & Q1 & Q2).
  { apply (ho_literals []). }
  unfold build_argument. rewrite E. cbn [bbind]. eexists. split; [reflexivity|]. split.
  - intros N. rewrite (Q1 N). reflexivity.
  - intros N. specialize (Q2 N). cbn [orb] in H.
    replace (flat_map (fun r => map (fun t => t ++ r) [[]]) (combinations (filled altss))) with (combinations (filled altss)) in H.
    2: { generalize (combinations (filled altss)). intros c. induction c as [|x c IH]; [reflexivity|]. cbn. f_equal. exact IH. }
    inversion H as [l E1 E2|l tss G E1 E2]; subst; cbn [args_list].
    + assert (L : or_empty l = l) by (destruct l; [destruct Q2|reflexivity]). rewrite L. split.
      * clear. induction l; cbn; constructor; auto. constructor.
      * intros x I. apply in_map_iff in I. destruct I as (y & <- & _). congruence.
    + assert (L : or_empty l = l) by (destruct l; [destruct Q2|reflexivity]). rewrite L in G. split.
      * clear -G. induction G; cbn; constructor; auto. now constructor.
      * intros x I. apply in_map_iff in I. destruct I as (y & <- & _). congruence.
Qed.
End Build.

Lemma Forall2_impl' {A B} (R R' : A -> B -> Prop) l l' : (forall a b, R a b -> R' a b) -> Forall2 R l l' -> Forall2 R' l l'.
Proof. intros H. induction 1; constructor; auto. Qed.

(** ** Running *)
Section Running.
Context {W : Type} (X : ext W) (O : os W).
Notation xstate := (@Exec.xstate W).

Lemma xbind_ran {A B} (m : xstate -> ran A) (f : A -> xstate -> ran B) s b s2 :
  xbind m f s = Ran b s2 -> exists a s1, m s = Ran a s1 /\ f a s1 = Ran b s2.
Proof. unfold xbind. destruct (m s); intros E; try discriminate. eauto. Qed.
Lemma ask_ran {A} p (f : W -> (bytes + A) * W) log s a s' :
  ask p f log s = Ran a s' -> xs_pipes s' = xs_pipes s /\ xs_log s' = xs_log s ++ log a.
Proof. unfold ask. destruct (f (xs_world s)) as [[e|x] w]; intros E; inversion E; subst. auto. Qed.

Lemma resolve_ran a p s l s' : resolve O a p s = Ran l s' -> s' = s /\ (forall t, a = ELiteral t -> l = [t]).
Proof.
  unfold resolve. destruct a as [x|x].
  - destruct (o_glob O x (xs_world s)); intros E; inversion E. split; [reflexivity|discriminate].
  - intros E. inversion E; subst. split; [reflexivity|]. congruence.
Qed.
Lemma resolve_all_ran p : forall l s r s', resolve_all O l p s = Ran r s' -> s' = s /\ (forall ss, l = map ELiteral ss -> r = ss).
Proof.
  induction l as [|a l IH]; intros s r s' E; cbn [resolve_all] in E.
  - inversion E; subst. split; [reflexivity|]. intros [|x ss] H; [reflexivity|discriminate].
  - apply xbind_ran in E. destruct E as (x & s1 & E1 & E). apply xbind_ran in E. destruct E as (y & s2 & E2 & E). inversion E; subst.
    apply resolve_ran in E1. destruct E1 as [-> R1]. apply IH in E2. destruct E2 as [-> R2]. split; [reflexivity|].
    intros [|t ss] H; [discriminate|]. injection H as H1 H2. rewrite (R1 t H1), (R2 ss H2). reflexivity.
Qed.
Lemma resolve_one_ran o a p s x s' : resolve_one O o a p s = Ran x s' -> s' = s /\ names a x.
Proof.
  unfold resolve_one. intros E. apply xbind_ran in E. destruct E as (l & s1 & E1 & E). apply resolve_ran in E1. destruct E1 as [-> R].
  destruct l as [|y [|z l]]; try discriminate. inversion E; subst. split; [reflexivity|]. intros t H. specialize (R t H). congruence.
Qed.
Lemma resolve_env_ran p : forall l s r s', resolve_env O l p s = Ran r s' ->
  s' = s /\ (forall kvs, l = map (fun kv => (fst kv, ELiteral (snd kv))) kvs -> r = kvs).
Proof.
  induction l as [|[k a] l IH]; intros s r s' E; cbn [resolve_env] in E.
  - inversion E; subst. split; [reflexivity|]. intros [|kv kvs] H; [reflexivity|discriminate].
  - apply xbind_ran in E. destruct E as (x & s1 & E1 & E). apply xbind_ran in E. destruct E as (y & s2 & E2 & E). inversion E; subst.
    apply resolve_one_ran in E1. destruct E1 as [-> N]. apply IH in E2. destruct E2 as [-> R]. split; [reflexivity|].
    intros [|[k' v] kvs] H; [discriminate|]. injection H as -> Ha Hl. rewrite (R kvs Hl), (N v Ha). reflexivity.
Qed.

Definition same_pipes (s s' : xstate) : Prop := xs_pipes s' = xs_pipes s.

Lemma target_ran t io p s e s' : resolve_target O t io p s = Ran e s' ->
  xs_pipes s' = xs_pipes s /\
  ((xs_log s' = xs_log s /\ ((t = TFd 1 /\ e = io_stdout io) \/ (t = TFd 2 /\ e = io_stderr io))) \/
   exists a m path h, xs_log s' = xs_log s ++ [EvOpen path m h] /\ e = IOFile h /\ names a path /\
     ((t, m) = (TOverwrite a, MOverwrite) \/ (t, m) = (TAppend a, MAppend))).
Proof.
  intros E. destruct t as [fd|a|a]; cbn [resolve_target] in E.
  - destruct (fd =? 1)%Z eqn:E1.
    + apply xbind_ran in E. destruct E as (u & s1 & Q & E). apply ask_ran in Q. destruct Q as [P L]. inversion E; subst.
      apply Z.eqb_eq in E1. subst. split; [exact P|]. left. rewrite L, app_nil_r. auto.
    + destruct (fd =? 2)%Z eqn:E2; [|discriminate].
      apply xbind_ran in E. destruct E as (u & s1 & Q & E). apply ask_ran in Q. destruct Q as [P L]. inversion E; subst.
      apply Z.eqb_eq in E2. subst. split; [exact P|]. left. rewrite L, app_nil_r. auto.
  - apply xbind_ran in E. destruct E as (x & s1 & Q & E). apply resolve_one_ran in Q. destruct Q as [-> N].
    apply xbind_ran in E. destruct E as (u & s2 & Q & E). apply ask_ran in Q. destruct Q as [P L]. inversion E; subst.
    split; [exact P|]. right. exists a, MOverwrite, x, u. auto.
  - apply xbind_ran in E. destruct E as (x & s1 & Q & E). apply resolve_one_ran in Q. destruct Q as [-> N].
    apply xbind_ran in E. destruct E as (u & s2 & Q & E). apply ask_ran in Q. destruct Q as [P L]. inversion E; subst.
    split; [exact P|]. right. exists a, MAppend, x, u. auto.
Qed.

Lemma redirect_ran p : forall rs io s io' s', redirect_all O rs io p s = Ran io' s' ->
  xs_pipes s' = xs_pipes s /\ exists l, xs_log s' = xs_log s ++ l /\ redirected rs l io io'.
Proof.
  induction rs as [|r rs IH]; intros [i o e] s io' s' E; cbn [redirect_all] in E.
  - inversion E; subst. split; [reflexivity|]. exists []. rewrite app_nil_r. split; [reflexivity|constructor].
  - apply xbind_ran in E. destruct E as (io1 & s1 & E1 & E). apply IH in E. destruct E as (P & l & L & R). destruct r as [src t|lit a]; cbn [redirect] in E1.
    + apply xbind_ran in E1. destruct E1 as (x & s2 & E2 & E1). apply target_ran in E2. destruct E2 as (P2 & T). cbn [io_stdin io_stdout io_stderr] in *.
      destruct (src =? 1)%Z eqn:S1; [|destruct (src =? 2)%Z eqn:S2; [|discriminate]]; inversion E1; subst;
        (split; [congruence|]); [apply Z.eqb_eq in S1|apply Z.eqb_eq in S2]; subst src.
      * destruct T as [[L2 [[-> ->]|[-> ->]]]|(a & m & path & hd & L2 & -> & N & T)].
        -- exists l. rewrite L, L2. split; [reflexivity|]. now constructor.
        -- exists l. rewrite L, L2. split; [reflexivity|]. now constructor.
        -- exists (EvOpen path m hd :: l). rewrite L, L2, <- app_assoc. split; [reflexivity|]. eapply rd_out_file; eauto.
      * destruct T as [[L2 [[-> ->]|[-> ->]]]|(a & m & path & hd & L2 & -> & N & T)].
        -- exists l. rewrite L, L2. split; [reflexivity|]. now constructor.
        -- exists l. rewrite L, L2. split; [reflexivity|]. now constructor.
        -- exists (EvOpen path m hd :: l). rewrite L, L2, <- app_assoc. split; [reflexivity|]. eapply rd_err_file; eauto.
    + apply xbind_ran in E1. destruct E1 as (x & s2 & E2 & E1). apply resolve_one_ran in E2. destruct E2 as [-> N].
      apply xbind_ran in E1. destruct E1 as (x' & s3 & E3 & E1). inversion E1; subst. destruct lit.
      * apply xbind_ran in E3. destruct E3 as (u & s4 & E4 & E3). inversion E3; subst. apply ask_ran in E4. destruct E4 as [P4 L4].
        split; [congruence|]. exists l. rewrite L, L4, app_nil_r. split; [reflexivity|]. eapply rd_in_text; eauto.
      * apply xbind_ran in E3. destruct E3 as (u & s4 & E4 & E3). inversion E3; subst. apply ask_ran in E4. destruct E4 as [P4 L4].
        split; [congruence|]. exists (EvOpen x MRead u :: l). rewrite L, L4, <- app_assoc. split; [reflexivity|]. eapply rd_in_file; eauto.
Qed.
Lemma redirected_opens rs l io io' : redirected rs l io io' -> existsb is_wait l = false /\ started l = [].
Proof. induction 1; cbn; auto. Qed.

Lemma basic_ran c io s child s' : basic_exec O c io s = Ran child s' ->
  xs_pipes s' = xs_pipes s /\ exists l r io', xs_log s' = xs_log s ++ l ++ [EvSpawn r child] /\
    redirected (eb_redirections c) l io io' /\ request_for c r /\ r_io r = Some io'.
Proof.
  unfold basic_exec. intros E. apply xbind_ran in E. destruct E as (prog & s1 & Q & E). apply resolve_one_ran in Q. destruct Q as [-> N].
  apply xbind_ran in E. destruct E as (env & s2 & Q & E). apply resolve_env_ran in Q. destruct Q as [-> Ev].
  apply xbind_ran in E. destruct E as (args & s3 & Q & E). apply resolve_all_ran in Q. destruct Q as [-> A].
  apply xbind_ran in E. destruct E as (io' & s4 & Q & E). apply redirect_ran in Q. destruct Q as (P & l & L & R).
  apply ask_ran in E. destruct E as [P' L']. split; [congruence|]. eexists l, _, io'. rewrite L', L, <- app_assoc. split; [reflexivity|].
  split; [exact R|]. split; [|reflexivity]. split; cbn [r_program r_arguments r_env r_arg0]; [|auto]. intros t H. symmetry. now apply N.
Qed.

Lemma started_app l l' : started (l ++ l') = started l ++ started l'.
Proof. induction l as [|[] l IH]; cbn; rewrite ?IH; auto. Qed.
Lemma pipe_ran p s n s' : new_pipe O p s = Ran n s' -> n = xs_pipes s /\ xs_pipes s' = S (xs_pipes s) /\ xs_log s' = xs_log s.
Proof. unfold new_pipe. destruct (o_pipe O (xs_world s)) as [[e|] w]; intros E; inversion E; subst; auto. Qed.

Lemma NoDup_app_snoc {A} (l : list A) x : NoDup l -> ~ In x l -> NoDup (l ++ [x]).
Proof.
  intros N I. induction l as [|y l IH]; cbn; [constructor; [auto|constructor]|]. inversion N; subst. constructor.
  - rewrite in_app_iff. intros [Hy|[->|[]]]; [auto|apply I; left; auto].
  - apply IH; auto. intros Hx. apply I. now right.
Qed.
Definition child_of (c : ebasic) (k : N) : N * spos * bool := (k, eb_pos c, eb_abort c).
Definition plain (c : ebasic) : Prop := eb_redirections c = [].

Lemma spawn_ran O0 E0 : forall cmds out err ch s out' err' ch' s',
  spawn_tail O cmds out err ch s = Ran (out', err', ch') s' ->
  exists l reqs kids, xs_log s' = xs_log s ++ l /\ existsb is_wait l = false /\ started l = combine reqs kids /\
    Forall2 request_for cmds reqs /\ length kids = length cmds /\ ch' = ch ++ map (fun ck => child_of (fst ck) (snd ck)) (combine cmds kids) /\
    xs_pipes s <= xs_pipes s' /\
    (Forall plain cmds -> forall done ns, (forall i, wired O0 E0 i (mkstdio i out err :: done) ns) ->
      exists ios new, map r_io reqs = map Some ios /\ Forall (fun n => xs_pipes s <= n < xs_pipes s') new /\ NoDup new /\
        forall i, wired O0 E0 i (mkstdio i out' err' :: rev ios ++ done) (new ++ ns)).
Proof.
  induction cmds as [|c cmds IH]; intros out err ch s out' err' ch' s' E; cbn [spawn_tail] in E.
  - inversion E; subst. exists [], [], []. rewrite !app_nil_r. repeat (split; [auto; try constructor|]). intros _ done ns Hw. exists [], [].
    repeat split; auto; constructor.
  - apply xbind_ran in E. destruct E as (n & s1 & Q & E). apply pipe_ran in Q. destruct Q as (-> & P1 & L1).
    apply xbind_ran in E. destruct E as (k & s2 & Q & E). apply basic_ran in Q. destruct Q as (P2 & lo & r & io' & L2 & Rd & Rq & Ri).
    apply xbind_ran in E. destruct E as (u & s3 & Q & E). apply ask_ran in Q. destruct Q as (P3 & L3). rewrite app_nil_r in L3.
    destruct (redirected_opens _ _ _ _ Rd) as [Nw Ns].
    apply IH in E. destruct E as (l & reqs & kids & L & Wt & St & F & Le & Ch & Pi & Wi).
    exists ((lo ++ [EvSpawn r k]) ++ l), (r :: reqs), (k :: kids). split; [rewrite L, L3, L2, L1, <- !app_assoc; reflexivity|].
    split; [rewrite existsb_app, existsb_app, Nw, Wt; reflexivity|]. split; [rewrite !started_app, Ns, St; reflexivity|].
    split; [constructor; auto|]. split; [cbn; congruence|]. split; [rewrite Ch, <- app_assoc; reflexivity|]. split; [lia|].
    intros Pl done ns Hw. inversion Pl as [|? ? Pc Pl']; subst. red in Pc. rewrite Pc in Rd. inversion Rd; subst.
    destruct (Wi Pl' (mkstdio (IOPipeRead (xs_pipes s)) out err :: done) (xs_pipes s :: ns)) as (ios & new & Ei & Fn & Nd & Hw').
    { intros i. constructor. apply Hw. }
    exists (mkstdio (IOPipeRead (xs_pipes s)) out err :: ios), (new ++ [xs_pipes s]). split; [cbn; congruence|]. split.
    + apply Forall_app. split; [eapply Forall_impl; [|exact Fn]; cbn; lia|]. repeat constructor; lia.
    + split.
      * apply NoDup_app_snoc; auto. intros I. rewrite Forall_forall in Fn. apply Fn in I. lia.
      * intros i. rewrite <- app_assoc. cbn [app rev]. rewrite <- app_assoc. apply Hw'.
Qed.

Lemma wait_ran k p s e s' : wait_child O k p s = Ran e s' ->
  exists r, xs_log s' = xs_log s ++ [EvWait k r] /\ failures [(p, r)] = match e with Some x => [x] | None => [] end /\
    failed r = match e with Some _ => true | None => false end.
Proof.
  unfold wait_child. destruct (o_wait O k (xs_world s)) as [[x|st] w]; intros E.
  - inversion E; subst. exists (inl x). auto.
  - exists (inr st). unfold failures, failed, message, status_of. destruct st as [z|z|]; cbv beta iota zeta in E |- *;
      match type of E with context [(?a =? 0)%Z] => destruct (a =? 0)%Z eqn:Q end; inversion E; subst; auto.
Qed.
Lemma failures_app l l' : failures (l ++ l') = failures l ++ failures l'.
Proof. induction l as [|[p r] l IH]; cbn; [reflexivity|]. now rewrite IH, app_assoc. Qed.
Lemma wait_all_ran : forall cmds kids abort errors s es ab s', length kids = length cmds ->
  wait_all O (map (fun ck => child_of (fst ck) (snd ck)) (combine cmds kids)) abort errors s = Ran (es, ab) s' ->
  exists rs, length rs = length cmds /\ xs_log s' = xs_log s ++ waits kids rs /\
    es = errors ++ failures (combine (map eb_pos cmds) rs) /\
    ab = abort || existsb (fun cr => failed (snd cr) && eb_abort (fst cr)) (combine cmds rs).
Proof.
  induction cmds as [|c cmds IH]; intros [|k kids] abort errors s es ab s' Le E; try discriminate Le; cbn [combine map child_of fst snd wait_all] in E.
  - inversion E; subst. exists []. cbn. rewrite !app_nil_r, orb_false_r. auto.
  - apply xbind_ran in E. destruct E as (e & s1 & Q & E). apply wait_ran in Q. destruct Q as (r & L & F & Fa).
    injection Le as Le. destruct e as [e|]; apply (IH kids) in E; auto; destruct E as (rs & Lr & Lg & -> & ->); exists (r :: rs);
      (split; [cbn; congruence|]); (split; [rewrite Lg, L, <- app_assoc; reflexivity|]);
      cbn [combine map existsb fst snd]; rewrite Fa; split.
    + change (failures ((eb_pos c, r) :: combine (map eb_pos cmds) rs)) with (failures ([(eb_pos c, r)] ++ combine (map eb_pos cmds) rs)).
      rewrite failures_app, F, <- app_assoc. reflexivity.
    + now rewrite andb_true_l, orb_assoc.
    + change (failures ((eb_pos c, r) :: combine (map eb_pos cmds) rs)) with (failures ([(eb_pos c, r)] ++ combine (map eb_pos cmds) rs)).
      rewrite failures_app, F. reflexivity.
    + reflexivity.
Qed.

Lemma combine_snoc {A B} (l : list A) (l' : list B) a b : length l = length l' -> combine (l ++ [a]) (l' ++ [b]) = combine l l' ++ [(a, b)].
Proof. revert l'. induction l as [|x l IH]; intros [|y l'] E; cbn in *; try discriminate; [reflexivity|]. rewrite IH; auto. Qed.
Lemma combine_rev {A B} (l : list A) (l' : list B) : length l = length l' -> combine (rev l) (rev l') = rev (combine l l').
Proof.
  revert l'. induction l as [|x l IH]; intros [|y l'] E; cbn in *; try discriminate; [reflexivity|].
  rewrite combine_snoc; [|rewrite !rev_length; auto]. rewrite IH; auto.
Qed.
Lemma Forall2_rev' {A B} (R : A -> B -> Prop) l l' : Forall2 R l l' -> Forall2 R (rev l) (rev l').
Proof. induction 1; cbn; [constructor|]. apply Forall2_app; auto. Qed.
Lemma Forall2_len {A B} (R : A -> B -> Prop) l l' : Forall2 R l l' -> length l = length l'.
Proof. induction 1; cbn; congruence. Qed.

(** The children of an external pipeline and the streams they were given. *)
Lemma pipeline_ran head tail out err s es ab s' : command_exec X O (EExternal head tail) out err s = Ran (es, ab) s' ->
  exists before requests kids rs, let cmds := head :: tail in
    xs_log s' = xs_log s ++ before ++ waits kids rs /\
    Forall2 request_for cmds requests /\ length kids = length cmds /\ length rs = length cmds /\
    existsb is_wait before = false /\ started before = rev (combine requests kids) /\
    es = failures (combine (map eb_pos cmds) rs) /\
    ab = existsb (fun cr => failed (snd cr) && eb_abort (fst cr)) (combine cmds rs) /\
    (Forall plain cmds -> exists ios ns, map r_io requests = map Some ios /\ NoDup ns /\ 
       Forall (fun n => xs_pipes s <= n) ns /\ wired out err IOStdin ios ns).
Proof.
  intros E. cbn [command_exec] in E. apply xbind_ran in E. destruct E as ([[o e] ch] & s1 & Q & E).
  apply (spawn_ran out err) in Q. destruct Q as (l & reqs & kids & L1 & Wt & St & F & Le & Ch & Pi & Wi). cbn [app] in Ch.
  apply xbind_ran in E. destruct E as (u & s2 & Q & E). apply ask_ran in Q. destruct Q as (P2 & L2). rewrite app_nil_r in L2.
  apply xbind_ran in E. destruct E as (k & s3 & Q & E). apply basic_ran in Q. destruct Q as (P3 & lo & r & io' & L3 & Rd & Rq & Ri).
  destruct (redirected_opens _ _ _ _ Rd) as [Nw Ns].
  assert (Kl : length (rev kids) = length tail) by (rewrite rev_length, Le, rev_length; reflexivity).
  assert (Cl : length reqs = length kids) by (apply Forall2_len in F; congruence).
  replace ((k, eb_pos head, eb_abort head) :: rev ch) with (map (fun ck => child_of (fst ck) (snd ck)) (combine (head :: tail) (k :: rev kids))) in E.
  2:{ cbn [combine map fst snd child_of]. f_equal. rewrite Ch, <- map_rev, <- combine_rev by auto. now rewrite rev_involutive. }
  apply wait_all_ran in E; [|cbn; congruence]. destruct E as (rs & Lr & Lg & -> & ->).
  exists (l ++ lo ++ [EvSpawn r k]), (r :: rev reqs), (k :: rev kids), rs. cbn zeta.
  split; [rewrite Lg, L3, L2, L1, <- !app_assoc; reflexivity|].
  split; [constructor; [exact Rq|]; apply Forall2_rev' in F; now rewrite rev_involutive in F|].
  split; [cbn; congruence|]. split; [exact Lr|].
  split; [rewrite !existsb_app, Wt, Nw; reflexivity|].
  split; [rewrite !started_app, St, Ns; cbn; rewrite combine_rev, rev_involutive; auto|].
  split; [reflexivity|]. split; [reflexivity|].
  intros Pl. inversion Pl as [|? ? Ph Pt]; subst. red in Ph. rewrite Ph in Rd. inversion Rd; subst.
  destruct (Wi (Forall_rev Pt) [] []) as (ios & new & Ei & Fn & Nd & Hw). { intros i. constructor. }
  exists (mkstdio IOStdin o e :: rev ios), new. split; [cbn; rewrite Ri, map_rev, Ei, <- map_rev; reflexivity|].
  split; [exact Nd|]. split; [eapply Forall_impl; [|exact Fn]; cbn; lia|]. specialize (Hw IOStdin). now rewrite !app_nil_r in Hw.
Qed.

Lemma command_ran c out err s es ab s' : command_exec X O c out err s = Ran (es, ab) s' ->
  exists l, xs_log s' = xs_log s ++ l /\ ran_as c l es ab.
Proof.
  destruct c as [b args abort p|head tail]; intros E.
  - cbn [command_exec] in E. apply xbind_ran in E. destruct E as (e & s1 & Q & E).
    unfold builtin_exec in Q. apply xbind_ran in Q. destruct Q as (l & s2 & Q1 & Q). apply resolve_all_ran in Q1. destruct Q1 as [-> _].
    destruct b; try discriminate.
    + destruct l as [|d [|? ?]]; try discriminate. apply xbind_ran in Q. destruct Q as (u & s3 & Q1 & Q). inversion Q; subst.
      apply ask_ran in Q1. destruct Q1 as [_ L]. inversion E; subst. eexists. split; [exact L|]. constructor; reflexivity.
    + destruct l as [|d l]; try discriminate. apply xbind_ran in Q. destruct Q as (u & s3 & Q1 & Q). discriminate.
    + destruct l as [|d [|d' l]]; try discriminate. apply xbind_ran in Q. destruct Q as (u & s3 & Q1 & Q). discriminate.
    + destruct l as [|d [|d' l]]; try discriminate. apply xbind_ran in Q. destruct Q as (k & s3 & Q1 & Q).
      apply ask_ran in Q1. destruct Q1 as [_ L1]. apply wait_ran in Q. destruct Q as (r & L2 & F & Fa).
      eexists. split; [destruct e; inversion E; subst; rewrite L2, L1, <- app_assoc; reflexivity|].
      replace es with (failures [(p, r)]) by (rewrite F; destruct e; inversion E; auto).
      replace ab with (failed r && abort) by (rewrite Fa; destruct e; inversion E; auto). constructor.
  - apply pipeline_ran in E. destruct E as (before & reqs & kids & rs & L & F & Lk & Lr & Nw & St & -> & -> & _).
    eexists. split; [exact L|]. econstructor; eauto.
Qed.

Lemma failures_some p r l : In (p, r) l -> failed r = true -> failures l <> [].
Proof.
  induction l as [|[q x] l IH]; intros I F; [destruct I|]. cbn [failures]. destruct I as [I|I].
  - inversion I; subst. rewrite F. discriminate.
  - destruct (failed x); [discriminate|]. cbn. auto.
Qed.
Lemma ran_stop c l es : ran_as c l es true -> es <> [].
Proof.
  intros R. remember true as ab eqn:H4. destruct R as [head tail before requests children rs cmds F Lk Lr Nw St| |args abort p r child e]; [|discriminate|].
  - apply existsb_exists in H4. destruct H4 as ([c r] & I & B). cbn in B. apply andb_prop in B. destruct B as [B _].
    eapply (failures_some (eb_pos c) r); [|exact B].
    clear - I. unfold cmds in *. revert rs I. induction (head :: tail) as [|x cs IH]; intros [|y rs] I; cbn in *; try tauto.
    destruct I as [I|I]; [inversion I; auto|right; auto].
  - apply andb_prop in H4. destruct H4 as [F _]. cbn [failures]. rewrite F. discriminate.
Qed.

Lemma commands_ran out err : forall cs errors s ess s', commands_exec X O cs out err errors s = Ran ess s' ->
  exists l ess' n, xs_log s' = xs_log s ++ l /\ ess = errors ++ ess' /\ block_ran cs l ess' n.
Proof.
  induction cs as [|c cs IH]; intros errors s ess s' E; cbn [commands_exec] in E.
  - inversion E; subst. exists [], [], 0. rewrite !app_nil_r. repeat split; constructor.
  - apply xbind_ran in E. destruct E as (u & s1 & Q & E). apply ask_ran in Q. destruct Q as (_ & L1). rewrite app_nil_r in L1.
    apply xbind_ran in E. destruct E as (u' & s2 & Q & E). apply ask_ran in Q. destruct Q as (_ & L2). rewrite app_nil_r in L2.
    apply xbind_ran in E. destruct E as ([es ab] & s3 & Q & E). apply command_ran in Q. destruct Q as (l & L3 & R). destruct ab.
    + inversion E; subst. pose proof (ran_stop _ _ _ R) as Ne. exists l, [es], 1. rewrite L3, L2, L1. split; [reflexivity|].
      split; [destruct es; congruence|]. now constructor.
    + apply IH in E. destruct E as (l' & ess' & n & L4 & -> & B). exists (l ++ l'), (match es with [] => ess' | _ => es :: ess' end), (S n).
      split; [rewrite L4, L3, L2, L1, app_assoc; reflexivity|]. split; [destruct es; [reflexivity|]; now rewrite <- app_assoc|]. now constructor.
Qed.

Lemma In_combine_nth {A B} (l : list A) (l' : list B) a b : In (a, b) (combine l l') -> In a l /\ In b l'.
Proof. intros I. split; [eapply in_combine_l|eapply in_combine_r]; eauto. Qed.
Lemma waits_in (kids : list N) rs (r : bytes + wstatus) : length kids = length rs -> In r rs -> exists k, In (EvWait k r) (waits kids rs).
Proof.
  revert rs. induction kids as [|k kids IH]; intros [|x rs] Le I; cbn in *; try discriminate; [tauto|]. destruct I as [->|I]; [eauto|].
  destruct (IH rs) as [k' H]; auto. exists k'. now right.
Qed.
Lemma ran_stopping c l es : ran_as c l es true -> stopping c l.
Proof.
  intros R. remember true as ab eqn:H4. destruct R as [head tail before requests children rs cmds F Lk Lr Nw St| |args abort p r child e]; [|discriminate|].
  - apply existsb_exists in H4. destruct H4 as ([c r] & I & B). cbn in B. apply andb_prop in B. destruct B as [B A].
    apply In_combine_nth in I. destruct I as [I J]. destruct (waits_in children rs r) as [k Hk]; [rewrite Lk, Lr; reflexivity|exact J|].
    exists c, k, r. split; [exact I|]. split; [exact A|]. split; [apply in_app_iff; right; exact Hk|exact B].
  - apply andb_prop in H4. destruct H4 as [Fe Ab]. split; [exact Ab|]. exists child, e. split; [right; left; reflexivity|exact Fe].
Qed.
Lemma block_stops cs l ess n : block_ran cs l ess n -> n < length cs ->
  exists c l', In c (firstn n cs) /\ incl l' l /\ stopping c l'.
Proof.
  induction 1 as [|c cs l es R Ne|c cs l es l' ess n R B IH]; cbn [length]; intros H; [lia| |].
  - exists c, l. split; [left; reflexivity|]. split; [apply incl_refl|]. eapply ran_stopping; eauto.
  - destruct IH as (c' & l2 & I & Hi & S); [lia|]. exists c', l2. split; [right; exact I|]. split; [apply incl_appr; exact Hi|exact S].
Qed.
Lemma block_count cs l ess n : block_ran cs l ess n -> n <= length cs.
Proof. induction 1; cbn; lia. Qed.
End Running.

(** ** Values of blocks *)
Definition grown (h h' : heap) : Prop := exists da dd, h_arrs h' = h_arrs h ++ da /\ h_dicts h' = h_dicts h ++ dd.
Lemma grown_refl h : grown h h.
Proof. exists [], []. now rewrite !app_nil_r. Qed.
Lemma grown_trans h h1 h2 : grown h h1 -> grown h1 h2 -> grown h h2.
Proof.
  intros (a & d & E1 & E2) (a' & d' & E3 & E4). exists (a ++ a'), (d ++ d'). rewrite E3, E1, E4, E2, !app_assoc. auto.
Qed.
Lemma nth_grown {A} (l l' : list A) n x : nth_error l n = Some x -> nth_error (l ++ l') n = Some x.
Proof. intros E. rewrite nth_error_app1; [exact E|]. apply nth_error_Some. congruence. Qed.

Definition lasting {A} (R : heap -> A -> value -> Prop) : Prop := forall h h' x v, grown h h' -> R h x v -> R h' x v.
Lemma error_lasting {W} (X : ext W) : lasting (error_value X).
Proof. intros h h' x v (a & d & _ & E) (l & t & -> & P & N). exists l, t. split; [reflexivity|]. split; [exact P|]. rewrite E. now apply nth_grown. Qed.
Lemma several_lasting {A} (R : heap -> A -> value -> Prop) text : lasting R -> lasting (fun h => several R text h).
Proof.
  intros L h h' x v G S. inversion S; subst; [constructor|constructor; eauto|].
  destruct G as (da & dd & E1 & E2). eapply sv_more; [eassumption|rewrite E1; apply nth_grown; eassumption|].
  eapply Forall2_impl'; [|eassumption]. intros; eapply L; eauto. exists da, dd; auto.
Qed.
Lemma status_reported {W} (X : ext W) e h v h' : status_value X e h = (v, h') -> grown h h' /\ error_value X h' e v.
Proof.
  unfold status_value, new_dict. intros E. inversion E; subst. split.
  - eexists [], _. cbn. rewrite app_nil_r. auto.
  - eexists _, _. split; [reflexivity|]. split; [now apply ShowProofs.placed_text|]. cbn. rewrite nth_error_app2, Nat.sub_diag; auto.
Qed.
Section Many.
Context {A : Type} (f : A -> heap -> value * heap) (R : heap -> A -> value -> Prop).
Hypothesis good : forall x h v h', f x h = (v, h') -> grown h h' /\ R h' x v.
Hypothesis last : lasting R.
Lemma values_reported : forall l h vs h', values_of f l h = (vs, h') -> grown h h' /\ Forall2 (R h') l vs.
Proof.
  induction l as [|x l IH]; intros h vs h' E; cbn in E.
  - inversion E; subst. split; [apply grown_refl|constructor].
  - destruct (f x h) as [v h1] eqn:E1. destruct (values_of f l h1) as [r h2] eqn:E2. inversion E; subst.
    apply good in E1. apply IH in E2. destruct E1 as [G1 R1], E2 as [G2 R2]. split; [eapply grown_trans; eauto|]. constructor; eauto.
Qed.
Lemma many_reported text l h v h' : many_value f text l h = (v, h') -> grown h h' /\ several R text h' l v.
Proof.
  unfold many_value. intros E. destruct l as [|x [|y l]].
  - inversion E; subst. split; [apply grown_refl|constructor].
  - apply good in E. destruct E. split; [auto|]. now constructor.
  - destruct (values_of f (x :: y :: l) h) as [vs h1] eqn:E1. apply values_reported in E1. destruct E1 as [G F].
    unfold new_arr in E. inversion E; subst. 
    assert (G' : grown h1 (mkheap (h_cells h1) (h_arrs h1 ++ [vs]) (h_dicts h1) (h_iters h1))) by (exists [vs], []; cbn; rewrite app_nil_r; auto).
    split; [eapply grown_trans; eauto|]. eapply sv_more; [cbn; lia| |eapply Forall2_impl'; [|exact F]; intros; eapply last; eauto].
    cbn. rewrite nth_error_app2, Nat.sub_diag; auto.
Qed.
End Many.
Lemma block_reported {W} (X : ext W) ess h v h' : block_value X ess h = (v, h') -> grown h h' /\ reported X h' ess v.
Proof.
  unfold block_value, reported. apply many_reported.
  - intros x h0 v0 h0' E. unfold pipeline_value in E. eapply many_reported in E; [exact E| |].
    + intros; now apply status_reported.
    + apply error_lasting.
  - apply several_lasting, error_lasting.
Qed.

(** ** Statements *)
Section Statements.
Context {W : Type} (X : ext W) (O : os W).

Lemma Forall2_map_r {A B C} (R : A -> C -> Prop) (f : B -> C) l l' : Forall2 (fun a b => R a (f b)) l l' -> Forall2 R l (map f l').
Proof. induction 1; cbn; constructor; auto. Qed.
Lemma combinations_single tss : combinations (map (fun t => [t]) tss) = [concat tss].
Proof. induction tss as [|t tss IH]; [reflexivity|]. cbn [map combinations]. rewrite IH. reflexivity. Qed.
Lemma filled_all altss : Forall (fun a => a <> []) altss -> filled altss = altss.
Proof. unfold filled. induction 1 as [|a altss N F IH]; [reflexivity|]. cbn [filter]. destruct a; [congruence|]. now rewrite IH. Qed.
Lemma stands_literal s us : stands_for (ELiteral s) us -> us = map GByte s.
Proof. now inversion 1. Qed.
Lemma stands_det x ts us : stands_for x ts -> stands_for x us -> us = ts.
Proof. destruct 1; inversion 1; subst; [reflexivity|]. eapply glob_det; eauto. Qed.

Lemma one_argument fetch h w path a tss : xa_parts a <> [] -> Forall2 (fun p ts => offers X fetch h w p [ts]) (xa_parts a) tss ->
  exists x, build_argument X fetch h w path a = Built [x] /\ stands_for x (concat tss) /\
    (forall us, stands_for x us -> us = concat tss) /\
    (existsb wildcard (xa_parts a) = false -> exists s, x = ELiteral s /\ concat tss = map GByte s /\ forall p st, resolve O x p st = Ran [s] st).
Proof.
  intros N F. assert (L : length tss = length (xa_parts a)) by (apply Forall2_len in F; congruence). apply Forall2_map_r in F.
  destruct (argument_built X fetch h w path a _ F) as (l & E & _ & Q).
  rewrite filled_all, combinations_single in Q by (apply Forall_forall; intros y I; apply in_map_iff in I; destruct I as (z & <- & _); discriminate).
  destruct Q as [S K].
  { destruct tss; [|discriminate]. destruct (xa_parts a); [congruence|discriminate]. }
  inversion S as [|x t l' ts' S1 S2]; subst. inversion S2; subst. exists x. split; [exact E|]. split; [exact S1|].
  split; [intros us Hu; eapply stands_det; eauto|]. intros Nw. specialize (K x (or_introl eq_refl)). destruct x as [s|s]; [congruence|].
  exists s. split; [reflexivity|]. split; [now apply stands_literal|]. reflexivity.
Qed.

Lemma array_arguments fetch h w path a altss : xa_parts a <> [] -> Forall (fun alts => alts <> []) altss ->
  Forall2 (offers X fetch h w) (xa_parts a) altss ->
  exists l, build_argument X fetch h w path a = Built l /\ Forall2 stands_for l (combinations altss).
Proof.
  intros N Ne F. destruct (argument_built X fetch h w path a _ F) as (l & E & _ & Q). rewrite filled_all in Q by exact Ne.
  exists l. split; [exact E|]. apply Q. apply Forall2_len in F. destruct altss; [|discriminate]. destruct (xa_parts a); [congruence|discriminate].
Qed.

Lemma block_errors b out err s ess s' : block_exec X O b out err s = Ran ess s' ->
  exists l, (forall xl, xs_log s = xl -> xs_log s' = xl ++ l) /\ (exists n, block_ran (ek_head b :: ek_tail b) l ess n) \/
  exists e p, commands_exec X O (ek_head b :: ek_tail b) out err [] s = RIo e p s' /\ ess = [[mkerror e 127 p]].
Proof.
  unfold block_exec. destruct (commands_exec X O (ek_head b :: ek_tail b) out err [] s) eqn:E; intros Q; inversion Q; subst.
  - apply commands_ran in E. destruct E as (l & ess' & n & L & -> & B). exists l. left. split; [intros xl <-; exact L|]. eauto.
  - exists []. right. eauto.
Qed.

Lemma block_result fetch path b p h w v h' w' : xc_kind b = Synchronous ->
  eval_command_block X O fetch path b p h w = Val v (h', w') ->
  exists eb ess s, build_command_block X fetch h w path b = Built eb /\ xs_world s = w' /\ reported X h' ess v /\
    ((exists n, block_ran (ek_head eb :: ek_tail eb) (xs_log s) ess n) \/
     (exists e q, commands_exec X O (ek_head eb :: ek_tail eb) IOStdout IOStderr [] (mkxstate 0 [] w) = RIo e q s /\ ess = [[mkerror e 127 q]])).
Proof.
  intros K E. unfold eval_command_block in E. destruct (build_command_block X fetch h w path b) as [eb| |]; try discriminate. rewrite K in E.
  destruct (block_exec X O eb IOStdout IOStderr (mkxstate 0 [] w)) as [ess s| | | |] eqn:B; try discriminate.
  destruct (block_value X ess h) as [v1 h1] eqn:V. inversion E; subst. apply block_reported in V. destruct V as [_ V].
  exists eb, ess, s. split; [reflexivity|]. split; [reflexivity|]. split; [exact V|].
  apply block_errors in B. destruct B as (l & [[L B]|B]); [|right; exact B]. left. specialize (L [] eq_refl). cbn in L. rewrite L. exact B.
Qed.

Lemma block_continues cs out err errors s ess s' : commands_exec X O cs out err errors s = Ran ess s' ->
  exists l ess' n, xs_log s' = xs_log s ++ l /\ ess = errors ++ ess' /\ block_ran cs l ess' n /\ n <= length cs /\
    (n < length cs -> exists c l', In c (firstn n cs) /\ incl l' l /\ stopping c l').
Proof.
  intros E. apply commands_ran in E. destruct E as (l & ess' & n & L & Es & B). exists l, ess', n. split; [exact L|]. split; [exact Es|].
  split; [exact B|]. split; [eapply block_count; eauto|]. eapply block_stops; eauto.
Qed.

Lemma redirections_apply c io s child s' : basic_exec O c io s = Ran child s' ->
  exists l r io', xs_log s' = xs_log s ++ l ++ [EvSpawn r child] /\ redirected (eb_redirections c) l io io' /\ r_io r = Some io'.
Proof. intros E. apply basic_ran in E. destruct E as (_ & l & r & io' & L & R & _ & I). exists l, r, io'. auto. Qed.

Lemma pipeline_wired head tail out err s es ab s' : Forall (fun c => eb_redirections c = []) (head :: tail) ->
  command_exec X O (EExternal head tail) out err s = Ran (es, ab) s' ->
  exists before after requests children ios ns, xs_log s' = xs_log s ++ before ++ after /\ existsb is_wait before = false /\
    started before = rev (combine requests children) /\ started after = [] /\
    length requests = length (head :: tail) /\ length children = length (head :: tail) /\
    map r_io requests = map Some ios /\ NoDup ns /\ wired out err IOStdin ios ns.
Proof.
  intros P E. apply pipeline_ran in E. destruct E as (before & reqs & kids & rs & L & F & Lk & Lr & Nw & St & _ & _ & Wi).
  destruct (Wi P) as (ios & ns & Ei & Nd & _ & Hw). exists before, (waits kids rs), reqs, kids, ios, ns.
  split; [exact L|]. split; [exact Nw|]. split; [exact St|]. split; [|split; [apply Forall2_len in F; auto|split; [exact Lk|auto]]].
  unfold waits. generalize (combine kids rs). intros x. induction x as [|y x IH]; [reflexivity|]. exact IH.
Qed.
Lemma wired_pipes out err i ios ns : wired out err i ios ns -> S (length ns) = length ios.
Proof. induction 1; cbn; congruence. Qed.

Lemma async_created fetch path b p h w v h' w' : xc_kind b = Asynchronous -> eval_command_block X O fetch path b p h w = Val v (h', w') ->
  exists eb d st handle, build_command_block X fetch h w path b = Built eb /\ o_async O eb w = (handle, w') /\
    v = VDict d /\ dict_entries h' d = [(VStr (bs "join"), VFun (FRust (NJoin st)))] /\
    nth_error (h_iters h') st = Some (ISJoin (Some handle)) /\ h_iters h' = h_iters h ++ [ISJoin (Some handle)].
Proof.
  intros K E. unfold eval_command_block in E. destruct (build_command_block X fetch h w path b) as [eb| |]; try discriminate. rewrite K in E.
  destruct (o_async O eb w) as [hd w1] eqn:A. unfold new_iter, new_dict in E. inversion E; subst.
  eexists eb, _, _, hd. split; [reflexivity|]. split; [exact A|]. split; [reflexivity|]. split; [|split; [|reflexivity]].
  - unfold dict_entries. cbn. now rewrite app_nth2, Nat.sub_diag by auto.
  - cbn. now rewrite nth_error_app2, Nat.sub_diag by auto.
Qed.

Lemma nth_error_set {A} (l : list A) n (a b : A) : nth_error l n = Some a -> nth_error (list_set l n b) n = Some b.
Proof. revert n. induction l as [|x l IH]; intros [|n] E; cbn in *; try discriminate; auto. Qed.

(** Joining: the first call hands over what the block gives, all later ones panic. *)
Lemma join_once st handle h n args p :
  nth_error (h_iters h) st = Some (ISJoin (Some handle)) ->
  (forall hd h1 w1 v h2 w2, x_join X hd h1 w1 = (inl (v, h2), w2) -> forall i, nth_error (h_iters h1) i = Some (ISJoin None) -> nth_error (h_iters h2) i = Some (ISJoin None)) ->
  forall w, exists h1 w1,
    ((exists v, x_join X handle (iter_set h st (ISJoin None)) w = (inl (v, h1), w1) /\ native_call X n args (NJoin st) [] p h w = Val v (h1, w1)) \/
     (exists e, x_join X handle (iter_set h st (ISJoin None)) w = (inr e, w1) /\ native_call X n args (NJoin st) [] p h w = Pan e (h1, w1))) /\
    nth_error (h_iters h1) st = Some (ISJoin None).
Proof.
  intros E J w. rewrite (join_first X st handle p h w n args E).
  assert (Q : nth_error (h_iters (iter_set h st (ISJoin None))) st = Some (ISJoin None)) by (cbn; eapply nth_error_set; eauto).
  destruct (x_join X handle (iter_set h st (ISJoin None)) w) as [[[v h1]|e] w1] eqn:Ej.
  - exists h1, w1. split; [left; eauto|]. eapply J; eauto.
  - exists (iter_set h st (ISJoin None)), w1. split; [right; eauto|]. exact Q.
Qed.
End Statements.
