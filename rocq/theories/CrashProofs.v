(** When the interpreter itself fails. *)
From Coq Require Import Strings.String.
From Verif Require Import Base Lexer Ast Parser Program Sema Value Text Json StdLib Exec Runtime Demo SpecRun SpecLaws
  LawProofs PrintProofs SpecCrash SoundLibProofs RunProofs.
Close Scope string_scope.

Lemma wbind_busy {A B} (w : walk A) (f : A -> walk B) : wbind w f = Busy ->
  w = Busy \/ exists a, w = Known a /\ f a = Busy.
Proof. destruct w; cbn; eauto. discriminate. Qed.

Lemma insert_members {A} (cmp : A -> A -> walk comparison) x l : forall r,
  insert_sorted cmp x l = Known r -> forall y, In y r -> y = x \/ In y l.
Proof.
  induction l as [|z l IH]; intros r; cbn [insert_sorted].
  - intros [= <-] y [<-|[]]. auto.
  - destruct (cmp x z) as [[]| |]; cbn [wbind]; try discriminate.
    + destruct (insert_sorted cmp x l) as [r'| |] eqn:E; cbn [wbind]; try discriminate.
      intros [= <-] y [<-|H]; [right; now left|]. destruct (IH _ eq_refl _ H); auto. right. now right.
    + intros [= <-] y [<-|H]; auto.
    + destruct (insert_sorted cmp x l) as [r'| |] eqn:E; cbn [wbind]; try discriminate.
      intros [= <-] y [<-|H]; [right; now left|]. destruct (IH _ eq_refl _ H); auto. right. now right.
Qed.

Lemma insert_busy {A} (cmp : A -> A -> walk comparison) x l :
  insert_sorted cmp x l = Busy -> exists y, In y l /\ cmp x y = Busy.
Proof.
  induction l as [|z l IH]; cbn [insert_sorted]; [discriminate|]. intros H.
  apply wbind_busy in H. destruct H as [H|(c & Hc & H)]; [exists z; split; [now left|assumption]|].
  assert (G : insert_sorted cmp x l = Busy).
  { destruct c; [| |]; try discriminate H; apply wbind_busy in H; destruct H as [H|(r & _ & H)]; auto; discriminate. }
  destruct (IH G) as (y & H1 & H2). exists y. split; [now right|assumption].
Qed.

Lemma sort_busy {A} (cmp : A -> A -> walk comparison) l :
  sort_walk cmp l = Busy -> exists x y, In x l /\ In y l /\ cmp x y = Busy.
Proof.
  unfold sort_walk.
  assert (G : forall l all acc, (forall y, In y l -> In y all) ->
    (forall r, acc = Known r -> forall y, In y r -> In y all) ->
    (acc = Busy -> exists x y, In x all /\ In y all /\ cmp x y = Busy) ->
    fold_left (fun acc x => wbind acc (insert_sorted cmp x)) l acc = Busy ->
    exists x y, In x all /\ In y all /\ cmp x y = Busy).
  { clear l. induction l as [|x l IH]; intros all acc H1 H2 H3 H; [exact (H3 H)|].
    cbn [fold_left] in H. eapply IH; [| | |exact H].
    - intros y Hy. apply H1. now right.
    - intros r Hr y Hy. destruct acc as [a| |]; try discriminate. cbn [wbind] in Hr.
      destruct (insert_members _ _ _ _ Hr _ Hy) as [->|G]; [apply H1; now left|eapply H2; eauto].
    - intros Hb. apply wbind_busy in Hb. destruct Hb as [Hb|(a & -> & Hb)]; [auto|].
      apply insert_busy in Hb. destruct Hb as (y & G1 & G2). exists x, y.
      split; [apply H1; now left|]. split; [eapply H2; eauto|assumption]. }
  intros H. eapply (G l l (Known [])); auto. 2: discriminate. intros r [= <-] y [].
Qed.

Lemma sort_members {A} (cmp : A -> A -> walk comparison) l r :
  sort_walk cmp l = Known r -> forall y, In y r -> In y l.
Proof.
  unfold sort_walk.
  assert (G : forall l all acc, (forall y, In y l -> In y all) ->
    (forall r, acc = Known r -> forall y, In y r -> In y all) -> forall r,
    fold_left (fun acc x => wbind acc (insert_sorted cmp x)) l acc = Known r ->
    forall y, In y r -> In y all).
  { clear l r. induction l as [|x l IH]; intros all acc H1 H2 r H; [exact (H2 r H)|].
    cbn [fold_left] in H. eapply IH; [| |exact H].
    - intros y Hy. apply H1. now right.
    - intros r' Hr y Hy. destruct acc as [a| |]; try discriminate. cbn [wbind] in Hr.
      destruct (insert_members _ _ _ _ Hr _ Hy) as [->|G]; [apply H1; now left|eapply H2; eauto]. }
  intros H. eapply (G l l (Known [])); auto. intros r' [= <-] y [].
Qed.

Lemma dedup_free {A} (eq : A -> A -> walk bool) l : (forall x y, eq x y <> Busy) -> dedup eq l <> Busy.
Proof.
  intros H. induction l as [|x [|y l] IH]; try discriminate. cbn [dedup] in *. apply wbind_free; [apply H|].
  intros []; [exact IH|]. apply wbind_free; [exact IH|discriminate].
Qed.
Lemma dedup_members {A} (eq : A -> A -> walk bool) l : forall r, dedup eq l = Known r -> forall y, In y r -> In y l.
Proof.
  induction l as [|x l IH]; intros r; [intros [= <-]; auto|]. destruct l as [|z l]; [intros [= <-]; auto|].
  change (dedup eq (x :: z :: l)) with (wbind (eq x z) (fun r =>
    if r then dedup eq (z :: l) else wbind (dedup eq (z :: l)) (fun t => Known (x :: t)))).
  destruct (eq x z) as [[]| |]; cbn [wbind]; try discriminate.
  - intros H y Hy. right. eapply IH; eauto.
  - destruct (dedup eq (z :: l)) as [r'| |]; cbn [wbind]; try discriminate.
    intros [= <-] y [<-|Hy]; [now left|]. right. eapply IH; eauto.
Qed.

Lemma lex_busy {A} (cmp : A -> A -> walk comparison) a : forall b,
  Value.lex cmp a b = Busy -> exists x y, In x a /\ In y b /\ cmp x y = Busy.
Proof.
  induction a as [|x a IH]; intros [|y b]; cbn [Value.lex]; try discriminate. intros H.
  apply wbind_busy in H. destruct H as [H|(c & _ & H)].
  - exists x, y. split; [now left|]. split; [now left|assumption].
  - destruct c; try discriminate. destruct (IH _ H) as (x' & y' & H1 & H2 & H3).
    exists x', y'. split; [now right|]. split; [now right|assumption].
Qed.

Definition locked (k : lock) : option value :=
  match k with LockNone => None | LockArr l => Some (VArr l) | LockDict l => Some (VDict l) end.

Lemma arr_lock k l : arr_locked k l = true -> locked k = Some (VArr l).
Proof. destruct k; cbn; try discriminate. intros H. apply Nat.eqb_eq in H. now subst. Qed.
Lemma dict_lock k l : dict_locked k l = true -> locked k = Some (VDict l).
Proof. destruct k; cbn; try discriminate. intros H. apply Nat.eqb_eq in H. now subst. Qed.

Lemma cmp_busy rank h n k : forall a b, vcmp rank h n k a b = Busy ->
  exists x, locked k = Some x /\ (inside h x a \/ inside h x b).
Proof.
  induction n as [|n IH]; intros a b; [discriminate|].
  destruct a as [| | | | | |l|l|f|d c], b as [| | | | | |l'|l'|f'|d' c']; try discriminate; cbn [vcmp]; intros H.
  - destruct (arr_locked k l) eqn:E1.
    { exists (VArr l). split; [now apply arr_lock|]. left. constructor. }
    destruct (arr_locked k l') eqn:E2.
    { exists (VArr l'). split; [now apply arr_lock|]. right. constructor. }
    cbn [orb] in H. apply lex_busy in H. destruct H as (x & y & H1 & H2 & H3).
    destruct (IH _ _ H3) as (z & H4 & [H5|H5]); exists z; (split; [assumption|]); [left; eapply in_array; [exact H1|exact H5]|right; eapply in_array; [exact H2|exact H5]].
  - assert (En : forall l0, (if dict_locked k l0 then Busy else
        wbind (sort_walk (fun e e' : value * value => vcmp rank h n k (fst e) (fst e')) (dict_entries h l0))
              (dedup (fun e e' : value * value => eqv h n false (fst e) (fst e')))) = Busy ->
        exists x, locked k = Some x /\ inside h x (VDict l0)).
    { intros l0. destruct (dict_locked k l0) eqn:E.
      - intros _. exists (VDict l0). split; [now apply dict_lock|constructor].
      - intros Hb. apply wbind_busy in Hb. destruct Hb as [Hb|(r & _ & Hb)].
        + apply sort_busy in Hb. destruct Hb as ([kx vx] & [ky vy] & H1 & H2 & H3). cbn [fst] in H3.
          destruct (IH _ _ H3) as (z & H4 & [H5|H5]); exists z; (split; [assumption|]); [eapply in_key; [exact H1|exact H5]|eapply in_key; [exact H2|exact H5]].
        + exfalso. revert Hb. apply dedup_free. intros. apply eqv_free. }
    assert (Em : forall l0 r, (if dict_locked k l0 then Busy else
        wbind (sort_walk (fun e e' : value * value => vcmp rank h n k (fst e) (fst e')) (dict_entries h l0))
              (dedup (fun e e' : value * value => eqv h n false (fst e) (fst e')))) = Known r ->
        forall e, In e r -> In e (dict_entries h l0)).
    { clear H. intros l0 r. destruct (dict_locked k l0); [discriminate|].
      destruct (sort_walk _ _) as [r'| |] eqn:E; cbn [wbind]; try discriminate.
      intros Hd e He. eapply sort_members; [exact E|]. eapply dedup_members; eauto. }
    apply wbind_busy in H. destruct H as [H|(ex & Hx & H)].
    { apply En in H. destruct H as (x & H1 & H2). eauto. }
    apply wbind_busy in H. destruct H as [H|(ey & Hy & H)].
    { apply En in H. destruct H as (x & H1 & H2). eauto. }
    apply lex_busy in H. destruct H as ([kx vx] & [ky vy] & H1 & H2 & H3). cbn [fst snd] in H3.
    apply (Em _ _ Hx) in H1. apply (Em _ _ Hy) in H2.
    apply wbind_busy in H3. destruct H3 as [H3|(c & _ & H3)].
    + destruct (IH _ _ H3) as (z & H4 & [H5|H5]); exists z; (split; [assumption|]); [left; eapply in_key; [exact H1|exact H5]|right; eapply in_key; [exact H2|exact H5]].
    + destruct c; try discriminate.
      destruct (IH _ _ H3) as (z & H4 & [H5|H5]); exists z; (split; [assumption|]); [left; eapply in_value; [exact H1|exact H5]|right; eapply in_value; [exact H2|exact H5]].
  - destruct (bytes_cmp d d'); try discriminate.
    destruct (IH _ _ H) as (z & H4 & [H5|H5]); exists z; (split; [assumption|]); [left|right]; now apply in_context.
Qed.

Lemma fold_busy {A} (f : A -> walk unit) l : forall w,
  fold_left (fun acc x => wbind acc (fun _ => f x)) l w = Busy -> w = Busy \/ exists x, In x l /\ f x = Busy.
Proof.
  induction l as [|x l IH]; intros w H; [auto|]. cbn [fold_left] in H. apply IH in H.
  destruct H as [H|(y & H1 & H2)].
  - apply wbind_busy in H. destruct H as [H|(u & _ & H)]; [auto|]. right. exists x. split; [now left|assumption].
  - right. exists y. split; [now right|assumption].
Qed.

Lemma hash_busy h n k : forall v, hash_walk h n k v = Busy -> exists x, locked k = Some x /\ inside h x v.
Proof.
  induction n as [|n IH]; intros v; [discriminate|]. destruct v; try discriminate; cbn [hash_walk].
  - destruct (arr_locked k l) eqn:E.
    { intros _. exists (VArr l). split; [now apply arr_lock|constructor]. }
    intros H. apply fold_busy in H. destruct H as [H|(x & H1 & H2)]; [discriminate|].
    destruct (IH _ H2) as (z & H3 & H4). exists z. split; [assumption|]. eapply in_array; eauto.
  - destruct (dict_locked k l) eqn:E.
    { intros _. exists (VDict l). split; [now apply dict_lock|constructor]. }
    intros H.
    apply (fold_busy (fun e : value * value => wbind (hash_walk h n k (fst e)) (fun _ => hash_walk h n k (snd e)))) in H.
    destruct H as [H|([kx vx] & H1 & H2)]; [discriminate|]. cbn [fst snd] in H2. apply wbind_busy in H2.
    destruct H2 as [H2|(u & _ & H2)]; destruct (IH _ H2) as (z & H3 & H4); exists z; (split; [assumption|]).
    + eapply in_key; eauto.
    + eapply in_value; eauto.
  - intros H. destruct (IH _ H) as (z & H3 & H4). exists z. split; [assumption|]. now apply in_context.
Qed.

Lemma put_free eq k v d : (forall x, eq k x <> Busy) -> put_entry eq k v d <> Busy.
Proof.
  intros H. induction d as [|[x w] d IH]; [discriminate|]. cbn [put_entry]. apply wbind_free; [apply H|].
  intros []; [discriminate|]. apply wbind_free; [exact IH|discriminate].
Qed.

Lemma put_busy h n l k v : dict_put h n l k v = Busy -> inside h (VDict l) k.
Proof.
  unfold dict_put. intros H. apply wbind_busy in H. destruct H as [H|(u & _ & H)].
  - apply hash_busy in H. destruct H as (x & [= <-] & H). exact H.
  - exfalso. revert H. apply put_free. intros. apply eqv_free.
Qed.

Lemma any_free {A} (f : A -> walk bool) l : (forall x, f x <> Busy) -> any f l <> Busy.
Proof.
  intros H. induction l as [|x l IH]; [discriminate|]. cbn [any]. apply wbind_free; [apply H|].
  intros []; [discriminate|exact IH].
Qed.
Lemma has_error_free {W} (X : ext W) h n : forall v, has_error X n h v <> Busy.
Proof.
  induction n as [|n IH]; intros v; [discriminate|]. destruct v; try discriminate; cbn [has_error].
  - apply any_free, IH.
  - apply any_free. intros x. apply wbind_free; [apply IH|]. intros []; [discriminate|apply IH].
Qed.

Lemma walked_crash {W A} (r : walk A) (k : A -> @res W) c : walked r k = Crash c ->
  (r = Busy /\ c = CBorrow) \/ exists a, r = Known a /\ k a = Crash c.
Proof. destruct r; cbn; eauto; [|discriminate]. intros [= <-]. auto. Qed.

Lemma std_crash {W} (X : ext W) n ra f args p h w c :
  std_call X n ra f args p h w = Crash c -> fails h f args c.
Proof.
  intros H. destruct f; cbn [std_call] in H;
    repeat match type of H with
    | walked _ _ = _ => fail 1
    | context [match ?x with _ => _ end] => destruct x eqn:?; try discriminate H
    end; try discriminate H.
  all: try (apply walked_crash in H; destruct H as [[H ->]|(x & Hx & H)]).
  all: try (exfalso; revert H; apply any_free; intros; apply eqv_free).
  all: try (exfalso; revert H; apply get_free).
  all: try (exfalso; revert H; apply has_error_free).
  all: try (exfalso; revert H; apply show_not_busy).
  all: try (exfalso; revert H; apply to_json_not_busy).
  all: try (exfalso; revert H; apply print_all_not_busy).
  all: try discriminate H.
  - injection H as <-. destruct s as [|x s]; [|discriminate Heqb1]. apply f_no_name.
    intros Hi. rewrite <- not_true_iff_false in Heqb0. apply Heqb0. apply existsb_exists.
    exists x00. split; [assumption|reflexivity].
  - destruct x; discriminate H.
  - destruct (x_write X _ w) as [[e|] w'] in H; discriminate H.
  - destruct (x_write X _ w) as [[e|] w'] in H; discriminate H.
  - injection H as <-. apply f_interval. now apply Z.leb_gt.
  - exfalso. revert H. unfold range. repeat match goal with |- context [match ?x with _ => _ end] => destruct x end; discriminate.
  - unfold read in H. destruct (x_read X w) as [[e|s] w']; discriminate H.
  - unfold read in H. match type of H with context [x_read X ?w] => destruct (x_read X w) as [[e|t] w'] end; discriminate H.
  - apply sort_busy in H. destruct H as (x & y & H1 & H2 & H3). apply cmp_busy in H3.
    destruct H3 as (z & [= <-] & [H4|H4]); [exact (f_sort _ _ _ H1 H4)|exact (f_sort _ _ _ H2 H4)].
Qed.

Lemma fails_crash {W} (X : ext W) n ra f args p h w c : f <> SSort ->
  fails h f args c -> std_call X n ra f args p h w = Crash c.
Proof.
  intros Hf H. destruct H as [a b Hab|v Hv|l v H1 H2]; [| |congruence].
  - cbn. destruct (Z.leb_spec a b); [lia|reflexivity].
  - cbn. destruct (existsb (byte_eqb x00) v) eqn:E; [|reflexivity].
    exfalso. apply existsb_exists in E. destruct E as (x & Hx & E). apply Hv.
    destruct x; try discriminate E. exact Hx.
Qed.

(** ** Command blocks *)
Section Blocks.
Context {W : Type} (X : ext W) (O : os W).
Notation runs A := (@xstate W -> @ran W A).

Definition calm {A} (m : runs A) : Prop := forall s c, m s <> RCrash c.
Lemma calm_ret {A} (a : A) : calm (xret a). Proof. intros s c H. discriminate. Qed.
Lemma calm_panic {A} p : @calm A (xpanic p). Proof. intros s c H. discriminate. Qed.
Lemma calm_exit {A} z : @calm A (fun s => RExit z s). Proof. intros s c H. discriminate. Qed.
Lemma calm_bind {A B} (m : runs A) (f : A -> runs B) : calm m -> (forall a, calm (f a)) -> calm (xbind m f).
Proof.
  intros Hm Hf s c. unfold xbind. destruct (m s) eqn:E; try discriminate; [apply Hf|].
  exfalso. exact (Hm s _ E).
Qed.
Lemma calm_ask {A} p (f : W -> (bytes + A) * W) log : calm (ask p f log).
Proof. intros s c. unfold ask. destruct (f _) as [[e|a] w]; discriminate. Qed.

Ltac calm :=
  repeat first
    [ assumption | progress cbv zeta
    | match goal with
      | |- calm (xret _) => apply calm_ret
      | |- calm (xpanic _) => apply calm_panic
      | |- calm (fun s => RExit _ s) => apply calm_exit
      | |- calm (RExit _) => apply calm_exit
      | |- calm (ask _ _ _) => apply calm_ask
      | |- calm (xbind _ _) => apply calm_bind; [|intros ?]
      | |- calm (match ?x with _ => _ end) => destruct x
      end ].

Lemma calm_resolve a p : calm (resolve O a p).
Proof. intros s c. unfold resolve. destruct a as [x|x]; [|discriminate]. destruct (o_glob O x _); discriminate. Qed.
Lemma calm_all l p : calm (resolve_all O l p).
Proof. induction l as [|a l IH]; cbn [resolve_all]; calm. apply calm_resolve. Qed.
Lemma calm_one o a p : calm (resolve_one O o a p).
Proof. unfold resolve_one. calm. apply calm_resolve. Qed.
Lemma calm_env l p : calm (resolve_env O l p).
Proof. induction l as [|[k a] l IH]; cbn [resolve_env]; calm. apply calm_one. Qed.
Lemma calm_target t io p : calm (resolve_target O t io p).
Proof. unfold resolve_target. calm; apply calm_one. Qed.
Lemma calm_redirect r io p : calm (redirect O r io p).
Proof. unfold redirect. calm; first [apply calm_one|apply calm_target]. Qed.
Lemma calm_redirects rs p : forall io, calm (redirect_all O rs io p).
Proof. induction rs as [|r rs IH]; intros io; cbn [redirect_all]; calm; [apply calm_redirect|apply IH]. Qed.
Lemma calm_basic c io : calm (basic_exec O c io).
Proof. unfold basic_exec. calm; [apply calm_one|apply calm_env|apply calm_all|apply calm_redirects]. Qed.
Lemma calm_pipe p : calm (new_pipe O p).
Proof. intros s c. unfold new_pipe. destruct (o_pipe O _) as [[e|] w]; discriminate. Qed.
Lemma calm_tail cmds : forall out err ch, calm (spawn_tail O cmds out err ch).
Proof.
  induction cmds as [|c cmds IH]; intros out err ch; cbn [spawn_tail]; calm; [apply calm_pipe|apply calm_basic|apply IH].
Qed.
Lemma calm_wait child p : calm (wait_child O child p).
Proof. intros s c. unfold wait_child. destruct (o_wait O child _) as [[e|st] w]; discriminate. Qed.
Lemma calm_waits ch : forall abort es, calm (wait_all O ch abort es).
Proof.
  induction ch as [|[[child p] a] ch IH]; intros abort es; cbn [wait_all]; calm; [apply calm_wait|apply IH|apply IH].
Qed.
Lemma calm_builtin b l p : b <> BAlias -> calm (builtin_exec X O b l p).
Proof.
  intros Hb. unfold builtin_exec. apply calm_bind; [apply calm_all|]. intros args. cbv zeta.
  destruct b; try congruence; calm; apply calm_wait.
Qed.
Lemma builtin_crash b l p s c : builtin_exec X O b l p s = RCrash c -> b = BAlias /\ c = CAlias.
Proof.
  intros H. destruct b; try (exfalso; revert H; apply calm_builtin; discriminate).
  split; [reflexivity|]. unfold builtin_exec, xbind in H. destruct (resolve_all O l p s) eqn:E; try discriminate H.
  - now injection H as <-.
  - exfalso. now apply (calm_all l p s c0).
Qed.

Lemma xbind_crash {A B} (m : runs A) (f : A -> runs B) s c : xbind m f s = RCrash c ->
  m s = RCrash c \/ exists a s', f a s' = RCrash c.
Proof. unfold xbind. destruct (m s) eqn:E; intros H; try discriminate; [right; eauto|left]. now injection H as ->. Qed.

Lemma calm_external head tail out err : calm (command_exec X O (EExternal head tail) out err).
Proof.
  cbn [command_exec]. apply calm_bind; [apply calm_tail|]. intros [[o e] ch].
  apply calm_bind; [apply calm_ask|]. intros _. apply calm_bind; [apply calm_basic|]. intros child. apply calm_waits.
Qed.
Lemma command_crash e out err s c : command_exec X O e out err s = RCrash c ->
  (exists args abort p, e = EBuiltin BAlias args abort p) /\ c = CAlias.
Proof.
  destruct e as [b args abort p|head tail]; intros H; [|exfalso; exact (calm_external _ _ _ _ _ _ H)].
  cbn [command_exec] in H. apply xbind_crash in H. destruct H as [H|([x|] & s' & H)]; try discriminate H.
  apply builtin_crash in H. destruct H as [-> ->]. eauto.
Qed.

Lemma commands_crash cs out err c : forall errors s, commands_exec X O cs out err errors s = RCrash c ->
  (exists args abort p, In (EBuiltin BAlias args abort p) cs) /\ c = CAlias.
Proof.
  induction cs as [|e cs IH]; intros errors s H; cbn [commands_exec] in H; [discriminate|].
  apply xbind_crash in H. destruct H as [H|(a & s1 & H)]; [exfalso; revert H; apply calm_ask|].
  apply xbind_crash in H. destruct H as [H|(a' & s2 & H)]; [exfalso; revert H; apply calm_ask|].
  apply xbind_crash in H. destruct H as [H|([es abort] & s3 & H)].
  - apply command_crash in H. destruct H as [(args & ab & p & ->) ->]. split; [|reflexivity]. do 3 eexists. now left.
  - destruct abort; [discriminate|]. apply IH in H. destruct H as [(args & ab & p & H) ->]. split; [|reflexivity].
    do 3 eexists. right. exact H.
Qed.

Lemma block_crash b out err s c : block_exec X O b out err s = RCrash c -> has_alias b /\ c = CAlias.
Proof.
  unfold block_exec. intros H. destruct (commands_exec X O _ out err [] s) eqn:E; try discriminate H.
  injection H as <-. apply commands_crash in E. exact E.
Qed.
End Blocks.


(** ** Whole programs *)
Definition lexer_ext : ext bytes :=
  mkext bytes (Some 300)
    (fun _ => None) (fun _ => []) (fun s => s) (fun _ => 0%N) (fun d => d) (fun s => s) false
    (fun _ => []) (fun _ => []) (fun _ w => (None, w)) (fun _ => inr []) (fun _ _ => None)
    (fun _ _ w => w) (fun s w => (None, w ++ s)) (fun w => (inr [], w)) (fun _ w => w)
    (fun w => (S754_zero false, w)) (fun a _ w => (a, w)) (fun _ w => w)
    (fun _ _ => inl []) (fun _ => []) (fun _ => None) (fun _ => [])
    (fun _ => None) (fun _ _ => false) (fun _ s => [s]) (fun _ s _ => s)
    (fun t _ _ => inr t) (fun p _ => inr (bs "{ [ }"))
    (fun _ h w => (inl (VNil, h), w)).
Lemma lexer_honest : honest lexer_ext.
Proof.
  split; cbn.
  - intros l. apply Permutation.Permutation_refl.
  - discriminate.
  - intros i h w v h' w' [= <- <- <-]. exists [], []. rewrite !app_nil_r. destruct h. repeat split; constructor.
Qed.

Definition text_of (c : crash) : bytes :=
  match c with
  | CBorrow => bs "let d = @[] d[d] = 1"
  | CRand => bs "std.randint(2, 1)"
  | CEnv => bs "std.export("""", ""x"")"
  | CLexer => bs "std.import(""m"")"
  | _ => bs "{ alias x }"
  end.

Lemma all_occur c : In c failures_of_a_program ->
  match analyze (text_of c) with
  | Analysis b [] [] =>
      match sema b with
      | SemaOk p => run_program lexer_ext demo_os true false 50 (bs "main") p [] [] = Crash c
      | _ => False
      end
  | _ => False
  end.
Proof.
  intros [<-|[<-|[<-|[<-|[<-|[]]]]]]; vm_compute; reflexivity.
Qed.
Lemma occurs : exists X : ext bytes, honest X /\
  forall c, In c failures_of_a_program -> exists src b p n, analyze src = Analysis b [] [] /\ sema b = SemaOk p /\
    run_program X demo_os true false n (bs "main") p [] [] = Crash c.
Proof.
  exists lexer_ext. split; [exact lexer_honest|].
  intros c H. apply all_occur in H. destruct (analyze (text_of c)) as [b [|] [|]| |] eqn:E; try contradiction.
  destruct (sema b) as [p| |] eqn:E2; try contradiction.
  exists (text_of c), b, p, 50. split; [exact E|]. split; [exact E2|exact H].
Qed.
Lemma only_these {W} (X : ext W) (O : os W) src b les p n path args w c :
  honest X -> analyze src = Analysis b les [] -> sema b = SemaOk p ->
  run_program X O true false n path p args w = Crash c -> In c failures_of_a_program.
Proof.
  intros HX HA HS H. pose proof (run_allowed X O src b les p n path args w c HX HA HS H) as HC.
  unfold failures_of_a_program. destruct c; cbn; unfold allowed in HC; intuition congruence.
Qed.
