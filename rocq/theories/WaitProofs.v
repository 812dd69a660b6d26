(** Proofs about the processes that blocks start and wait for. *)
From Coq Require Import Lia.
From Verif Require Import Base Lexer Ast Program Value Text StdLib Exec SpecExec SpecWait ExecProofs.

Lemma spawned_app l l' : spawned (l ++ l') = spawned l ++ spawned l'.
Proof. apply flat_map_app. Qed.
Lemma awaited_app l l' : awaited (l ++ l') = awaited l ++ awaited l'.
Proof. apply flat_map_app. Qed.
Lemma times_app c l l' : times c (l ++ l') = times c l + times c l'.
Proof. apply count_occ_app. Qed.
Lemma times_rev c l : times c (rev l) = times c l.
Proof. induction l as [|x l IH]; [reflexivity|]. cbn [rev]. rewrite times_app, IH. unfold times. cbn [count_occ]. destruct (N.eq_dec x c); lia. Qed.

Lemma spawned_started l : spawned l = map snd (started l).
Proof. induction l as [|e l IH]; [reflexivity|]. destruct e; cbn in *; try exact IH. now rewrite <- IH. Qed.
Lemma awaited_none l : existsb is_wait l = false -> awaited l = [].
Proof. induction l as [|e l IH]; [reflexivity|]. destruct e; cbn in *; try discriminate; auto. Qed.
Lemma awaited_waits : forall children rs, length rs = length children -> awaited (waits children rs) = children.
Proof.
  induction children as [|c children IH]; intros [|r rs] E; try discriminate; [reflexivity|]. injection E as E. specialize (IH rs E).
  unfold waits, awaited in *. cbn. now rewrite IH.
Qed.
Lemma spawned_waits children rs : spawned (waits children rs) = [].
Proof. unfold waits. induction (combine children rs) as [|[c r] l IH]; [reflexivity|exact IH]. Qed.

Lemma app_split {A} : forall (l1 l2 l3 l4 : list A), l1 ++ l2 = l3 ++ l4 -> (exists m, l1 = l3 ++ m /\ l4 = m ++ l2) \/ (exists m, l3 = l1 ++ m /\ l2 = m ++ l4).
Proof.
  induction l1 as [|x l1 IH]; intros l2 l3 l4 E; cbn in E; [right; exists l3; auto|].
  destruct l3 as [|y l3]; [left; exists (x :: l1); auto|]. injection E as -> E. destruct (IH _ _ _ E) as [(m & -> & ->)|(m & -> & ->)].
  - left. exists m. auto.
  - right. exists m. auto.
Qed.

Lemma reaped_nil : reaped [] /\ timely [].
Proof. split; [intros c; reflexivity|]. intros l1 l2 c E. symmetry in E. apply app_eq_nil in E. destruct E as [-> ->]. cbn. lia. Qed.
Lemma reaped_app l l' : reaped l /\ timely l -> reaped l' /\ timely l' -> reaped (l ++ l') /\ timely (l ++ l').
Proof.
  intros [R T] [R' T']. split.
  - intros c. rewrite spawned_app, awaited_app, !times_app, R, R'. reflexivity.
  - intros l1 l2 c E. symmetry in E. apply app_split in E. destruct E as [(m & -> & E)|(m & E & ->)].
    + rewrite spawned_app, awaited_app, !times_app. specialize (T' _ _ c E). specialize (R c). lia.
    + exact (T _ _ c E).
Qed.

Lemma ran_reaped c l es stop : ran_as c l es stop -> reaped l /\ timely l.
Proof.
  intros R. destruct R as [head tail before requests children rs cmds F Lk Lr Nw St|b args abort p l St Nw|args abort p r child e].
  - pose proof (awaited_none _ Nw) as A. assert (Sp : spawned before = rev children).
    { rewrite spawned_started, St, map_rev. f_equal. assert (Q : length requests = length children).
      { rewrite Lk. clear - F. induction F; cbn; congruence. }
      clear - Q. revert children Q. induction requests as [|q rq IH]; intros [|k ks] Q; try discriminate; [reflexivity|].
      cbn. f_equal. apply IH. now injection Q. }
    assert (Lr' : length rs = length children) by congruence. split.
    + intros c. rewrite spawned_app, awaited_app, A, Sp, spawned_waits, awaited_waits by exact Lr'. cbn [app]. now rewrite app_nil_r, times_rev.
    + intros l1 l2 c E. symmetry in E. apply app_split in E. destruct E as [(m & -> & E)|(m & E & ->)].
      * rewrite spawned_app, awaited_app, A, Sp, !times_app, times_rev. cbn [app].
        assert (Q : children = awaited m ++ awaited l2) by now rewrite <- awaited_app, <- E, awaited_waits.
        rewrite Q, times_app. cbn [times count_occ]. lia.
      * rewrite E, awaited_app in A. apply app_eq_nil in A. destruct A as [-> _]. cbn. lia.
  - split.
    + intros c. now rewrite spawned_started, St, awaited_none.
    + intros l1 l2 c ->. assert (A := awaited_none _ Nw). rewrite awaited_app in A. apply app_eq_nil in A. destruct A as [-> _]. cbn. lia.
  - split.
    + intros c. reflexivity.
    + intros l1 l2 c E. destruct l1 as [|e1 [|e2 l1]]; [cbn; lia| |].
      * injection E as <- _. cbn. lia.
      * injection E as <- <- E. symmetry in E. apply app_eq_nil in E. destruct E as [-> _]. unfold times. cbn. lia.
Qed.

Lemma block_reaped cs l ess n : block_ran cs l ess n -> reaped l /\ timely l.
Proof.
  induction 1 as [|c cs l es R Ne|c cs l es l' ess n R B IH].
  - apply reaped_nil.
  - now apply ran_reaped in R.
  - apply ran_reaped in R. now apply reaped_app.
Qed.

Section Running.
Context {W : Type} (X : ext W) (O : os W).
Notation xstate := (@Exec.xstate W).
Notation ran := (@Exec.ran W).

(** [m] waits for nothing; it starts at most [k] processes when it completes, [j] when not. *)
Definition quiet {A} (j k : nat) (m : xstate -> ran A) : Prop := forall s s', final (m s) = Some s' ->
  exists l, xs_log s' = xs_log s ++ l /\ awaited l = [] /\ length (spawned l) <= if completed (m s) then k else j.

Lemma quiet_bind {A B} j k j' k' (m : xstate -> ran A) (f : A -> xstate -> ran B) : quiet j k m -> (forall a, quiet j' k' (f a)) ->
  forall n, j <= n -> k + j' <= n -> quiet n (k + k') (xbind m f).
Proof.
  intros Qm Qf n Lj Lk s s' F. unfold xbind in *. specialize (Qm s). destruct (m s) as [a s1|e p s1|e s1|c s1|c]; cbn [final completed] in *.
  - destruct (Qm s1 eq_refl) as (l & L & Aw & Le). destruct (Qf a s1 s' F) as (l' & L' & Aw' & Le'). exists (l ++ l').
    rewrite L', L, awaited_app, Aw, Aw', spawned_app, app_length, app_assoc. repeat split; try reflexivity.
    destruct (completed (f a s1)); lia.
  - destruct (Qm s' F) as (l & L & Aw & Le). exists l. repeat split; try assumption. lia.
  - destruct (Qm s' F) as (l & L & Aw & Le). exists l. repeat split; try assumption. lia.
  - destruct (Qm s' F) as (l & L & Aw & Le). exists l. repeat split; try assumption. lia.
  - discriminate.
Qed.
Lemma quiet_zero {A B} (m : xstate -> ran A) (f : A -> xstate -> ran B) j k : quiet 0 0 m -> (forall a, quiet j k (f a)) -> quiet j k (xbind m f).
Proof. intros Qm Qf. apply (quiet_bind 0 0 j k m f Qm Qf); lia. Qed.
Lemma quiet_more {A} j k j' k' (m : xstate -> ran A) : quiet j k m -> j <= j' -> k <= k' -> quiet j' k' m.
Proof. intros Q L L' s s' F. destruct (Q s s' F) as (l & E & Aw & Le). exists l. repeat split; try assumption. destruct (completed (m s)); lia. Qed.
Lemma quiet_ret {A} (a : A) : quiet 0 0 (xret a).
Proof. intros s s' F. injection F as <-. exists []. rewrite app_nil_r. auto. Qed.
Lemma quiet_stop {A} (f : xstate -> ran A) : (forall s, final (f s) = Some s \/ final (f s) = None) -> quiet 0 0 f.
Proof.
  intros H s s' F. destruct (H s) as [E|E]; rewrite E in F; [injection F as <-|discriminate]. exists []. rewrite app_nil_r. repeat split. cbn. lia.
Qed.
Lemma quiet_panic {A} e : quiet 0 0 (@xpanic W A e).
Proof. apply quiet_stop. intros s. now left. Qed.
Lemma quiet_ask {A} p (f : W -> (bytes + A) * W) log k : (forall a, awaited (log a) = [] /\ length (spawned (log a)) <= k) -> quiet 0 k (ask p f log).
Proof.
  intros H s s' F. unfold ask in *. destruct (f (xs_world s)) as [[e|a] w]; injection F as <-; cbn [xs_log completed].
  - exists []. rewrite app_nil_r. auto.
  - exists (log a). destruct (H a). auto.
Qed.
Lemma quiet_dup p e : quiet 0 0 (ask p (attempt (o_dup O e)) (fun _ => [])).
Proof. apply quiet_ask. cbn. auto. Qed.

Lemma quiet_resolve a p : quiet 0 0 (resolve O a p).
Proof.
  apply quiet_stop. intros s. unfold resolve. destruct a as [x|x]; [|now left]. destruct (o_glob O x (xs_world s)); now left.
Qed.
Lemma quiet_resolve_all p : forall l, quiet 0 0 (resolve_all O l p).
Proof.
  induction l as [|a l IH]; cbn [resolve_all]; [apply quiet_ret|]. apply quiet_zero; [apply quiet_resolve|]. intros x.
  apply quiet_zero; [exact IH|]. intros r. apply quiet_ret.
Qed.
Lemma quiet_resolve_one o a p : quiet 0 0 (resolve_one O o a p).
Proof.
  unfold resolve_one. apply quiet_zero; [apply quiet_resolve|]. intros [|x [|y l]]; [apply quiet_panic|apply quiet_ret|apply quiet_panic].
Qed.
Lemma quiet_env p : forall l, quiet 0 0 (resolve_env O l p).
Proof.
  induction l as [|[k a] l IH]; cbn [resolve_env]; [apply quiet_ret|]. apply quiet_zero; [apply quiet_resolve_one|]. intros x.
  apply quiet_zero; [exact IH|]. intros r. apply quiet_ret.
Qed.
Lemma quiet_target t io p : quiet 0 0 (resolve_target O t io p).
Proof.
  unfold resolve_target. destruct t as [fd|a|a].
  - destruct (fd =? 1)%Z; [apply quiet_zero; [apply quiet_dup|]; intros u; apply quiet_ret|].
    destruct (fd =? 2)%Z; [apply quiet_zero; [apply quiet_dup|]; intros u; apply quiet_ret|]. apply quiet_panic.
  - apply quiet_zero; [apply quiet_resolve_one|]. intros path. apply quiet_zero; [apply quiet_ask; cbn; auto|]. intros x. apply quiet_ret.
  - apply quiet_zero; [apply quiet_resolve_one|]. intros path. apply quiet_zero; [apply quiet_ask; cbn; auto|]. intros x. apply quiet_ret.
Qed.
Lemma quiet_redirect r io p : quiet 0 0 (redirect O r io p).
Proof.
  unfold redirect. destruct r as [source target|literal a].
  - apply quiet_zero; [apply quiet_target|]. intros e. destruct (source =? 1)%Z; [apply quiet_ret|]. destruct (source =? 2)%Z; [apply quiet_ret|apply quiet_panic].
  - apply quiet_zero; [apply quiet_resolve_one|]. intros x. apply quiet_zero.
    + destruct literal; (apply quiet_zero; [apply quiet_ask; cbn; auto|]; intros u; apply quiet_ret).
    + intros e. apply quiet_ret.
Qed.
Lemma quiet_redirects p : forall rs io, quiet 0 0 (redirect_all O rs io p).
Proof.
  induction rs as [|r rs IH]; intros io; cbn [redirect_all]; [apply quiet_ret|]. apply quiet_zero; [apply quiet_redirect|]. intros io'. apply IH.
Qed.
Lemma quiet_basic c io : quiet 0 1 (basic_exec O c io).
Proof.
  unfold basic_exec. apply quiet_zero; [apply quiet_resolve_one|]. intros program. apply quiet_zero; [apply quiet_env|]. intros env.
  apply quiet_zero; [apply quiet_resolve_all|]. intros args. apply quiet_zero; [apply quiet_redirects|]. intros io'. apply quiet_ask. cbn. auto.
Qed.
Lemma quiet_pipe p : quiet 0 0 (new_pipe O p).
Proof.
  intros s s' F. unfold new_pipe in *. destruct (o_pipe O (xs_world s)) as [[e|] w]; injection F as <-; exists []; cbn; rewrite app_nil_r; auto.
Qed.
Lemma quiet_tail : forall cmds out err kids, quiet (length cmds) (length cmds) (spawn_tail O cmds out err kids).
Proof.
  induction cmds as [|c cmds IH]; intros out err kids; cbn [spawn_tail length]; [apply quiet_ret|].
  apply quiet_zero; [apply quiet_pipe|]. intros n. change (S (length cmds)) with (1 + length cmds) at 2.
  eapply quiet_bind; [apply quiet_basic| | |reflexivity]; [|lia]. intros child. apply quiet_zero; [apply quiet_dup|]. intros u. apply IH.
Qed.

Lemma wait_child_completes k p s : completed (wait_child O k p s) = true.
Proof. unfold wait_child. destruct (o_wait O k (xs_world s)) as [[e|st] w]; reflexivity. Qed.
Lemma wait_all_completes : forall kids ab es s, completed (wait_all O kids ab es s) = true.
Proof.
  induction kids as [|[[k p] a] kids IH]; intros ab es s; cbn [wait_all]; [reflexivity|]. unfold xbind.
  pose proof (wait_child_completes k p s) as C. destruct (wait_child O k p s) as [[e|] s1|? ? ?|? ?|? ?|?]; try discriminate; apply IH.
Qed.

(** What is left of a computation that does not complete and is followed by something that always does. *)
Lemma quiet_fails {A B} j k (m : xstate -> ran A) (f : A -> xstate -> ran B) s s' : quiet j k m -> (forall a s, completed (f a s) = true) ->
  completed (xbind m f s) = false -> final (xbind m f s) = Some s' -> exists l, xs_log s' = xs_log s ++ l /\ awaited l = [] /\ length (spawned l) <= j.
Proof.
  intros Q C N F. specialize (Q s s'). unfold xbind in *. destruct (m s) as [a s1|e p s1|e s1|c s1|c]; cbn [final completed] in *.
  - rewrite C in N. discriminate.
  - exact (Q F).
  - exact (Q F).
  - exact (Q F).
  - discriminate.
Qed.
Lemma bind_assoc {A B C} (m : xstate -> ran A) (f : A -> xstate -> ran B) (g : B -> xstate -> ran C) s :
  xbind m (fun a => xbind (f a) g) s = xbind (xbind m f) g s.
Proof. unfold xbind. destruct (m s); reflexivity. Qed.
Lemma bind_fails {A B} (m : xstate -> ran A) (f : A -> xstate -> ran B) s : completed (xbind m f s) = false ->
  (exists a s1, m s = Ran a s1 /\ completed (f a s1) = false) \/ (completed (m s) = false /\ final (xbind m f s) = final (m s)).
Proof. unfold xbind. destruct (m s) as [a s1|e p s1|e s1|c s1|c]; eauto. Qed.

Lemma quiet_builtin b args p s s' : completed (builtin_exec X O b args p s) = false -> final (builtin_exec X O b args p s) = Some s' ->
  exists l, xs_log s' = xs_log s ++ l /\ awaited l = [] /\ spawned l = [].
Proof.
  intros N F. assert (G : forall m : xstate -> ran (option error_status), quiet 0 0 m -> final (m s) = Some s' -> completed (m s) = false ->
    exists l, xs_log s' = xs_log s ++ l /\ awaited l = [] /\ spawned l = []).
  { intros m Q F' N'. destruct (Q s s' F') as (l & L & Aw & Le). rewrite N' in Le. exists l. repeat split; try assumption.
    destruct (spawned l); [reflexivity|cbn in Le; lia]. }
  unfold builtin_exec in *.
  destruct (bind_fails _ _ _ N) as [(l & s1 & E & N')|[N' Ef]].
  - assert (F' := F). unfold xbind in F' at 1. rewrite E in F'. pose proof E as E0. apply resolve_all_ran in E. destruct E as [-> _].
    destruct b.
    + discriminate.
    + destruct l as [|d [|? ?]]; [apply (G _ (quiet_panic _) F' N')| |apply (G _ (quiet_panic _) F' N')].
      eapply G; [|exact F'|exact N']. apply quiet_zero; [apply quiet_ask; cbn; auto|]. intros u. apply quiet_ret.
    + destruct l as [|d l]; [apply (G _ (quiet_panic _) F' N')|]. eapply G; [|exact F'|exact N'].
      apply quiet_zero; [apply quiet_ask; cbn; auto|]. intros u. apply quiet_stop. intros t. now left.
    + destruct l as [|d [|d' l]]; [apply (G _ (quiet_panic _) F' N')|apply (G _ (quiet_panic _) F' N')|]. eapply G; [|exact F'|exact N'].
      apply quiet_zero; [apply quiet_ask; cbn; auto|]. intros u. apply quiet_stop. intros t. now left.
    + destruct l as [|d [|d' l]]; [apply (G _ (quiet_panic _) F' N')|apply (G _ (quiet_panic _) F' N')|].
      eapply (quiet_fails 0 1) in F'; [|apply quiet_ask; cbn; auto|intros; apply wait_child_completes|exact N'].
      destruct F' as (l' & L & Aw & Le). exists l'. repeat split; try assumption. destruct (spawned l'); [reflexivity|cbn in Le; lia].
  - rewrite Ef in F. destruct (quiet_resolve_all p args s s' F) as (l & L & Aw & Le). rewrite N' in Le. exists l. repeat split; try assumption.
    destruct (spawned l); [reflexivity|cbn in Le; lia].
Qed.

Lemma command_left c out err s s' : completed (command_exec X O c out err s) = false -> final (command_exec X O c out err s) = Some s' ->
  exists l, xs_log s' = xs_log s ++ l /\ awaited l = [] /\ length (spawned l) <= followers c.
Proof.
  destruct c as [b args abort p|head tail]; cbn [command_exec followers]; intros N F.
  - destruct (bind_fails _ _ _ N) as [(e & s1 & E & N')|[N' Ef]].
    + destruct e; discriminate.
    + rewrite Ef in F. destruct (quiet_builtin _ _ _ _ _ N' F) as (l & L & Aw & Sp). exists l. rewrite Sp. auto.
  - destruct (bind_fails _ _ _ N) as [([[out' err'] kids] & s1 & E & N')|[N' Ef]].
    + assert (F' := F). unfold xbind in F' at 1. rewrite E in F'.
      destruct (quiet_tail (rev tail) out err [] s s1) as (l & L & Aw & Le); [now rewrite E|]. rewrite E in Le. cbn [completed] in Le.
      rewrite rev_length in Le. rewrite bind_assoc in N', F'.
      eapply (quiet_fails 0 1) in F'; [|apply quiet_zero; [apply quiet_dup|]; intros u; apply quiet_basic|intros; apply wait_all_completes|exact N'].
      destruct F' as (l' & L' & Aw' & Le'). exists (l ++ l'). rewrite L', L, app_assoc, awaited_app, Aw, Aw', spawned_app, app_length. repeat split. lia.
    + rewrite Ef in F. destruct (quiet_tail (rev tail) out err [] s s' F) as (l & L & Aw & Le). rewrite N', rev_length in Le. exists l. auto.
Qed.

Lemma commands_left out err : forall cs errors s s', completed (commands_exec X O cs out err errors s) = false ->
  final (commands_exec X O cs out err errors s) = Some s' ->
  exists c l last, In c cs /\ xs_log s' = xs_log s ++ l ++ last /\ reaped l /\ timely l /\ awaited last = [] /\ length (spawned last) <= followers c.
Proof.
  induction cs as [|c cs IH]; intros errors s s' N F; cbn [commands_exec] in *; [discriminate|].
  assert (Z : forall e p s s', completed (ask p (attempt (o_dup O e)) (fun _ : unit => []) s) = false ->
    final (ask p (attempt (o_dup O e)) (fun _ : unit => []) s) = Some s' -> xs_log s' = xs_log s).
  { clear. intros e p s s'. unfold ask. destruct (attempt (o_dup O e) (xs_world s)) as [[x|x] w]; cbn; [|discriminate]. intros _ E. now injection E as <-. }
  assert (Zn : forall s1 : xstate, xs_log s1 = xs_log s -> exists c0 l last, In c0 (c :: cs) /\ xs_log s1 = xs_log s ++ l ++ last /\ reaped l /\ timely l /\ awaited last = [] /\ length (spawned last) <= followers c0).
  { intros s1 E. exists c, [], []. rewrite E. destruct reaped_nil. cbn. rewrite app_nil_r. repeat split; auto with arith. }
  destruct (bind_fails _ _ _ N) as [(u & s1 & E & N')|[N' Ef]]; [|rewrite Ef in F; apply Zn; exact (Z _ _ _ _ N' F)].
  assert (F' := F). unfold xbind in F' at 1. rewrite E in F'. apply ask_ran in E. destruct E as (_ & L1). rewrite app_nil_r in L1.
  destruct (bind_fails _ _ _ N') as [(u' & s2 & E2 & N2)|[N2 Ef]]; [|rewrite Ef in F'; apply Zn; rewrite <- L1; exact (Z _ _ _ _ N2 F')].
  assert (F2 := F'). unfold xbind in F2 at 1. rewrite E2 in F2. apply ask_ran in E2. destruct E2 as (_ & L2). rewrite app_nil_r in L2.
  destruct (bind_fails _ _ _ N2) as [([es ab] & s3 & E3 & N3)|[N3 Ef]].
  - assert (F3 := F2). unfold xbind in F3 at 1. rewrite E3 in F3. destruct ab; [discriminate|].
    apply command_ran in E3. destruct E3 as (l & L3 & R). apply ran_reaped in R.
    destruct (IH _ _ _ N3 F3) as (c' & l' & last & I & L & Re & T & Aw & Le). exists c', (l ++ l'), last.
    split; [now right|]. split; [rewrite L, L3, L2, L1, <- !app_assoc; reflexivity|]. destruct (reaped_app l l' R (conj Re T)). auto.
  - rewrite Ef in F2. destruct (command_left _ _ _ _ _ N3 F2) as (l & L & Aw & Le). exists c, [], l.
    split; [now left|]. split; [rewrite L, L2, L1; reflexivity|]. destruct reaped_nil. auto.
Qed.

Lemma commands_reaped cs out err errors s ess s' : commands_exec X O cs out err errors s = Ran ess s' ->
  exists l, xs_log s' = xs_log s ++ l /\ reaped l /\ timely l.
Proof.
  intros E. apply commands_ran in E. destruct E as (l & ess' & n & L & _ & B). exists l. split; [exact L|]. exact (block_reaped _ _ _ _ B).
Qed.

(** A block without pipelines leaves nothing, however it ends. *)
Lemma alone_reaped cs out err errors s s' : Forall (fun c => followers c = 0) cs -> final (commands_exec X O cs out err errors s) = Some s' ->
  exists l, xs_log s' = xs_log s ++ l /\ reaped l /\ timely l.
Proof.
  intros Fa F. destruct (completed (commands_exec X O cs out err errors s)) eqn:C.
  - destruct (commands_exec X O cs out err errors s) as [ess s1|? ? ?|? ?|? ?|?] eqn:E; try discriminate. injection F as <-. exact (commands_reaped _ _ _ _ _ _ _ E).
  - destruct (commands_left _ _ _ _ _ _ C F) as (c & l & last & I & L & Re & T & Aw & Le). exists (l ++ last).
    rewrite Forall_forall in Fa. rewrite (Fa c I) in Le. split; [exact L|]. apply reaped_app; [auto|].
    assert (Sp : spawned last = []) by (destruct (spawned last); [reflexivity|cbn in Le; lia]). split.
    + intros k. now rewrite Sp, Aw.
    + intros l1 l2 k ->. rewrite awaited_app in Aw. apply app_eq_nil in Aw. destruct Aw as [-> _]. cbn. lia.
Qed.
End Running.
