(** What the commands of a block asked for is what has become of the world. *)
From Verif Require Import Base Lexer Ast Program Value Text StdLib Exec Runtime SpecExec SpecWait SpecThread.

Section Carried.
Context {W : Type}.
Variable X : ext W.
Variable O : os W.

Lemma carried_app l l' w w1 w2 : carried X O l w w1 -> carried X O l' w1 w2 -> carried X O (l ++ l') w w2.
Proof.
  induction 1 as [w|l w wa wb Q _ IH|e l w wa wb D _ IH]; intros C; [exact C| |].
  - exact (ca_quiet _ _ _ _ _ _ Q (IH C)).
  - exact (ca_event _ _ _ _ _ _ _ D (IH C)).
Qed.
Definition to_log (s s' : @xstate W) : Prop := exists l, xs_log s' = xs_log s ++ l /\ carried X O l (xs_world s) (xs_world s').
Definition logged {A} (m : @xstate W -> ran A) : Prop := forall s, match final (m s) with Some s' => to_log s s' | None => True end.
Lemma to_log_refl s : to_log s s.
Proof. exists []. rewrite app_nil_r. split; [reflexivity|constructor]. Qed.
Lemma to_log_trans s1 s2 s3 : to_log s1 s2 -> to_log s2 s3 -> to_log s1 s3.
Proof.
  intros (l & L & C) (l' & L' & C'). exists (l ++ l'). rewrite L', L, app_assoc. split; [reflexivity|]. eapply carried_app; eassumption.
Qed.
Lemma logged_bind {A B} (m : xstate -> ran A) (f : A -> xstate -> ran B) : logged m -> (forall a, logged (f a)) -> logged (xbind m f).
Proof.
  intros H K s. specialize (H s). unfold xbind. destruct (m s) as [a s1|e p s1|p s1|c s1|c]; cbn [final] in *; try exact H.
  specialize (K a s1). destruct (final (f a s1)) as [s2|]; [|exact I]. eapply to_log_trans; eassumption.
Qed.
Lemma logged_ret {A} (a : A) : logged (xret a). Proof. intros s. apply to_log_refl. Qed.
Lemma logged_panic {A} p : logged (A := A) (xpanic p). Proof. intros s. apply to_log_refl. Qed.
Lemma logged_ask {A} p (f : W -> (bytes + A) * W) (log : A -> list event) :
  (forall w, match f w with (inr a, w') => carried X O (log a) w w' | (inl _, w') => carried X O [] w w' end) -> logged (ask p f log).
Proof.
  intros H s. unfold ask. specialize (H (xs_world s)). destruct (f (xs_world s)) as [[e|a] w]; cbn.
  - exists []. rewrite app_nil_r. split; [reflexivity|exact H].
  - exists (log a). split; [reflexivity|exact H].
Qed.
Lemma one_quiet w w' : quiet X O w w' -> carried X O [] w w'.
Proof. intros H. eapply ca_quiet; [exact H|constructor]. Qed.
Lemma one_event e w w' : did X O e w w' -> carried X O [e] w w'.
Proof. intros H. eapply ca_event; [exact H|constructor]. Qed.
Lemma logged_attempt p (f : W -> option bytes * W) : (forall w, quiet X O w (snd (f w))) -> logged (ask p (attempt f) (fun _ => [])).
Proof.
  intros H. apply logged_ask. intros w. specialize (H w). unfold attempt. destruct (f w) as [[e|] w']; apply one_quiet, H.
Qed.
Lemma logged_open p path m : logged (ask p (o_open O path m) (fun handle => [EvOpen path m handle])).
Proof. apply logged_ask. intros w. destruct (o_open O path m w) as [[e|a] w'] eqn:E; [eapply one_quiet, qu_open, E|apply one_event, E]. Qed.
Lemma logged_spawn p r : logged (ask p (o_spawn O r) (fun c => [EvSpawn r c])).
Proof. apply logged_ask. intros w. destruct (o_spawn O r w) as [[e|a] w'] eqn:E; [eapply one_quiet, qu_spawn, E|apply one_event, E]. Qed.
Lemma logged_exec p r : logged (ask p (o_exec O r) (fun _ => [EvExec r])).
Proof. apply logged_ask. intros w. destruct (o_exec O r w) as [[e|a] w'] eqn:E; [eapply one_quiet, qu_exec, E|apply one_event; eexists; exact E]. Qed.
Lemma logged_cd p d : logged (ask p (attempt (x_cd X d)) (fun _ => [EvCd d])).
Proof.
  apply logged_ask. intros w. unfold attempt. destruct (x_cd X d w) as [[e|] w'] eqn:E; [eapply one_quiet, qu_cd, E|apply one_event, E].
Qed.
Lemma logged_resolve a p : logged (resolve O a p).
Proof. intros s. destruct a as [x|x]; cbn [resolve]; [destruct (o_glob O x (xs_world s))|]; apply to_log_refl. Qed.
Lemma logged_resolve_all l p : logged (resolve_all O l p).
Proof.
  induction l as [|a l IH]; cbn [resolve_all]; [apply logged_ret|]. apply logged_bind; [apply logged_resolve|]. intros x.
  apply logged_bind; [exact IH|]. intros r. apply logged_ret.
Qed.
Lemma logged_resolve_one o a p : logged (resolve_one O o a p).
Proof. apply logged_bind; [apply logged_resolve|]. intros [|x [|y l]]; [apply logged_panic|apply logged_ret|apply logged_panic]. Qed.
Lemma logged_wait c p : logged (wait_child O c p).
Proof.
  intros s. unfold wait_child. destruct (o_wait O c (xs_world s)) as [r w] eqn:E.
  assert (L : to_log s (mkxstate (xs_pipes s) (xs_log s ++ [EvWait c r]) w)) by (exists [EvWait c r]; split; [reflexivity|apply one_event, E]).
  destruct r; exact L.
Qed.
Lemma logged_builtin b l p : logged (builtin_exec X O b l p).
Proof.
  unfold builtin_exec. apply logged_bind; [apply logged_resolve_all|]. intros args. destruct b.
  - intros s. exact I.
  - destruct args as [|a [|a' r]]; [apply logged_panic| |apply logged_panic]. apply logged_bind; [apply logged_cd|]. intros _. apply logged_ret.
  - destruct args as [|a r]; [apply logged_panic|]. apply logged_bind; [apply logged_exec|]. intros c s. apply to_log_refl.
  - destruct args as [|a [|a' r]]; [apply logged_panic|apply logged_panic|]. apply logged_bind; [apply logged_exec|]. intros c s. apply to_log_refl.
  - destruct args as [|a [|a' r]]; [apply logged_panic|apply logged_panic|]. apply logged_bind; [apply logged_spawn|]. intros c. apply logged_wait.
Qed.
Lemma logged_target t io p : logged (resolve_target O t io p).
Proof.
  destruct t as [fd|a|a]; cbn [resolve_target].
  - destruct (fd =? 1)%Z; [|destruct (fd =? 2)%Z; [|apply logged_panic]]; (apply logged_bind; [apply logged_attempt; constructor|]); intros _; apply logged_ret.
  - apply logged_bind; [apply logged_resolve_one|]. intros x. apply logged_bind; [apply logged_open|]. intros h. apply logged_ret.
  - apply logged_bind; [apply logged_resolve_one|]. intros x. apply logged_bind; [apply logged_open|]. intros h. apply logged_ret.
Qed.
Lemma logged_redirect r io p : logged (redirect O r io p).
Proof.
  destruct r as [src t|lit a]; cbn [redirect].
  - apply logged_bind; [apply logged_target|]. intros e. destruct (src =? 1)%Z; [apply logged_ret|]. destruct (src =? 2)%Z; [apply logged_ret|apply logged_panic].
  - apply logged_bind; [apply logged_resolve_one|]. intros x. apply logged_bind; [|intros e; apply logged_ret]. destruct lit.
    + apply logged_bind; [apply logged_attempt; constructor|]. intros _. apply logged_ret.
    + apply logged_bind; [apply logged_open|]. intros h. apply logged_ret.
Qed.
Lemma logged_redirect_all rs : forall io p, logged (redirect_all O rs io p).
Proof.
  induction rs as [|r rs IH]; intros io p; cbn [redirect_all]; [apply logged_ret|]. apply logged_bind; [apply logged_redirect|]. intros x. apply IH.
Qed.
Lemma logged_env l p : logged (resolve_env O l p).
Proof.
  induction l as [|[k a] l IH]; cbn [resolve_env]; [apply logged_ret|]. apply logged_bind; [apply logged_resolve_one|]. intros x.
  apply logged_bind; [exact IH|]. intros r. apply logged_ret.
Qed.
Lemma logged_basic c io : logged (basic_exec O c io).
Proof.
  unfold basic_exec. apply logged_bind; [apply logged_resolve_one|]. intros x. apply logged_bind; [apply logged_env|]. intros e.
  apply logged_bind; [apply logged_resolve_all|]. intros a. apply logged_bind; [apply logged_redirect_all|]. intros i. apply logged_spawn.
Qed.
Lemma logged_pipe p : logged (new_pipe O p).
Proof.
  intros s. unfold new_pipe. pose proof (qu_pipe X O (xs_world s)) as Q. destruct (o_pipe O (xs_world s)) as [[e|] w]; cbn in *;
    (exists []; rewrite app_nil_r; split; [reflexivity|apply one_quiet, Q]).
Qed.
Lemma logged_tail cs : forall out err l, logged (spawn_tail O cs out err l).
Proof.
  induction cs as [|c cs IH]; intros out err l; cbn [spawn_tail]; [apply logged_ret|]. apply logged_bind; [apply logged_pipe|]. intros n.
  apply logged_bind; [apply logged_basic|]. intros ch. apply logged_bind; [apply logged_attempt; constructor|]. intros _. apply IH.
Qed.
Lemma logged_wait_all l : forall a es, logged (wait_all O l a es).
Proof.
  induction l as [|[[c p] b] l IH]; intros a es; cbn [wait_all]; [apply logged_ret|]. apply logged_bind; [apply logged_wait|]. intros [e|]; apply IH.
Qed.
Lemma logged_command c out err : logged (command_exec X O c out err).
Proof.
  destruct c as [b l a p|hd tl]; cbn [command_exec].
  - apply logged_bind; [apply logged_builtin|]. intros [e|]; apply logged_ret.
  - apply logged_bind; [apply logged_tail|]. intros [[o e] cs]. apply logged_bind; [apply logged_attempt; constructor|]. intros _.
    apply logged_bind; [apply logged_basic|]. intros ch. apply logged_wait_all.
Qed.
Lemma logged_commands cs : forall out err es, logged (commands_exec X O cs out err es).
Proof.
  induction cs as [|c cs IH]; intros out err es; cbn [commands_exec]; [apply logged_ret|].
  apply logged_bind; [apply logged_attempt; constructor|]. intros _. apply logged_bind; [apply logged_attempt; constructor|]. intros _.
  apply logged_bind; [apply logged_command|]. intros [e a]. destruct a; [apply logged_ret|apply IH].
Qed.
Lemma block_logged b out err s s' : final (block_exec X O b out err s) = Some s' ->
  exists l, xs_log s' = xs_log s ++ l /\ carried X O l (xs_world s) (xs_world s').
Proof.
  intros F. pose proof (logged_commands (ek_head b :: ek_tail b) out err [] s) as L. unfold block_exec in F.
  destruct (commands_exec X O (ek_head b :: ek_tail b) out err [] s); cbn in *; inversion F; subst; exact L.
Qed.

Lemma block_world fetch path b p h w eb out err w1 :
  build_command_block X fetch h w path b = Built eb ->
  match xc_kind b with
  | Synchronous => out = IOStdout /\ err = IOStderr /\ w1 = w
  | Capture => out = IOCaptureOut /\ err = IOCaptureErr /\ o_pipe O w = (None, w1)
  | Asynchronous => False
  end ->
  match final (block_exec X O eb out err (mkxstate 0 [] w1)) with
  | Some s => carried X O (xs_log s) w1 (xs_world s) /\
      block_end (eval_command_block X O fetch path b p h w) =
        Some (if completed (block_exec X O eb out err (mkxstate 0 [] w1)) then
                match xc_kind b with Capture => snd (o_captured O (xs_world s)) | _ => xs_world s end
              else xs_world s)
  | None => block_end (eval_command_block X O fetch path b p h w) = None
  end.
Proof.
  intros B K. pose proof (block_logged eb out err (mkxstate 0 [] w1)) as L. unfold eval_command_block. rewrite B.
  destruct (xc_kind b).
  - destruct K as (-> & -> & ->).
    destruct (block_exec X O eb IOStdout IOStderr (mkxstate 0 [] w)) as [es s|e q s|e s|c s|c]; cbn [final completed] in *; try reflexivity;
      (split; [destruct (L s eq_refl) as (l & -> & C); exact C|]); try reflexivity.
    destruct (block_value X es h). reflexivity.
  - contradiction.
  - destruct K as (-> & -> & E). rewrite E.
    destruct (block_exec X O eb IOCaptureOut IOCaptureErr (mkxstate 0 [] w1)) as [es s|e q s|e s|c s|c]; cbn [final completed] in *; try reflexivity;
      (split; [destruct (L s eq_refl) as (l & -> & C); exact C|]); try reflexivity.
    destruct (block_value X es h) as [v h1], (o_captured O (xs_world s)) as [[e|[o e]] w2]; [reflexivity|]. destruct v; reflexivity.
Qed.
End Carried.
