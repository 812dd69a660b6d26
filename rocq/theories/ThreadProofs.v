(** Proofs about asynchronous blocks. *)
From Coq Require Import Strings.String.
From Verif Require Import Base Lexer Ast Program Value Text StdLib Exec Runtime Threads SpecRuntime SpecRun SpecExec SpecLaws SpecThread
  WorldProofs ExecProofs.
From Verif Require CrashProofs LawProofs NamesProofs.

Lemma later_kept {W} (X : ext W) (O : os W) (R : W -> W -> Prop) : (forall w, R w w) -> (forall w1 w2 w3, R w1 w2 -> R w2 w3 -> R w1 w3) ->
  asks_within X O R -> forall s s', later X O s s' -> R (st_world s) (st_world s').
Proof.
  intros Rr Rt HX s s' L. induction L as [s|n u st fn lp k s s1 s2 _ _ F L IH|n obj f start p s s1 s2 _ _ _ F L IH]; [apply Rr| |].
  - eapply Rt; [|exact IH]. pose proof (g_statement R _ (mild_run X O true false R Rr Rt HX n) u st s) as K.
    destruct F; cbn in K; exact K.
  - eapply Rt; [|exact IH]. pose proof (g_call R _ (mild_run X O true false R Rr Rt HX n) obj f start p s) as K.
    destruct F; cbn in K; exact K.
Qed.

(** ** Only requests change the world *)
Section Reached.
Context {W : Type} (X : ext W) (O : os W).
Lemma reached_trans w1 w2 w3 : reached X O w1 w2 -> reached X O w2 w3 -> reached X O w1 w3.
Proof. induction 1 as [|w w1 w2 A R IH]; [easy|]. intros H. econstructor; eauto. Qed.
Lemma reached_within : asks_within X O (reached X O).
Proof. constructor; intros; (eapply rc_next; [|apply rc_none]); constructor. Qed.
Lemma program_reached n path prog args w :
  match run_program X O true false n path prog args w with
  | Val _ s | Pan _ s | Exit _ s => reached X O w (st_world s)
  | Crash _ | Fuel => True
  end.
Proof.
  pose proof (run_program_kept X O true false (reached X O) (rc_none X O) reached_trans reached_within n path prog args w) as H.
  destruct (run_program X O true false n path prog args w); exact H.
Qed.
Lemma later_reached s s' : later X O s s' -> reached X O (st_world s) (st_world s').
Proof. apply later_kept; [apply rc_none|apply reached_trans|apply reached_within]. Qed.
Lemma reached_inv (P : W -> Prop) : (forall w w', asked X O w w' -> P w -> P w') -> forall w w', reached X O w w' -> P w -> P w'.
Proof. intros H w w' R. induction R; eauto. Qed.
Lemma program_keeps (P : W -> Prop) n path prog args w : (forall w w', asked X O w w' -> P w -> P w') -> P w ->
  match run_program X O true false n path prog args w with
  | Val _ s | Pan _ s | Exit _ s => P (st_world s)
  | Crash _ | Fuel => True
  end.
Proof.
  intros H Pw. pose proof (program_reached n path prog args w) as R. destruct (run_program X O true false n path prog args w); auto; eapply reached_inv; eauto.
Qed.
End Reached.

(** ** Threads are kept *)
Section Kept.
Context {W : Type} (X : ext W) (O : os W) (early : nat -> bool).
Notation XT := (threads_ext X O).
Notation OT := (threads_os X O early).

Definition more (a b : W * list job) : Prop := exists l, snd b = snd a ++ l.
Lemma more_refl w : more w w. Proof. exists []. now rewrite app_nil_r. Qed.
Lemma more_trans a b c : more a b -> more b c -> more a c.
Proof. intros [l E] [m F]. exists (l ++ m). now rewrite F, E, app_assoc. Qed.
Lemma more_beside {A} (f : W -> A * W) w : more w (snd (beside f w)).
Proof. unfold beside. destruct (f (fst w)). exists []. cbn. now rewrite app_nil_r. Qed.
Lemma threads_within : asks_within XT OT more.
Proof.
  constructor; intros; try apply more_beside; try (exists []; cbn; now rewrite app_nil_r).
  - cbn. unfold join_thread. destruct (nth_error (snd w) (N.to_nat i)) as [[b|r]|]; try apply more_refl.
    destruct (thread X O b (fst w)). exists []. cbn. now rewrite app_nil_r.
  - cbn. unfold start_thread. destruct (early (length (snd w))); [destruct (thread X O b (fst w))|]; eexists; reflexivity.
Qed.

(** ** Blocks without built-in commands end as they should *)
Definition ends_well {A} (m : xstate (W := W) -> ran (W := W) A) : Prop :=
  forall s, match m s with RExit _ _ => False | _ => True end.
Lemma well_bind {A B} (m : xstate -> ran A) (f : A -> xstate -> ran B) : ends_well m -> (forall a, ends_well (f a)) -> ends_well (xbind m f).
Proof. intros Hm Hf s. specialize (Hm s). unfold xbind. destruct (m s); auto. apply Hf. Qed.
Lemma well_ret {A} (a : A) : ends_well (xret a). Proof. intros s. exact I. Qed.
Lemma well_panic {A} e : ends_well (xpanic (A := A) e). Proof. intros s. exact I. Qed.
Lemma well_ask {A} p f (log : A -> list event) : ends_well (ask p f log).
Proof. intros s. unfold ask. destruct (f (xs_world s)) as [[e|a] w]; exact I. Qed.
Lemma well_resolve a p : ends_well (resolve O a p).
Proof. intros s. destruct a as [x|x]; cbn; [|exact I]. destruct (o_glob O x (xs_world s)); exact I. Qed.
Lemma well_all l p : ends_well (resolve_all O l p).
Proof. induction l as [|a l IH]; cbn [resolve_all]; [apply well_ret|]. apply well_bind; [apply well_resolve|]. intros x. apply well_bind; [exact IH|]. intros y. apply well_ret. Qed.
Lemma well_one o a p : ends_well (resolve_one O o a p).
Proof. apply well_bind; [apply well_resolve|]. intros [|x [|y l]]; first [apply well_ret|apply well_panic]. Qed.
Lemma well_env l p : ends_well (resolve_env O l p).
Proof. induction l as [|[k a] l IH]; cbn [resolve_env]; [apply well_ret|]. apply well_bind; [apply well_one|]. intros x. apply well_bind; [exact IH|]. intros y. apply well_ret. Qed.
Lemma well_redirect r io p : ends_well (redirect O r io p).
Proof.
  destruct r as [z t|b a]; cbn [redirect].
  - apply well_bind.
    + unfold resolve_target. cbv zeta.
      assert (G : forall a m, ends_well (xbind (resolve_one O (bs "redirection") a p) (fun path =>
        xbind (ask p (o_open O path m) (fun handle => [EvOpen path m handle])) (fun handle => xret (IOFile handle))))).
      { intros a m. apply well_bind; [apply well_one|]. intros ?. apply well_bind; [apply well_ask|]. intros ?. apply well_ret. }
      destruct t as [fd|a|a]; try apply G.
      destruct (fd =? 1)%Z; [apply well_bind; [apply well_ask|intros ?; apply well_ret]|].
      destruct (fd =? 2)%Z; [apply well_bind; [apply well_ask|intros ?; apply well_ret]|apply well_panic].
    + intros e. destruct (z =? 1)%Z; [apply well_ret|]. destruct (z =? 2)%Z; [apply well_ret|apply well_panic].
  - apply well_bind; [apply well_one|]. intros x. apply well_bind; [|intros; apply well_ret].
    destruct b; (apply well_bind; [apply well_ask|intros; apply well_ret]).
Qed.
Lemma well_redirects rs p : forall io, ends_well (redirect_all O rs io p).
Proof. induction rs as [|r rs IH]; intros io; cbn [redirect_all]; [apply well_ret|]. apply well_bind; [apply well_redirect|]. intros x. apply IH. Qed.
Lemma well_basic c io : ends_well (basic_exec O c io).
Proof.
  apply well_bind; [apply well_one|]. intros ?. apply well_bind; [apply well_env|]. intros ?. apply well_bind; [apply well_all|]. intros ?.
  apply well_bind; [apply well_redirects|]. intros ?. apply well_ask.
Qed.
Lemma well_tail cs : forall out err ch, ends_well (spawn_tail O cs out err ch).
Proof.
  induction cs as [|c cs IH]; intros out err ch; cbn [spawn_tail]; [apply well_ret|]. apply well_bind.
  - intros s. unfold new_pipe. destruct (o_pipe O (xs_world s)) as [[e|] w]; exact I.
  - intros k. apply well_bind; [apply well_basic|]. intros ?. apply well_bind; [apply well_ask|]. intros ?. apply IH.
Qed.
Lemma well_wait ch : forall ab es, ends_well (wait_all O ch ab es).
Proof.
  induction ch as [|[[i p] a] ch IH]; intros ab es; cbn [wait_all]; [apply well_ret|]. apply well_bind; [|intros [e|]; apply IH].
  intros s. unfold wait_child. destruct (o_wait O i (xs_world s)) as [[e|st] w]; exact I.
Qed.
Definition outer (c : ecommand) : Prop := match c with EBuiltin _ _ _ _ => False | EExternal _ _ => True end.
Lemma well_commands cs out err : Forall outer cs -> forall es, ends_well (commands_exec X O cs out err es).
Proof.
  induction 1 as [|c cs Hc Hcs IH]; intros es; cbn [commands_exec]; [apply well_ret|].
  apply well_bind; [apply well_ask|]. intros _. apply well_bind; [apply well_ask|]. intros _.
  destruct c as [b l x p|c k]; [destruct Hc|]. apply well_bind; [|intros [e ab]; destruct ab; [apply well_ret|apply IH]].
  cbn [command_exec]. apply well_bind; [apply well_tail|]. intros [[o e] ch]. apply well_bind; [apply well_ask|]. intros ?.
  apply well_bind; [apply well_basic|]. intros ?. apply well_wait.
Qed.
Lemma outer_alone eb w : Forall outer (ek_head eb :: ek_tail eb) ->
  let '(r, w') := thread X O eb w in alone X O eb w r w'.
Proof.
  intros F. unfold thread. destruct (block_exec X O eb IOStdout IOStderr (mkxstate 0 [] w)) as [es s|e p s|e s|c s|c] eqn:E.
  - now constructor.
  - exfalso. unfold block_exec in E. destruct (commands_exec X O (ek_head eb :: ek_tail eb) IOStdout IOStderr [] (mkxstate 0 [] w)); discriminate.
  - now constructor.
  - exfalso. pose proof (well_commands _ IOStdout IOStderr F [] (mkxstate 0 [] w)) as H. unfold block_exec in E.
    destruct (commands_exec X O (ek_head eb :: ek_tail eb) IOStdout IOStderr [] (mkxstate 0 [] w)); try discriminate. exact H.
  - exfalso. apply CrashProofs.block_crash in E. destruct E as [(args & ab & p & I) _]. rewrite Forall_forall in F. exact (F _ I).
Qed.
Lemma alone_thread eb w r w' : alone X O eb w r w' -> thread X O eb w = (r, w').
Proof. unfold thread. destruct 1 as [ess s E|e s E]; now rewrite E. Qed.

Lemma built_outer {V} (Y : ext V) fetch h w path b eb : external b -> build_command_block Y fetch h w path b = Built eb -> Forall outer (ek_head eb :: ek_tail eb).
Proof.
  intros F E. unfold build_command_block in E. inversion F as [|c cs Hc Hcs]; subst.
  destruct (build_command Y fetch h w path (xc_head b)) as [e| |] eqn:E1; try discriminate. cbn [bbind] in E.
  destruct (bmap (build_command Y fetch h w path) (xc_tail b)) as [es| |] eqn:E2; try discriminate. injection E as <-. cbn [ek_head ek_tail].
  assert (G : forall c e, match c with XBuiltin _ _ _ _ => False | XExternal _ _ => True end -> build_command Y fetch h w path c = Built e -> outer e).
  { clear. intros [bi l a p|c cs] e H E; [destruct H|]. cbn [build_command] in E.
    destruct (build_basic_command Y fetch h w path c); try discriminate. cbn [bbind] in E.
    destruct (bmap (build_basic_command Y fetch h w path) cs); try discriminate. injection E as <-. exact I. }
  constructor; [eapply G; eassumption|]. clear - Hcs G E2. revert es E2. induction Hcs as [|c cs Hc Hcs IH]; intros es E2; cbn [bmap] in E2.
  - injection E2 as <-. constructor.
  - destruct (build_command Y fetch h w path c) as [e| |] eqn:E; try discriminate. cbn [bbind] in E2.
    destruct (bmap (build_command Y fetch h w path) cs) as [r| |]; try discriminate. injection E2 as <-.
    constructor; [eapply G; eassumption|]. now apply IH.
Qed.

Lemma deliver_stands r h v h' (w : W * list job) : deliver X r h = inl (v, h') -> stands_for_end XT r (Val v (h', w)) w.
Proof.
  destruct r as [ess|e]; cbn [deliver]; [|discriminate]. intros E. injection E as E. split; [|reflexivity].
  change (block_value X) with (block_value XT) in E. now apply (block_reported XT) in E.
Qed.
Lemma deliver_panics r h e h' (w : W * list job) : deliver X r h = inr e -> stands_for_end XT r (Pan e (h', w)) w.
Proof. destruct r as [ess|e']; cbn [deliver]; [discriminate|]. intros E. injection E as ->. split; reflexivity. Qed.

Lemma iter_get_nth h st i : nth_error (h_iters h) st = Some i -> iter_get h st = i.
Proof. intros E. unfold iter_get. now apply nth_error_nth. Qed.
Lemma join_ended st handle r h (w : W * list job) n args vs q : nth_error (h_iters h) st = Some (ISJoin (Some handle)) ->
  nth_error (snd w) (N.to_nat handle) = Some (Ended r) -> stands_for_end XT r (native_call XT n args (NJoin st) vs q h w) w.
Proof.
  intros E J. cbn [native_call]. unfold join_call. rewrite (iter_get_nth _ _ _ E). cbn [x_join threads_ext]. unfold join_thread. rewrite J.
  destruct (deliver X r _) as [[v h']|e] eqn:D; [exact (deliver_stands _ _ _ _ w D)|exact (deliver_panics _ _ _ (iter_set h st (ISJoin None)) w D)].
Qed.
Lemma join_waiting st handle eb r w' h (w : W * list job) n args vs q : nth_error (h_iters h) st = Some (ISJoin (Some handle)) ->
  nth_error (snd w) (N.to_nat handle) = Some (Waiting eb) -> alone X O eb (fst w) r w' ->
  stands_for_end XT r (native_call XT n args (NJoin st) vs q h w) (w', snd w).
Proof.
  intros E J A. cbn [native_call]. unfold join_call. rewrite (iter_get_nth _ _ _ E). cbn [x_join threads_ext]. unfold join_thread. rewrite J.
  rewrite (alone_thread _ _ _ _ A).
  destruct (deliver X r _) as [[v h']|e] eqn:D; [exact (deliver_stands _ _ _ _ (w', snd w) D)|exact (deliver_panics _ _ _ (iter_set h st (ISJoin None)) (w', snd w) D)].
Qed.

(** ** Joining later *)
Lemma joined_later fetch path b p h w v h' w' : xc_kind b = Asynchronous -> external b ->
  eval_command_block XT OT fetch path b p h w = Val v (h', w') ->
  exists eb d st handle, build_command_block XT fetch h w path b = Built eb /\ v = VDict d /\
    dict_entries h' d = [(VStr (bs "join"), VFun (FRust (NJoin st)))] /\ nth_error (h_iters h') st = Some (ISJoin (Some handle)) /\
    forall s s2 n args vs q, st_world s = w' -> later XT OT s s2 -> nth_error (h_iters (st_heap s2)) st = Some (ISJoin (Some handle)) ->
    exists r w1, let o := native_call XT n args (NJoin st) vs q (st_heap s2) (st_world s2) in
      if early (length (snd w))
      then alone X O eb (fst w) r w1 /\ fst w' = w1 /\ stands_for_end XT r o (st_world s2)
      else fst w' = fst w /\ alone X O eb (fst (st_world s2)) r w1 /\ stands_for_end XT r o (w1, snd (st_world s2)).
Proof.
  intros K Ex E. apply async_created in E; [|exact K]. destruct E as (eb & d & st & handle & B & A & -> & D & I & _).
  exists eb, d, st, handle. split; [exact B|]. split; [reflexivity|]. split; [exact D|]. split; [exact I|].
  intros s s2 n args vs q Ws L I2. apply (later_kept XT OT more more_refl more_trans threads_within) in L. rewrite Ws in L. destruct L as [l L].
  pose proof (built_outer _ _ _ _ _ _ _ Ex B) as Ou. cbn [o_async threads_os] in A. unfold start_thread in A.
  destruct (early (length (snd w))).
  - pose proof (outer_alone eb (fst w) Ou) as Al. destruct (thread X O eb (fst w)) as [r w1]. injection A as <- <-. exists r, w1.
    split; [exact Al|]. split; [reflexivity|]. eapply join_ended; [exact I2|]. rewrite L, Nnat.Nat2N.id. cbn [snd]. rewrite <- app_assoc.
    rewrite nth_error_app2 by auto. now rewrite Nat.sub_diag.
  - injection A as <- <-. pose proof (outer_alone eb (fst (st_world s2)) Ou) as Al. destruct (thread X O eb (fst (st_world s2))) as [r w1]. exists r, w1.
    split; [reflexivity|]. split; [exact Al|]. eapply join_waiting; [exact I2| |exact Al]. rewrite L, Nnat.Nat2N.id. cbn [snd]. rewrite <- app_assoc.
    rewrite nth_error_app2 by auto. now rewrite Nat.sub_diag.
Qed.
End Kept.

(** ** A block does the same beside the threads as without them *)
Section Beside.
Context {W : Type} (X : ext W) (O : os W) (early : nat -> bool).
Notation XT := (threads_ext X O).
Notation OT := (threads_os X O early).
Definition beside_state (js : list job) (s : @xstate W) : @xstate (W * list job) := mkxstate (xs_pipes s) (xs_log s) (xs_world s, js).
Definition beside_ran {A} (js : list job) (r : @ran W A) : @ran (W * list job) A :=
  match r with
  | Ran a s => Ran a (beside_state js s) | RIo e p s => RIo e p (beside_state js s) | RPanic e s => RPanic e (beside_state js s)
  | RExit c s => RExit c (beside_state js s) | RCrash c => RCrash c
  end.
Definition same_beside {A} (m : @xstate W -> @ran W A) (mT : @xstate (W * list job) -> @ran (W * list job) A) : Prop :=
  forall js s, mT (beside_state js s) = beside_ran js (m s).
Lemma sb_bind {A B} m mT (f : A -> @xstate W -> @ran W B) fT : same_beside m mT -> (forall a, same_beside (f a) (fT a)) -> same_beside (xbind m f) (xbind mT fT).
Proof. intros H F js s. unfold xbind. rewrite H. destruct (m s); cbn; auto. apply F. Qed.
Lemma sb_ret {A} (a : A) : same_beside (xret a) (xret a). Proof. intros js s. reflexivity. Qed.
Lemma sb_panic {A} e : same_beside (xpanic (A := A) e) (xpanic e). Proof. intros js s. reflexivity. Qed.
Lemma sb_ask {A} p (f : W -> (bytes + A) * W) log : same_beside (ask p f log) (ask p (beside f) log).
Proof. intros js s. unfold ask, beside. cbn. destruct (f (xs_world s)) as [[e|a] w]; reflexivity. Qed.
Lemma sb_try p (f : W -> option bytes * W) log : same_beside (ask p (attempt f) log) (ask p (attempt (beside f)) log).
Proof. intros js s. unfold ask, attempt, beside. cbn. destruct (f (xs_world s)) as [[e|] w]; reflexivity. Qed.
Lemma sb_resolve a p : same_beside (resolve O a p) (resolve OT a p).
Proof. intros js s. destruct a as [x|x]; cbn; try reflexivity; destruct (o_glob O x (xs_world s)); reflexivity. Qed.
Lemma sb_all l p : same_beside (resolve_all O l p) (resolve_all OT l p).
Proof. induction l as [|a l IH]; cbn [resolve_all]; [apply sb_ret|]. apply sb_bind; [apply sb_resolve|]. intros x. apply sb_bind; [exact IH|]. intros y. apply sb_ret. Qed.
Lemma sb_one o a p : same_beside (resolve_one O o a p) (resolve_one OT o a p).
Proof. apply sb_bind; [apply sb_resolve|]. intros [|x [|y l]]; first [apply sb_ret|apply sb_panic]. Qed.
Lemma sb_env l p : same_beside (resolve_env O l p) (resolve_env OT l p).
Proof. induction l as [|[k a] l IH]; cbn [resolve_env]; [apply sb_ret|]. apply sb_bind; [apply sb_one|]. intros x. apply sb_bind; [exact IH|]. intros y. apply sb_ret. Qed.
Lemma sb_redirect r io p : same_beside (redirect O r io p) (redirect OT r io p).
Proof.
  destruct r as [z t|b a]; cbn [redirect].
  - apply sb_bind.
    + unfold resolve_target. cbv zeta. destruct t as [fd|a|a].
      * destruct (fd =? 1)%Z; [apply sb_bind; [apply sb_try|intros ?; apply sb_ret]|].
        destruct (fd =? 2)%Z; [apply sb_bind; [apply sb_try|intros ?; apply sb_ret]|apply sb_panic].
      * apply sb_bind; [apply sb_one|]. intros ?. apply sb_bind; [apply sb_ask|]. intros ?. apply sb_ret.
      * apply sb_bind; [apply sb_one|]. intros ?. apply sb_bind; [apply sb_ask|]. intros ?. apply sb_ret.
    + intros e. destruct (z =? 1)%Z; [apply sb_ret|]. destruct (z =? 2)%Z; [apply sb_ret|apply sb_panic].
  - apply sb_bind; [apply sb_one|]. intros x. apply sb_bind; [|intros; apply sb_ret].
    destruct b; (apply sb_bind; [first [apply sb_try|apply sb_ask]|intros; apply sb_ret]).
Qed.
Lemma sb_redirects rs p : forall io, same_beside (redirect_all O rs io p) (redirect_all OT rs io p).
Proof. induction rs as [|r rs IH]; intros io; cbn [redirect_all]; [apply sb_ret|]. apply sb_bind; [apply sb_redirect|]. intros x. apply IH. Qed.
Lemma sb_basic c io : same_beside (basic_exec O c io) (basic_exec OT c io).
Proof.
  apply sb_bind; [apply sb_one|]. intros ?. apply sb_bind; [apply sb_env|]. intros ?. apply sb_bind; [apply sb_all|]. intros ?.
  apply sb_bind; [apply sb_redirects|]. intros ?. apply sb_ask.
Qed.
Lemma sb_tail cs : forall out err ch, same_beside (spawn_tail O cs out err ch) (spawn_tail OT cs out err ch).
Proof.
  induction cs as [|c cs IH]; intros out err ch; cbn [spawn_tail]; [apply sb_ret|]. apply sb_bind.
  - intros js s. unfold new_pipe. cbn. unfold beside. cbn. destruct (o_pipe O (xs_world s)) as [[e|] w]; reflexivity.
  - intros k. apply sb_bind; [apply sb_basic|]. intros ?. apply sb_bind; [apply sb_try|]. intros ?. apply IH.
Qed.
Lemma sb_wait ch : forall ab es, same_beside (wait_all O ch ab es) (wait_all OT ch ab es).
Proof.
  induction ch as [|[[i p] a] ch IH]; intros ab es; cbn [wait_all]; [apply sb_ret|]. apply sb_bind; [|intros [e|]; apply IH].
  intros js s. unfold wait_child. cbn. unfold beside. cbn. destruct (o_wait O i (xs_world s)) as [[e|st] w]; reflexivity.
Qed.
Lemma sb_commands cs out err : Forall outer cs -> forall es, same_beside (commands_exec X O cs out err es) (commands_exec XT OT cs out err es).
Proof.
  induction 1 as [|c cs Hc Hcs IH]; intros es; cbn [commands_exec]; [apply sb_ret|].
  apply sb_bind; [apply sb_try|]. intros _. apply sb_bind; [apply sb_try|]. intros _.
  destruct c as [b l x p|c k]; [destruct Hc|]. apply sb_bind; [|intros [e ab]; destruct ab; [apply sb_ret|apply IH]].
  cbn [command_exec]. apply sb_bind; [apply sb_tail|]. intros [[o e] ch]. apply sb_bind; [apply sb_try|]. intros ?.
  apply sb_bind; [apply sb_basic|]. intros ?. apply sb_wait.
Qed.
Lemma sb_block eb out err : Forall outer (ek_head eb :: ek_tail eb) -> same_beside (block_exec X O eb out err) (block_exec XT OT eb out err).
Proof.
  intros F js s. unfold block_exec. rewrite (sb_commands _ out err F [] js s).
  destruct (commands_exec X O (ek_head eb :: ek_tail eb) out err [] s); reflexivity.
Qed.

Lemma built_kind {V} (Y : ext V) fetch h w path b : build_command_block Y fetch h w path (waited_at_once b) = build_command_block Y fetch h w path b.
Proof. reflexivity. Qed.

(** The block that is waited for, when it is built *)
Lemma waited_ends fetch path b p h w eb : external b -> build_command_block XT fetch h w path b = Built eb ->
  exists r w1, alone X O eb (fst w) r w1 /\ stands_for_end XT r (eval_command_block XT OT fetch path (waited_at_once b) p h w) (w1, snd w).
Proof.
  intros Ex B. pose proof (built_outer _ _ _ _ _ _ _ Ex B) as Ou. pose proof (outer_alone X O eb (fst w) Ou) as Al.
  destruct (thread X O eb (fst w)) as [r w1] eqn:Th. exists r, w1. split; [exact Al|]. unfold eval_command_block. rewrite built_kind, B.
  cbn [xc_kind waited_at_once]. pose proof (sb_block eb IOStdout IOStderr Ou (snd w) (mkxstate 0 [] (fst w))) as S.
  unfold beside_state in S. cbn [xs_pipes xs_log xs_world] in S. rewrite <- surjective_pairing in S. rewrite S.
  destruct Al as [ess s E|e s E]; rewrite E; cbn [beside_ran].
  - change (block_value XT) with (block_value X). destruct (block_value X ess h) as [v h'] eqn:V. cbn. split; [|reflexivity].
    change (block_value X) with (block_value XT) in V. now apply (block_reported XT) in V.
  - cbn. split; reflexivity.
Qed.
End Beside.

(** ** Joining at once *)
Section AtOnce.
Context {W : Type} (X : ext W) (O : os W) (early : nat -> bool).
Notation XT := (threads_ext X O).
Notation OT := (threads_os X O early).

Definition seen_by (s : state (W * list job)) (ix : slot) : option value := option_map (slot_value (st_heap s)) (nth_error (st_stack s) ix).

Lemma command_evaluates u b p s r : evaluates XT OT u (XCommand b p) s r ->
  r = match eval_command_block XT OT (seen_by s) (u_path u) b (at_ u p) (st_heap s) (st_world s) with
      | Val v x => Val (Reg v) (set_world (set_heap s (fst x)) (snd x))
      | Pan e x => Pan e (set_world (set_heap s (fst x)) (snd x))
      | Exit c x => Exit c (set_world (set_heap s (fst x)) (snd x))
      | Crash c => Crash c
      | Fuel => Fuel
      end.
Proof.
  intros [N [n E]]. destruct n as [|n]; [now destruct N|]. rewrite <- E. unfold interp, flow_of. cbn [run step ev_expr eval_expr].
  unfold bind, lift, ret, seen_by. destruct (eval_command_block XT OT _ (u_path u) b (at_ u p) (st_heap s) (st_world s)); reflexivity.
Qed.

Lemma alone_fun eb w r w1 r' w1' : alone X O eb w r w1 -> alone X O eb w r' w1' -> r' = r /\ w1' = w1.
Proof. intros A B. apply alone_thread in A. apply alone_thread in B. rewrite A in B. now injection B as <- <-. Qed.

Definition after (s : state (W * list job)) (x : heap * (W * list job)) : state (W * list job) := set_world (set_heap s (fst x)) (snd x).
Lemma command_step n u b p s : ev_expr (interp XT OT (S n)) u (XCommand b p) s =
  match eval_command_block XT OT (seen_by s) (u_path u) b (at_ u p) (st_heap s) (st_world s) with
  | Val v x => Val (Reg v, at_ u p, VNil) (after s x)
  | Pan e x => Pan e (after s x)
  | Exit c x => Exit c (after s x)
  | Crash c => Crash c
  | Fuel => Fuel
  end.
Proof.
  unfold interp. cbn [run step ev_expr eval_expr]. unfold bind, lift, ret, seen_by, after.
  destruct (eval_command_block XT OT _ (u_path u) b (at_ u p) (st_heap s) (st_world s)); reflexivity.
Qed.
Lemma access_step n u e k fp ap s d f q x s1 : ev_expr (interp XT OT (S n)) u e s = Val (Reg (VDict d), q, x) s1 ->
  dict_entries (st_heap s1) d = [(VStr k, f)] -> ev_expr (interp XT OT (S (S n))) u (XAccess e (XFieldName k fp) ap) s = Val (Reg f, at_ u ap, VDict d) s1.
Proof.
  intros E D. unfold interp in *. change (ev_expr (run XT OT true false (S (S n)))) with (eval_expr XT OT (run XT OT true false (S n)) (S n)).
  cbn [eval_expr]. unfold bind. rewrite E.
  change (ev_expr (run XT OT true false (S n)) u (XFieldName k fp) s1) with (Val (A := flow * spos * value) (Reg (VStr k), at_ u fp, VNil) s1).
  cbn iota beta. unfold access, bind, get. cbn iota beta. rewrite LawProofs.get_name, D. cbn [field_of]. rewrite NamesProofs.beq_refl. reflexivity.
Qed.
Lemma access_fails n u e k fp ap s o : (forall a s1, o <> Val a s1) -> ev_expr (interp XT OT (S n)) u e s = o ->
  flow_of (ev_expr (interp XT OT (S (S n))) u (XAccess e (XFieldName k fp) ap) s) = flow_of o.
Proof.
  intros N E. unfold interp in *. change (ev_expr (run XT OT true false (S (S n)))) with (eval_expr XT OT (run XT OT true false (S n)) (S n)).
  cbn [eval_expr]. unfold bind. rewrite E. destruct o; try reflexivity. now destruct (N a s0).
Qed.
Lemma call_step n u e cp s obj st q s1 : ev_expr (interp XT OT (S n)) u e s = Val (Reg (VFun (FRust (NJoin st))), q, obj) s1 ->
  flow_of (ev_expr (interp XT OT (S (S n))) u (XCall e [] cp) s) =
  match native_call XT n args_value (NJoin st) [] (at_ u cp) (st_heap s1) (st_world s1) with
  | Val v x => Val (Reg v) (after s1 x)
  | Pan e x => Pan e (after s1 x)
  | Exit c x => Exit c (after s1 x)
  | Crash c => Crash c
  | Fuel => Fuel
  end.
Proof.
  intros E. unfold interp in *. change (ev_expr (run XT OT true false (S (S n)))) with (eval_expr XT OT (run XT OT true false (S n)) (S n)).
  cbn [eval_expr]. unfold prepare_call, bind, flow_of. rewrite E. unfold get. cbn [push_args]. unfold ret.
  change (ev_call (run XT OT true false (S n))) with (call XT true false (run XT OT true false n) n). cbn [call]. unfold bind, get, truncated.
  rewrite skipn_all. cbn [native_body]. unfold lift.
  assert (T : forall x, set_args (after s1 x) (firstn (length (st_args s1)) (st_args (after s1 x))) = after s1 x).
  { intros x. change (st_args (after s1 x)) with (st_args s1). rewrite firstn_all. now destruct s1. }
  destruct (native_call XT n args_value (NJoin st) [] (at_ u cp) (st_heap s1) (st_world s1)) as [a x|e1 x|c x|c|]; try reflexivity; fold (after s1 x); now rewrite T.
Qed.
Lemma call_fails n u e cp s o : (forall a s1, o <> Val a s1) -> flow_of (ev_expr (interp XT OT (S n)) u e s) = o ->
  flow_of (ev_expr (interp XT OT (S (S n))) u (XCall e [] cp) s) = o.
Proof.
  intros N E. unfold interp in *. change (ev_expr (run XT OT true false (S (S n)))) with (eval_expr XT OT (run XT OT true false (S n)) (S n)).
  cbn [eval_expr]. unfold prepare_call, bind. destruct (ev_expr (run XT OT true false (S n)) u e s) as [[[f q] x] s1| | | |]; cbn in E; subst o; try reflexivity.
  now destruct (N f s1).
Qed.

Lemma joined_at_once u b p fp ap cp s r : xc_kind b = Asynchronous -> external b ->
  evaluates XT OT u (XCommand (waited_at_once b) p) s r ->
  exists r', evaluates XT OT u (XCall (XAccess (XCommand b p) (XFieldName (bs "join") fp) ap) [] cp) s r' /\ same_end XT r r'.
Proof.
  intros K Ex E. apply command_evaluates in E.
  set (o := fun n => flow_of (ev_expr (interp XT OT n) u (XCall (XAccess (XCommand b p) (XFieldName (bs "join") fp) ap) [] cp) s)).
  assert (G : same_end XT r (o 3)).
  2: { exists (o 3). split; [|exact G]. split; [|now exists 3]. intros Q. rewrite Q in G. unfold same_end in G. destruct r as [[]| | | |]; exact G. }
  pose proof (command_step 0 u b p s) as C1. unfold o. clear o.
  destruct (build_command_block XT (seen_by s) (st_heap s) (st_world s) (u_path u) b) as [eb|e|c] eqn:B.
  - destruct (waited_ends X O early (seen_by s) (u_path u) b (at_ u p) (st_heap s) (st_world s) eb Ex B) as (r0 & w1 & Al & St).
    destruct (eval_command_block XT OT (seen_by s) (u_path u) b (at_ u p) (st_heap s) (st_world s)) as [v [h' w']|e x|c x|c|] eqn:C.
    2-5: exfalso; unfold eval_command_block in C; rewrite B, K in C; destruct (o_async OT eb (st_world s)); discriminate.
    destruct (joined_later X O early _ _ _ _ _ _ _ _ _ K Ex C) as (eb' & d & st & handle & B' & -> & D & I & L).
    rewrite B in B'. injection B' as <-. set (s1 := after s (h', w')) in *.
    destruct (L s1 s1 1 args_value [] (at_ u cp)) as (r1 & w2 & Q); [reflexivity|constructor|exact I|]. cbv zeta in Q.
    assert (Q' : exists js, r1 = r0 /\ stands_for_end XT r0 (native_call XT 1 args_value (NJoin st) [] (at_ u cp) (st_heap s1) (st_world s1)) (w1, js)).
    { destruct (early (length (snd (st_world s)))).
      - destruct Q as (Al' & F & St'). destruct (alone_fun _ _ _ _ _ _ Al Al') as [-> ->]. exists (snd w'). split; [reflexivity|].
        change (st_world s1) with w' in St' |- *. rewrite <- F, <- surjective_pairing. exact St'.
      - destruct Q as (F & Al' & St'). change (fst (st_world s1)) with (fst w') in Al'. rewrite F in Al'.
        destruct (alone_fun _ _ _ _ _ _ Al Al') as [-> ->]. exists (snd w'). split; [reflexivity|]. exact St'. }
    destruct Q' as (js & _ & Q'). rewrite (call_step 1 u _ cp s (VDict d) st (at_ u ap) s1).
    2: { eapply access_step; [exact C1|exact D]. }
    rewrite E. clear E C1 C Q L I.
    destruct (eval_command_block XT OT (seen_by s) (u_path u) (waited_at_once b) (at_ u p) (st_heap s) (st_world s)) as [v [h1 w3]|e [h1 w3]|c x|c|],
      (native_call XT 1 args_value (NJoin st) [] (at_ u cp) (st_heap s1) (st_world s1)) as [v' [h2 w4]|e' [h2 w4]|c' x'|c'|], r0 as [ess|e0]; try contradiction.
    + destruct St as [V ->], Q' as [V' ->]. cbn. split; [now exists ess|]. repeat split.
    + destruct St as [-> ->], Q' as [-> ->]. cbn. repeat split.
  - assert (C : forall b', build_command_block XT (seen_by s) (st_heap s) (st_world s) (u_path u) b' = BPanic e ->
      eval_command_block XT OT (seen_by s) (u_path u) b' (at_ u p) (st_heap s) (st_world s) = Pan e (st_heap s, st_world s)).
    { intros b' Q. unfold eval_command_block. now rewrite Q. }
    rewrite (C _ B) in C1. rewrite (C (waited_at_once b) B) in E. subst r.
    rewrite (call_fails 1 u _ cp s (Pan e (after s (st_heap s, st_world s)))); [|intros; discriminate|].
    + cbn. repeat split.
    + rewrite (access_fails 0 u _ _ fp ap s (Pan e (after s (st_heap s, st_world s))) ltac:(intros; discriminate) C1). reflexivity.
  - assert (C : forall b', build_command_block XT (seen_by s) (st_heap s) (st_world s) (u_path u) b' = BCrash c ->
      eval_command_block XT OT (seen_by s) (u_path u) b' (at_ u p) (st_heap s) (st_world s) = Crash c).
    { intros b' Q. unfold eval_command_block. now rewrite Q. }
    rewrite (C _ B) in C1. rewrite (C (waited_at_once b) B) in E. subst r.
    rewrite (call_fails 1 u _ cp s (Crash c)); [|intros; discriminate|].
    + cbn. reflexivity.
    + rewrite (access_fails 0 u _ _ fp ap s (Crash c) ltac:(intros; discriminate) C1). reflexivity.
Qed.
End AtOnce.
