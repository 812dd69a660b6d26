(** The interpreter changes the world only by what it asks of the library and of the operating
    system: a relation kept by these requests is kept by every evaluation. *)
From Coq Require Import Strings.String.
From Verif Require Import Base Lexer Ast Parser Program Sema Value Text StdLib Exec Runtime SpecThread.

(** Everything that can be asked of the library and of the operating system keeps the relation [R]
    between the world before and the world after. *)
Record asks_within {W} (X : ext W) (O : os W) (R : W -> W -> Prop) : Prop := mkwithin {
  aw_cd : forall d w, R w (snd (x_cd X d w));
  aw_set_env : forall k v w, R w (x_set_env X k v w);
  aw_write : forall t w, R w (snd (x_write X t w));
  aw_read : forall w, R w (snd (x_read X w));
  aw_sleep : forall z w, R w (x_sleep X z w);
  aw_rand : forall w, R w (snd (x_rand X w));
  aw_rand_int : forall a b w, R w (snd (x_rand_int X a b w));
  aw_seed : forall z w, R w (x_seed X z w);
  aw_join : forall i h w, R w (snd (x_join X i h w));
  aw_open : forall f m w, R w (snd (o_open O f m w));
  aw_pipe : forall w, R w (snd (o_pipe O w));
  aw_dup : forall e w, R w (snd (o_dup O e w));
  aw_text : forall t w, R w (snd (o_text O t w));
  aw_spawn : forall r w, R w (snd (o_spawn O r w));
  aw_exec : forall r w, R w (snd (o_exec O r w));
  aw_wait : forall c w, R w (snd (o_wait O c w));
  aw_captured : forall w, R w (snd (o_captured O w));
  aw_async : forall b w, R w (snd (o_async O b w)) }.

Section World.
Context {W : Type}.
Variable X : ext W.
Variable O : os W.
Variables tail eager : bool.
Variable R : W -> W -> Prop.
Hypothesis R_refl : forall w, R w w.
Hypothesis R_trans : forall w1 w2 w3, R w1 w2 -> R w2 w3 -> R w1 w3.
Hypothesis HX : asks_within X O R.

(** ** Library *)
Definition kept (w : W) (r : outcome (heap * W) value) : Prop :=
  match r with Val _ x | Pan _ x | Exit _ x => R w (snd x) | _ => True end.

Ltac kept_one := first [exact I | apply R_refl | assumption].
Lemma walked_kept {A} w (r : walk A) (k : A -> outcome (heap * W) value) : (forall a, kept w (k a)) -> kept w (walked r k).
Proof. intros H. destruct r; [apply H|exact I|exact I]. Qed.
Ltac peel :=
  match goal with
  | |- kept _ (match ?x with _ => _ end) => destruct x eqn:?
  | |- kept _ (walked _ _) => apply walked_kept; intros ?
  end; try kept_one.

Lemma iter_call_kept g h w : kept w (iter_call g h w).
Proof. destruct g; cbn [iter_call]; unfold iteration; repeat peel; cbn; try kept_one. Qed.
Lemma range_kept a b c p h w : kept w (range a b c p h w).
Proof. unfold range. repeat peel; cbn; kept_one. Qed.
Lemma read_kept w0 p h w : R w0 w -> kept w0 (read X p h w).
Proof.
  intros H. unfold read. pose proof (aw_read X O R HX w) as K. repeat peel; subst; cbn in *; eapply R_trans; eassumption.
Qed.
Lemma std_kept n ra f args p h w : kept w (std_call X n ra f args p h w).
Proof.
  destruct f; cbn [std_call]; unfold print; repeat peel; try kept_one.
  all: try (apply range_kept); try (apply read_kept, R_refl).
  all: try (cbn; first [apply (aw_set_env X O R HX)|apply (aw_sleep X O R HX)|apply (aw_seed X O R HX)]; fail).
  all: repeat match goal with
    | E : x_cd X ?d ?w0 = _ |- _ => pose proof (aw_cd X O R HX d w0); rewrite E in *; clear E
    | E : x_write X ?t ?w0 = _ |- _ => pose proof (aw_write X O R HX t w0); rewrite E in *; clear E
    | E : x_rand X ?w0 = _ |- _ => pose proof (aw_rand X O R HX w0); rewrite E in *; clear E
    | E : x_rand_int X ?a ?b ?w0 = _ |- _ => pose proof (aw_rand_int X O R HX a b w0); rewrite E in *; clear E
    end; cbn in *; try assumption; try (now apply read_kept).
Qed.
Lemma native_kept n ra g args p h w : kept w (native_call X n ra g args p h w).
Proof.
  assert (HI : kept w (match args with [] => iter_call (W := W) g h w | _ => Pan (PInvalidArgs (length args) 0 p) (h, w) end)).
  { destruct args; [apply iter_call_kept|apply R_refl]. }
  destruct g as [f|o f|a st|s st|st|st to step|st to step|f pt|st]; cbn [native_call]; try exact HI.
  - apply std_kept.
  - exact I.
  - destruct f; cbn [regex_call]; repeat peel; cbn; kept_one.
  - unfold join_call. destruct (iter_get h st) as [| | |[i|]]; try (cbn; kept_one).
    pose proof (aw_join X O R HX i (iter_set h st (ISJoin None)) w) as J.
    destruct (x_join X i (iter_set h st (ISJoin None)) w) as [[[v h']|e] w']; exact J.
Qed.

(** ** Blocks *)
Definition stays {A} (m : xstate (W := W) -> ran (W := W) A) : Prop :=
  forall s, match m s with Ran _ s' | RIo _ _ s' | RPanic _ s' | RExit _ s' => R (xs_world s) (xs_world s') | RCrash _ => True end.
Lemma stays_bind {A B} (m : xstate -> ran A) (f : A -> xstate -> ran B) : stays m -> (forall a, stays (f a)) -> stays (xbind m f).
Proof.
  intros Hm Hf s. specialize (Hm s). unfold xbind. destruct (m s) as [a s1|e p s1|e s1|c s1|c]; auto.
  specialize (Hf a s1). destruct (f a s1); eauto.
Qed.
Lemma stays_ret {A} (a : A) : stays (xret a). Proof. intros s. apply R_refl. Qed.
Lemma stays_panic {A} p : stays (xpanic (A := A) p). Proof. intros s. apply R_refl. Qed.
Lemma stays_exit {A} z : stays (fun s => RExit (A := A) z s). Proof. intros s. apply R_refl. Qed.
Lemma stays_ask {A} p f (log : A -> list event) : (forall w, R w (snd (f w))) -> stays (ask p f log).
Proof. intros H s. unfold ask. specialize (H (xs_world s)). destruct (f (xs_world s)) as [[e|a] w']; exact H. Qed.
Lemma stays_attempt p f (log : unit -> list event) : (forall w, R w (snd (f w))) -> stays (ask p (attempt f) log).
Proof. intros H. apply stays_ask. intros w. specialize (H w). unfold attempt. destruct (f w) as [[e|] w']; exact H. Qed.
Lemma stays_dup p e : stays (ask p (attempt (o_dup O e)) (fun _ => [])).
Proof. apply stays_attempt, (aw_dup X O R HX). Qed.
Lemma stays_resolve a p : stays (resolve O a p).
Proof. intros s. destruct a as [x|x]; cbn; [|apply R_refl]. destruct (o_glob O x (xs_world s)); apply R_refl. Qed.
Lemma stays_resolve_all l p : stays (resolve_all O l p).
Proof.
  induction l as [|a l IH]; cbn [resolve_all]; [apply stays_ret|]. apply stays_bind; [apply stays_resolve|]. intros x.
  apply stays_bind; [exact IH|]. intros y. apply stays_ret.
Qed.
Lemma stays_resolve_one o a p : stays (resolve_one O o a p).
Proof. unfold resolve_one. apply stays_bind; [apply stays_resolve|]. intros [|x [|y l]]; first [apply stays_ret|apply stays_panic]. Qed.
Lemma stays_wait i p : stays (wait_child O i p).
Proof. intros s. unfold wait_child. pose proof (aw_wait X O R HX i (xs_world s)). destruct (o_wait O i (xs_world s)) as [[e|st] w']; assumption. Qed.
Lemma stays_spawn {p r} (log : N -> list event) : stays (ask p (o_spawn O r) log).
Proof. apply stays_ask. intros w. apply (aw_spawn X O R HX). Qed.
Lemma stays_builtin b l p : stays (builtin_exec X O b l p).
Proof.
  unfold builtin_exec. apply stays_bind; [apply stays_resolve_all|]. intros r.
  destruct b; try (intros s; exact I); destruct r as [|x [|y r]]; try apply stays_panic;
    apply stays_bind; try (apply stays_attempt, (aw_cd X O R HX)); try (apply stays_ask, (aw_exec X O R HX)); try apply stays_spawn;
    intros ?; first [apply stays_ret|apply stays_exit|apply stays_wait].
Qed.
Lemma stays_target t io p : stays (resolve_target O t io p).
Proof.
  unfold resolve_target. destruct t as [fd|a|a].
  - destruct (fd =? 1)%Z; [apply stays_bind; [apply stays_dup|intros; apply stays_ret]|].
    destruct (fd =? 2)%Z; [apply stays_bind; [apply stays_dup|intros; apply stays_ret]|]. apply stays_panic.
  - apply stays_bind; [apply stays_resolve_one|]. intros x. apply stays_bind; [apply stays_ask, (aw_open X O R HX)|]. intros; apply stays_ret.
  - apply stays_bind; [apply stays_resolve_one|]. intros x. apply stays_bind; [apply stays_ask, (aw_open X O R HX)|]. intros; apply stays_ret.
Qed.
Lemma stays_redirect r io p : stays (redirect O r io p).
Proof.
  destruct r as [z t|b a]; cbn [redirect].
  - apply stays_bind; [apply stays_target|]. intros e. destruct (z =? 1)%Z; [apply stays_ret|]. destruct (z =? 2)%Z; [apply stays_ret|apply stays_panic].
  - apply stays_bind; [apply stays_resolve_one|]. intros x. apply stays_bind; [|intros; apply stays_ret].
    destruct b; (apply stays_bind; [|intros; apply stays_ret]); [apply stays_attempt, (aw_text X O R HX)|apply stays_ask, (aw_open X O R HX)].
Qed.
Lemma stays_redirect_all rs io p : stays (redirect_all O rs io p).
Proof.
  revert io. induction rs as [|r rs IH]; intros io; cbn [redirect_all]; [apply stays_ret|]. apply stays_bind; [apply stays_redirect|exact IH].
Qed.
Lemma stays_env l p : stays (resolve_env O l p).
Proof.
  induction l as [|[x a] l IH]; cbn [resolve_env]; [apply stays_ret|]. apply stays_bind; [apply stays_resolve_one|]. intros y.
  apply stays_bind; [exact IH|]. intros z. apply stays_ret.
Qed.
Lemma stays_basic c io : stays (basic_exec O c io).
Proof.
  unfold basic_exec. apply stays_bind; [apply stays_resolve_one|]. intros ?. apply stays_bind; [apply stays_env|].
  intros ?. apply stays_bind; [apply stays_resolve_all|]. intros ?. apply stays_bind; [apply stays_redirect_all|]. intros ?. apply stays_spawn.
Qed.
Lemma stays_pipe p : stays (new_pipe O p).
Proof. intros s. unfold new_pipe. pose proof (aw_pipe X O R HX (xs_world s)). destruct (o_pipe O (xs_world s)) as [[e|] w']; assumption. Qed.
Lemma stays_tail cs out err ch : stays (spawn_tail O cs out err ch).
Proof.
  revert out err ch. induction cs as [|c cs IH]; intros out err ch; cbn [spawn_tail]; [apply stays_ret|].
  apply stays_bind; [apply stays_pipe|]. intros ?. apply stays_bind; [apply stays_basic|]. intros ?.
  apply stays_bind; [apply stays_dup|]. intros ?. apply IH.
Qed.
Lemma stays_wait_all ch ab es : stays (wait_all O ch ab es).
Proof.
  revert ab es. induction ch as [|[[i p] a] ch IH]; intros ab es; cbn [wait_all]; [apply stays_ret|].
  apply stays_bind; [apply stays_wait|]. intros [e|]; apply IH.
Qed.
Lemma stays_command c out err : stays (command_exec X O c out err).
Proof.
  destruct c as [b l ab p|c cs]; cbn [command_exec].
  - apply stays_bind; [apply stays_builtin|]. intros [e|]; apply stays_ret.
  - apply stays_bind; [apply stays_tail|]. intros [[o e] ch]. apply stays_bind; [apply stays_dup|]. intros ?.
    apply stays_bind; [apply stays_basic|]. intros ?. apply stays_wait_all.
Qed.
Lemma stays_commands cs out err es : stays (commands_exec X O cs out err es).
Proof.
  revert es. induction cs as [|c cs IH]; intros es; cbn [commands_exec]; [apply stays_ret|].
  apply stays_bind; [apply stays_dup|]. intros ?. apply stays_bind; [apply stays_dup|]. intros ?.
  apply stays_bind; [apply stays_command|]. intros [e ab]. destruct ab; [apply stays_ret|apply IH].
Qed.
Lemma stays_block b out err : stays (block_exec X O b out err).
Proof.
  intros s. unfold block_exec. pose proof (stays_commands (ek_head b :: ek_tail b) out err [] s) as H.
  destruct (commands_exec X O (ek_head b :: ek_tail b) out err [] s); exact H.
Qed.
Lemma command_kept fetch path b p h w : kept w (eval_command_block X O fetch path b p h w).
Proof.
  unfold eval_command_block. destruct (build_command_block X fetch h w path b) as [eb|e|c]; [|apply R_refl|exact I].
  destruct (xc_kind b).
  - pose proof (stays_block eb IOStdout IOStderr (mkxstate 0 [] w)) as H.
    destruct (block_exec X O eb IOStdout IOStderr (mkxstate 0 [] w)) as [es s|e q s|e s|c s|c]; try exact H.
    destruct (block_value X es h). exact H.
  - pose proof (aw_async X O R HX eb w) as H. destruct (o_async O eb w) as [i w']. exact H.
  - pose proof (aw_pipe X O R HX w) as H0. destruct (o_pipe O w) as [[e|] w1]; [exact H0|]. cbn in H0.
    pose proof (stays_block eb IOCaptureOut IOCaptureErr (mkxstate 0 [] w1)) as H.
    destruct (block_exec X O eb IOCaptureOut IOCaptureErr (mkxstate 0 [] w1)) as [es s|e q s|e s|c s|c]; cbn in H |- *; eauto.
    destruct (block_value X es h) as [v h1]. pose proof (aw_captured X O R HX (xs_world s)) as H2.
    destruct (o_captured O (xs_world s)) as [[e|[o e]] w2]; cbn in H2; [cbn; eauto|]. destruct v; cbn; eauto.
Qed.

(** ** Evaluation *)
Definition post {A} (w : W) (r : outcome (state W) A) : Prop :=
  match r with Val _ s | Pan _ s | Exit _ s => R w (st_world s) | _ => True end.
Definition moves {A} (m : M (W := W) A) : Prop := forall s, post (st_world s) (m s).

Lemma post_bind {A B} (m : M A) (f : A -> M B) w s : post w (m s) -> (forall a, moves (f a)) -> post w (bind m f s).
Proof.
  intros Hm Hf. unfold bind. destruct (m s) as [a s1|e s1|z s1|c|]; auto. specialize (Hf a s1).
  unfold post in *. destruct (f a s1); eauto.
Qed.
Lemma moves_bind {A B} (m : M A) (f : A -> M B) : moves m -> (forall a, moves (f a)) -> moves (bind m f).
Proof. intros Hm Hf s. apply post_bind; auto. Qed.
Lemma moves_ret {A} (a : A) : moves (ret a). Proof. intros s. apply R_refl. Qed.
Lemma moves_throw {A} e : moves (throw (A := A) e). Proof. intros s. apply R_refl. Qed.
Lemma moves_walk {A} (r : walk A) : moves (of_walk r). Proof. intros s. destruct r; try exact I. apply R_refl. Qed.
Lemma moves_sum {A} (r : A + panic) : moves (of_sum r). Proof. intros s. destruct r; apply R_refl. Qed.
Lemma moves_get {A} (f : state W -> M A) : (forall s, post (st_world s) (f s s)) -> moves (bind get f).
Proof. intros H s. exact (H s). Qed.
Lemma moves_lift f : (forall h w, kept w (f h w)) -> moves (lift f).
Proof.
  intros H s. unfold lift. specialize (H (st_heap s) (st_world s)).
  destruct (f (st_heap s) (st_world s)) as [v [h w]|e [h w]|z [h w]|c|]; exact H.
Qed.
Lemma moves_fetch ix : moves (fetch ix).
Proof. intros s. unfold fetch. destruct (nth_error (st_stack s) ix); [apply R_refl|exact I]. Qed.
Lemma moves_store ix v : moves (store ix v).
Proof. intros s. unfold store. destruct (nth_error (st_stack s) ix) as [[id v0|c]|]; try exact I; apply R_refl. Qed.
Lemma moves_capture ix : moves (capture ix).
Proof. intros s. unfold capture. destruct (nth_error (st_stack s) ix) as [[id v0|c]|]; try exact I; apply R_refl. Qed.
Lemma moves_place ix c : moves (place ix c).
Proof. intros s. unfold place. destruct (nth_error (st_stack s) ix); try exact I; apply R_refl. Qed.
Lemma moves_extend k p : moves (extend X eager k p).
Proof. intros s. unfold extend. destruct (overflows X _); apply R_refl. Qed.
Lemma moves_store_all l : forall ix, moves (store_all ix l).
Proof. induction l as [|v l IH]; intros ix; cbn [store_all]; [apply moves_ret|]. apply moves_bind; [apply moves_store|]. intros _. apply IH. Qed.
Lemma moves_place_all l : moves (place_all l).
Proof. induction l as [|[c ix] l IH]; cbn [place_all]; [apply moves_ret|]. apply moves_bind; [apply moves_place|]. intros _. exact IH. Qed.
Lemma moves_capture_all l : moves (capture_all l).
Proof.
  induction l as [|c l IH]; cbn [capture_all]; [apply moves_ret|]. apply moves_bind; [apply moves_capture|]. intros x.
  apply moves_bind; [exact IH|]. intros r. apply moves_ret.
Qed.
Lemma moves_alloc f : moves (alloc f).
Proof. intros s. unfold alloc. destruct (f (st_heap s)). apply R_refl. Qed.

Record mild (E : evals (W := W)) : Prop := mkmild {
  g_expr : forall u e, moves (ev_expr E u e);
  g_statement : forall u st, moves (ev_statement E u st);
  g_call : forall obj f start p, moves (ev_call E obj f start p);
  g_for : forall u ix g p b, moves (ev_for E u ix g p b) }.

Section Step.
Variable E : evals (W := W).
Variable n : nat.
Hypothesis HE : mild E.

Ltac mv := repeat first
  [ apply moves_ret | apply moves_throw | apply moves_walk | apply moves_sum | apply moves_fetch | apply moves_store
  | apply moves_capture_all | apply moves_alloc
  | apply (g_expr _ HE) | apply (g_statement _ HE) | apply (g_call _ HE) | apply (g_for _ HE)
  | assumption
  | match goal with H : forall _, moves _ |- _ => apply H end
  | apply moves_bind
  | match goal with
    | |- forall _ : _ * _, _ => intros [? ?]
    | |- forall _, _ => intros ?
    | |- moves (match ?x with _ => _ end) => destruct x
    end ].

Lemma moves_block u b : moves (eval_block E u b).
Proof.
  induction b as [|s b IH]; [apply moves_ret|]. destruct b as [|s' b]; [apply (g_statement _ HE)|].
  change (eval_block E u (s :: s' :: b)) with
    (bind (ev_statement E u s) (fun f => match f with Reg _ => eval_block E u (s' :: b) | f => ret f end)). mv.
Qed.
Lemma moves_list u es : moves (eval_list E u es).
Proof. induction es as [|e es IH]; cbn [eval_list]; mv. Qed.
Lemma moves_dict u items : forall d, moves (eval_dict E u items d).
Proof. induction items as [|[k e] items IH]; intros d; cbn [eval_dict]; mv. Qed.
Lemma moves_access obj op f fp : moves (access n obj op f fp).
Proof.
  unfold access. apply moves_get. intros s. assert (G : forall m : M value, moves m -> post (st_world s) (m s)) by (intros m Hm; apply Hm).
  destruct obj, f; try (apply G; mv).
Qed.
Lemma moves_push u start args : moves (push_args E u start args).
Proof.
  induction args as [|e args IH]; cbn [push_args]; [apply moves_ret|]. apply moves_bind; [apply (g_expr _ HE)|]. intros [[f p] o].
  apply moves_get. intros s. destruct f as [v|v|]; [|apply R_refl|apply R_refl].
  exact (IH (set_args s (st_args s ++ [v]))).
Qed.
Lemma moves_prepare u f args : moves (prepare_call E u f args).
Proof.
  unfold prepare_call. apply moves_bind; [apply (g_expr _ HE)|]. intros [[fl p] obj].
  destruct fl as [v|v|]; try apply moves_ret. destruct v; try apply moves_throw.
  apply moves_get. intros s. apply post_bind; [apply moves_push|]. intros [f'|]; apply moves_ret.
Qed.
Lemma moves_equal (a b : value) (f : bool -> bool) :
  moves (bind get (fun s => bind (of_walk (eqv (st_heap s) n false a b)) (fun e => ret (VBool (f e))))).
Proof. apply moves_get. intros s. apply post_bind; [apply moves_walk|]. intros e. apply moves_ret. Qed.
Lemma moves_binary u l op r p : moves (eval_binary E n u l op r p).
Proof.
  unfold eval_binary. apply moves_bind; [apply (g_expr _ HE)|]. intros [[fl lp] o]. destruct fl as [a|v|]; try apply moves_ret.
  assert (HR : forall k, (forall b rp, moves (k b rp)) ->
    moves (bind (ev_expr E u r) (fun '(fr, rp, _) => match fr with Reg b => bind (k b rp) (fun v => ret (Reg v)) | f => ret f end))).
  { intros k Hk. apply moves_bind; [apply (g_expr _ HE)|]. intros [[fr rp] o']. destruct fr as [b|v|]; try apply moves_ret.
    apply moves_bind; [apply Hk|]. intros; apply moves_ret. }
  destruct op; try (apply HR; intros b rp; apply moves_sum).
  - apply HR. intros b rp. apply (moves_equal a b (fun e => e)).
  - apply HR. intros b rp. apply (moves_equal a b negb).
  - destruct a as [|[]| | | | | | | |]; try apply moves_throw; try apply moves_ret; apply HR; intros b rp; destruct b; first [apply moves_throw|apply moves_ret].
  - destruct a as [|[]| | | | | | | |]; try apply moves_throw; try apply moves_ret; apply HR; intros b rp; destruct b; first [apply moves_throw|apply moves_ret].
Qed.
Lemma moves_eval_expr u e : moves (eval_expr X O E n u e).
Proof.
  destruct e as [ix p|l p|s p|es p|items p|params fi body p|op e p|l op r p|c t e p|o f p|f args p|b p]; cbn [eval_expr].
  - mv.
  - mv.
  - mv.
  - apply moves_bind; [|intros; apply moves_ret]. apply moves_bind; [apply moves_list|]. mv.
  - apply moves_bind; [|intros; apply moves_ret]. apply moves_bind; [apply moves_dict|]. mv.
  - mv.
  - mv.
  - apply moves_bind; [apply moves_binary|]. mv.
  - apply moves_bind; [|intros; apply moves_ret]. apply moves_bind; [apply (g_expr _ HE)|]. intros [[g cp] o].
    destruct g as [v|v|]; try apply moves_ret. destruct v; try apply moves_throw. apply moves_block.
  - apply moves_bind; [apply (g_expr _ HE)|]. intros [[fo op] o']. destruct fo as [obj|v|]; try apply moves_ret.
    apply moves_bind; [apply (g_expr _ HE)|]. intros [[ff fp] o'']. destruct ff as [field|v|]; try apply moves_ret.
    apply moves_bind; [apply moves_access|]. mv.
  - apply moves_bind; [|intros; apply moves_ret]. apply moves_bind; [apply moves_prepare|]. intros [fl|[[obj g] start]]; mv.
  - apply moves_bind; [|intros; apply moves_ret]. intros s.
    apply post_bind; [|intros; apply moves_ret]. apply moves_lift. intros h w. apply command_kept.
Qed.
Lemma moves_assign obj op f fp v p : moves (assign_field n obj op f fp v p).
Proof.
  unfold assign_field. apply moves_get. intros s. assert (HT : forall e, post (st_world s) (throw (A := unit) e s)) by (intros e; apply R_refl).
  destruct obj as [| |b|z|x|t|l|l|g|d c]; try apply HT.
  - destruct f; try apply HT. destruct (_ <=? _)%Z; [apply HT|]. destruct (_ <? _)%Z; [apply HT|]. apply R_refl.
  - unfold bind, of_walk. destruct (dict_put (st_heap s) n l f v) as [d| |]; try exact I. apply R_refl.
Qed.
Lemma moves_eval_statement u st : moves (eval_statement E n u st).
Proof.
  destruct st as [l r|e| |c b|ix e b|e]; cbn [eval_statement].
  - apply moves_bind; [apply (g_expr _ HE)|]. intros [[f p] o]. destruct f as [v|v|]; try apply moves_ret. destruct l as [ix q|oe fe q]; [mv|].
    apply moves_bind; [apply (g_expr _ HE)|]. intros [[fo op] o']. destruct fo as [obj|w|]; try apply moves_ret.
    apply moves_bind; [apply (g_expr _ HE)|]. intros [[ff fp] o'']. destruct ff as [field|w|]; try apply moves_ret.
    apply moves_bind; [apply moves_assign|]. mv.
  - mv.
  - mv.
  - apply moves_bind; [apply (g_expr _ HE)|]. intros [[f cp] o]. destruct f as [v|v|]; try apply moves_ret.
    destruct v as [|[]| | | | | | | |]; try apply moves_throw; try apply moves_ret.
    apply moves_bind; [apply moves_block|]. mv.
  - mv.
  - mv.
Qed.
Lemma moves_eval_for u ix g p b : moves (eval_for E n u ix g p b).
Proof.
  unfold eval_for. apply moves_get. intros s. apply post_bind; [apply (g_call _ HE)|]. intros r.
  destruct r as [| | | | | | |l| |]; try apply moves_throw.
  assert (HF : forall k, moves (bind get (fun s => bind (of_walk (dict_get (st_heap s) n l (VStr k)))
     (fun r => match r with Some v => ret v | None => throw (PIndexOutOfBounds (VStr k) p) end)))).
  { intros k. apply moves_get. intros s'. apply post_bind; [apply moves_walk|]. mv. }
  apply moves_bind; [apply HF|]. intros fin. destruct fin as [|[]| | | | | | | |]; try apply moves_throw; [apply moves_ret|].
  apply moves_bind; [apply HF|]. intros v. apply moves_bind; [apply moves_store|]. intros _. apply moves_bind; [apply moves_block|]. mv.
Qed.
Lemma moves_finish {A} slots (m : M A) : moves m -> moves (finish slots m).
Proof. intros H s. specialize (H s). unfold finish. destruct (m s); exact H. Qed.
Lemma moves_tail u slots f args p : moves (tail_call E u slots f args p).
Proof.
  intros s. pose proof (moves_prepare u f args s) as H. unfold tail_call.
  destruct (prepare_call E u f args s) as [[fl|[[obj g] start]] s'|e s'|z s'|c|]; try exact H.
  apply post_bind; [|intros; apply moves_ret]. pose proof (g_call _ HE obj g start (at_ u p) (shrink slots s')) as K. cbn in H, K.
  unfold post in *. destruct (ev_call E obj g start (at_ u p) (shrink slots s')); eauto.
Qed.
Lemma moves_body u slots b : moves (eval_body tail E u slots b).
Proof.
  induction b as [|s b IH]; [apply moves_finish, moves_ret|]. destruct b as [|s' b].
  - assert (D : moves (finish slots (ev_statement E u s))) by apply moves_finish, (g_statement _ HE).
    cbn [eval_body]. destruct tail; [|exact D]. destruct s as [l r|e| |c b|ix e b|e]; try exact D; destruct e; try exact D.
    + apply moves_bind; [apply moves_tail|]. mv.
    + apply moves_tail.
  - intros st. pose proof (g_statement _ HE u s st) as H.
    change (eval_body tail E u slots (s :: s' :: b) st) with
      (match ev_statement E u s st with
       | Val (Reg _) st => eval_body tail E u slots (s' :: b) st
       | Val f st => Val f (shrink slots st) | Pan p st => Pan p (shrink slots st) | r => r end).
    destruct (ev_statement E u s st) as [[v|v|] st'|e st'|z st'|c|]; try exact H. specialize (IH st'). cbn in H.
    unfold post in *. destruct (eval_body tail E u slots (s' :: b) st'); eauto.
Qed.
Lemma moves_call_hush obj unit params fi body ctx fp start p : moves (call_hush X tail eager E obj unit params fi body ctx fp start p).
Proof.
  unfold call_hush. apply moves_get. intros s.
  match goal with |- post _ (bind _ ?f s) => change (post (st_world (set_args s (firstn start (st_args s)))) (f tt (set_args s (firstn start (st_args s))))) end.
  cbv beta. destruct (Nat.eqb _ _); [|apply moves_throw].
  apply moves_bind; [apply moves_extend|]. intros _. apply moves_bind; [apply moves_store_all|]. intros _.
  apply moves_bind; [apply moves_place_all|]. intros _. apply moves_bind; [destruct (fi_self fi); mv|]. intros _.
  apply moves_bind; [apply moves_body|]. intros [v|v|]; try apply moves_ret. intros s'. exact I.
Qed.
Lemma moves_program u prog : moves (eval_program X eager E u prog).
Proof.
  unfold eval_program. apply moves_bind; [apply moves_extend|]. intros _. apply moves_bind; [apply moves_store|]. intros _ s.
  pose proof (moves_block u (pr_statements prog) s) as H. destruct (eval_block E u (pr_statements prog) s) as [[v|v|] s'|e s'|z s'|c|]; try exact H; exact I.
Qed.
Lemma moves_load path p : moves (load X eager E path p).
Proof.
  unfold load. apply moves_get. intros s. destruct (x_file X path (st_world s)) as [e|text]; [apply R_refl|].
  destruct (analyze text) as [b les pes| |]; try exact I. destruct les; [|apply R_refl]. destruct pes; [|apply R_refl].
  destruct (sema b) as [prog|es|]; [|apply R_refl|exact I].
  match goal with |- post _ (bind (put ?s1) ?f s) => change (post (st_world s1) (f tt s1)); set (s2 := s1) end. cbv beta. unfold leaking.
  pose proof (moves_program (mkuinfo (st_units s) path) prog s2) as H. destruct (eval_program X eager E (mkuinfo (st_units s) path) prog s2); exact H.
Qed.
Lemma moves_import t p : moves (import X eager E t p).
Proof.
  unfold import. apply moves_get. intros s. destruct (x_resolve X t (sp_path p) (st_world s)) as [e|path]; [apply R_refl|].
  destruct (module_get path (st_modules s)); [apply R_refl|]. apply post_bind; [apply moves_load|]. intros v. apply moves_get. intros s'. apply R_refl.
Qed.
Lemma moves_call obj f start p : moves (call X tail eager E n obj f start p).
Proof.
  unfold call. destruct f as [unit params fi body ctx fp|g]; [apply moves_call_hush|]. apply moves_get. intros s. unfold truncated.
  assert (G : forall m : M value, moves m -> post (st_world s)
    (match m s with Val a s0 => Val a (set_args s0 (firstn start (st_args s0))) | Pan p0 s0 => Pan p0 (set_args s0 (firstn start (st_args s0))) | r => r end)).
  { intros m H. specialize (H s). destruct (m s); exact H. }
  apply G. unfold native_body.
  assert (L : moves (lift (native_call X n args_value g (skipn start (st_args s)) p))) by (apply moves_lift; intros; apply native_kept).
  destruct g as [f|o f|a st|t st|st|st to step|st to step|f pt|st]; try exact L; [|apply (g_call _ HE)].
  destruct f; try exact L.
  - destruct (skipn start (st_args s)) as [|v [|v' l]]; [apply moves_throw| |destruct v; apply moves_throw]. destruct v; try apply moves_throw.
    intros s'. unfold catch. pose proof (g_call _ HE VNil f (start + 1) p s') as H.
    destruct (ev_call E VNil f (start + 1) p s') as [v s1|e s1|z s1|c|]; try exact H. destruct (panic_text X n (st_heap s1) e); try exact I. exact H.
  - destruct (skipn start (st_args s)) as [|v [|v' l]]; [apply moves_throw| |destruct v; apply moves_throw]. destruct v; try apply moves_throw. apply moves_import.
Qed.
End Step.

Lemma mild_run n : mild (run X O tail eager n).
Proof.
  induction n as [|n IH]; [constructor; intros; intros s; exact I|]. cbn [run]. constructor; cbn.
  - intros. now apply moves_eval_expr.
  - intros. now apply moves_eval_statement.
  - intros. now apply moves_call.
  - intros. now apply moves_eval_for.
Qed.
Lemma run_program_kept n path prog args w : post w (run_program X O tail eager n path prog args w).
Proof. exact (moves_program (run X O tail eager n) (mild_run n) (mkuinfo 0 path) prog (initial args w)). Qed.
End World.
