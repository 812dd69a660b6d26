(** Reusing the stack of the caller for a tail call cannot be told from an ordinary call. *)
From Coq Require Import Strings.String Lia.
From Verif Require ShowProofs.
From Verif Require Import Base Lexer Ast Parser Program Sema Value Text StdLib Exec Runtime SpecLexer SpecParser SpecSema SpecProgram
  SpecRun SoundLibProofs SemaShapeProofs SemaTextProofs SoundRunProofs SpecShare ShareLibProofs ShareRunProofs FuelProofs.

#[local] Existing Instance anything.

Lemma list_set_app {A} (l r : list A) i x : i < length l -> list_set (l ++ r) i x = list_set l i x ++ r.
Proof. revert i. induction l as [|y l IH]; intros [|i] H; cbn in *; try lia; [reflexivity|]. f_equal. apply IH. lia. Qed.
Lemma skipn_app_length {A} (l r : list A) k : length l = k -> skipn k (l ++ r) = r.
Proof. intros <-. induction l; [reflexivity|exact IHl]. Qed.

(** ** The leak flag is never cleared *)
Section Leak.
Context {W : Type}.
Variable X : ext W.
Variable O : os W.
Variables tail eager : bool.
Notation M := (@M W).

Definition leaked_out {A} (o : outcome (state W) A) : Prop :=
  match o with Val _ t | Pan _ t | Exit _ t => st_leaked t = true | _ => True end.
Definition kl {A} (m : M A) : Prop := forall s, st_leaked s = true -> leaked_out (m s).
Lemma kl_ret {A} (a : A) : kl (ret a). Proof. intros s H; exact H. Qed.
Lemma kl_throw {A} p : kl (throw (A := A) p). Proof. intros s H; exact H. Qed.
Lemma kl_crash {A} c : kl (crash_with (A := A) c). Proof. intros s H; exact I. Qed.
Lemma kl_fuel {A} : kl (fun _ => Fuel (A := A)). Proof. intros s H; exact I. Qed.
Lemma kl_sum {A} (r : A + panic) : kl (of_sum r). Proof. destruct r; [apply kl_ret|apply kl_throw]. Qed.
Lemma kl_walk {A} (r : walk A) : kl (of_walk r). Proof. destruct r; [apply kl_ret|intros s H; exact I..]. Qed.
Lemma kl_bind {A B} (m : M A) (f : A -> M B) : kl m -> (forall a, kl (f a)) -> kl (bind m f).
Proof. intros H K s Hs. specialize (H s Hs). unfold bind. destruct (m s); try exact H. apply K, H. Qed.
(** [get] followed by something that puts back a state with the same flag *)
Lemma kl_get {A} (f : state W -> M A) : (forall s, st_leaked s = true -> leaked_out (f s s)) -> kl (bind get f).
Proof. intros H s Hs. exact (H s Hs). Qed.
Lemma kl_lift {A} (f : heap -> W -> outcome (heap * W) A) : kl (lift f).
Proof. intros s Hs. unfold lift. destruct (f (st_heap s) (st_world s)); cbn; auto. Qed.
Lemma kl_fetch ix : kl (fetch ix).
Proof. intros s Hs. unfold fetch. destruct (nth_error (st_stack s) ix); cbn; auto. Qed.
Lemma kl_store ix v : kl (store ix v).
Proof. intros s Hs. unfold store. destruct (nth_error (st_stack s) ix) as [[]|]; cbn; auto. Qed.
Lemma kl_capture ix : kl (capture ix).
Proof. intros s Hs. unfold capture. destruct (nth_error (st_stack s) ix) as [[]|]; cbn; auto. Qed.
Lemma kl_place ix c : kl (place ix c).
Proof. intros s Hs. unfold place. destruct (nth_error (st_stack s) ix) as [[]|]; cbn; auto. Qed.
Lemma kl_extend k p : kl (Runtime.extend X eager k p).
Proof. intros s Hs. unfold Runtime.extend. destruct (overflows X _); cbn; auto. Qed.
Lemma kl_alloc f : kl (alloc (W := W) f).
Proof. intros s Hs. unfold alloc. destruct (f (st_heap s)); cbn; auto. Qed.
Lemma kl_store_all l : forall ix, kl (store_all ix l).
Proof. induction l as [|v l IH]; intros ix; cbn [store_all]; [apply kl_ret|]. apply kl_bind; [apply kl_store|intros; apply IH]. Qed.
Lemma kl_place_all l : kl (place_all l).
Proof. induction l as [|[c ix] l IH]; cbn [place_all]; [apply kl_ret|]. apply kl_bind; [apply kl_place|intros; apply IH]. Qed.
Lemma kl_capture_all l : kl (capture_all l).
Proof.
  induction l as [|c l IH]; cbn [capture_all]; [apply kl_ret|]. apply kl_bind; [apply kl_capture|]. intros.
  apply kl_bind; [exact IH|intros; apply kl_ret].
Qed.

Record kls (E : evals) : Prop := mkkls {
  kl_expr : forall u e, kl (ev_expr E u e);
  kl_statement : forall u e, kl (ev_statement E u e);
  kl_call : forall obj f start p, kl (ev_call E obj f start p);
  kl_for : forall u ix g p b, kl (ev_for E u ix g p b) }.
Section Step.
Variable E : evals (W := W).
Variable n : nat.
Hypothesis HE : kls E.

Lemma kl_block u b : kl (eval_block E u b).
Proof.
  induction b as [|s b IH]; [apply kl_ret|]. destruct b as [|s' b]; [apply HE|].
  apply kl_bind; [apply HE|]. intros []; try apply kl_ret. exact IH.
Qed.
Ltac go := repeat (match goal with
  | |- kl (ret _) => apply kl_ret
  | |- kl (throw _) => apply kl_throw
  | |- kl (crash_with _) => apply kl_crash
  | |- kl (of_sum _) => apply kl_sum
  | |- kl (of_walk _) => apply kl_walk
  | |- kl (fetch _) => apply kl_fetch
  | |- kl (store _ _) => apply kl_store
  | |- kl (alloc _) => apply kl_alloc
  | |- kl (capture_all _) => apply kl_capture_all
  | |- kl (lift _) => apply kl_lift
  | |- kl (bind get (fun s => bind (put _) _)) => apply kl_get; intros ? ?
  | |- kl (bind get _) => apply kl_bind; [intros ? ?; assumption|]
  | |- kl (bind _ _) => apply kl_bind
  | |- kl (ev_expr _ _ _) => apply HE
  | |- kl (ev_statement _ _ _) => apply HE
  | |- kl (ev_call _ _ _ _ _) => apply HE
  | |- kl (ev_for _ _ _ _ _ _) => apply HE
  | |- kl (eval_block _ _ _) => apply kl_block
  | |- forall _, _ => intros ?
  | |- kl (match ?x with _ => _ end) => destruct x
  end; auto).
Lemma kl_list u es : kl (eval_list E u es).
Proof. induction es as [|e es IH]; [apply kl_ret|]. cbn [eval_list]. go. Qed.
Lemma kl_dict u es : forall d, kl (eval_dict E u es d).
Proof. induction es as [|[k e] es IH]; intros d; [apply kl_ret|]. cbn [eval_dict]. go. Qed.
Lemma kl_access o op f fp : kl (access n o op f fp).
Proof. unfold access. go. Qed.
Lemma kl_push u start es : kl (push_args E u start es).
Proof.
  induction es as [|e es IH]; [apply kl_ret|]. cbn [push_args]. apply kl_bind; [apply HE|]. intros [[f p] o].
  apply kl_get. intros s Hs. destruct f; [apply IH; exact Hs|exact Hs|exact Hs].
Qed.
Lemma kl_prepare u f args : kl (prepare_call E u f args).
Proof. unfold prepare_call. go. apply kl_push. Qed.
Lemma kl_binary u l op r p : kl (eval_binary E n u l op r p).
Proof. unfold eval_binary. go. Qed.
Lemma kl_eval_expr u e : kl (eval_expr X O E n u e).
Proof.
  destruct e; cbn [eval_expr]; go.
  - apply kl_list.
  - apply kl_dict.
  - apply kl_binary.
  - apply kl_access.
  - apply kl_prepare.
  - intros s Hs. refine (kl_bind _ _ (kl_lift _) (fun v => kl_ret (Reg v)) s Hs).
Qed.
Lemma kl_assign o op f fp v p : kl (assign_field n o op f fp v p).
Proof.
  unfold assign_field. apply kl_get. intros s Hs. destruct o; try exact Hs.
  - destruct f; try exact Hs. destruct (_ <=? _)%Z; [exact Hs|]. destruct (_ <? _)%Z; exact Hs.
  - unfold bind. destruct (dict_put (st_heap s) n l f v); cbn; auto.
Qed.
Lemma kl_eval_statement u st : kl (eval_statement E n u st).
Proof. destruct st; cbn [eval_statement]; go. apply kl_assign. Qed.
Lemma kl_eval_for u ix g p b : kl (eval_for E n u ix g p b).
Proof. unfold eval_for. go. Qed.
Lemma kl_finish {A} k (m : M A) : kl m -> kl (finish k m).
Proof. intros H s Hs. specialize (H s Hs). unfold finish. destruct (m s); exact H. Qed.
Lemma kl_tail_call u k f args p : kl (tail_call E u k f args p).
Proof.
  intros s Hs. pose proof (kl_prepare u f args s Hs) as P. unfold tail_call.
  destruct (prepare_call E u f args s) as [[fl|[[obj g] start]] t|q t|z t|c|]; try exact P.
  exact (kl_bind _ _ (kl_call _ HE obj g start (at_ u p)) (fun v => kl_ret (Reg v)) (shrink k t) P).
Qed.
Lemma kl_body u k b : kl (eval_body tail E u k b).
Proof.
  induction b as [|st b IH]; [apply kl_finish, kl_ret|]. destruct b as [|st' b].
  - pose proof (kl_finish k _ (kl_statement _ HE u st)) as D. cbn [eval_body]. destruct tail; [|exact D]. destruct st; try exact D.
    + destruct e; try exact D. apply kl_bind; [apply kl_tail_call|intros; apply kl_ret].
    + destruct e; try exact D. apply kl_tail_call.
  - intros s Hs. pose proof (kl_statement _ HE u st s Hs) as D.
    change (leaked_out (match ev_statement E u st s with Val (Reg _) s1 => eval_body tail E u k (st' :: b) s1
      | Val f s1 => Val f (shrink k s1) | Pan p s1 => Pan p (shrink k s1) | r => r end)).
    destruct (ev_statement E u st s) as [[v|v|] t|q t|z t|c|]; try exact D. apply IH, D.
Qed.
Lemma kl_call_hush obj un params fi body ctx fp start p : kl (call_hush X tail eager E obj un params fi body ctx fp start p).
Proof.
  unfold call_hush. apply kl_get. intros s Hs. unfold bind at 1, put.
  destruct (Nat.eqb _ _); [|exact Hs]. revert Hs. generalize (skipn start (st_args s)) as args. intros args Hs.
  match goal with |- leaked_out (?m ?t) => assert (K : kl m); [|apply (K t), Hs] end.
  apply kl_bind; [apply kl_extend|]. intros _. apply kl_bind; [apply kl_store_all|]. intros _. apply kl_bind; [apply kl_place_all|]. intros _.
  apply kl_bind; [destruct (fi_self fi); [apply kl_store|apply kl_ret]|]. intros _. apply kl_bind; [apply kl_body|].
  intros []; [apply kl_ret|apply kl_ret|apply kl_crash].
Qed.
Lemma kl_program u prog : kl (eval_program X eager E u prog).
Proof.
  unfold eval_program. apply kl_bind; [apply kl_extend|]. intros _. apply kl_bind; [apply kl_store|]. intros _ s Hs.
  pose proof (kl_block u (pr_statements prog) s Hs) as B. destruct (eval_block E u (pr_statements prog) s) as [[] t|q t|z t|c|]; try exact B; exact I.
Qed.
Lemma kl_leaking {A} (m : M A) : kl m -> kl (leaking m).
Proof. intros H s Hs. specialize (H s Hs). unfold leaking. destruct (m s); try exact H. reflexivity. Qed.
Lemma kl_load path p : kl (load X eager E path p).
Proof.
  unfold load. apply kl_get. intros s Hs. destruct (x_file X path (st_world s)) as [e|text]; [exact Hs|].
  destruct (analyze text) as [b les pes| |]; try exact I. destruct les; [|exact Hs]. destruct pes; [|exact Hs].
  destruct (sema b) as [prog|es|]; [|exact Hs|exact I]. unfold bind at 1, put. apply kl_leaking; [apply kl_program|exact Hs].
Qed.
Lemma kl_import t p : kl (import X eager E t p).
Proof.
  unfold import. apply kl_get. intros s Hs. destruct (x_resolve X t (sp_path p) (st_world s)) as [e|path]; [exact Hs|].
  destruct (module_get path (st_modules s)); [exact Hs|]. refine (kl_bind _ _ (kl_load path p) _ s Hs).
  intros v. apply kl_get. intros s' Hs'. exact Hs'.
Qed.
Lemma kl_native f args start p : kl (native_body X eager E n f args start p).
Proof.
  destruct f; try apply kl_lift; [|apply HE]. destruct f; try apply kl_lift; cbn [native_body].
  - destruct args as [|[] []]; try apply kl_throw. intros s Hs. unfold catch. pose proof (kl_call _ HE VNil f (start + 1) p s Hs) as C.
    destruct (ev_call E VNil f (start + 1) p s) as [| e s' | | |]; try exact C. destruct (panic_text X n (st_heap s') e); exact C || exact I.
  - destruct args as [|[] []]; try apply kl_throw. apply kl_import.
Qed.
Lemma kl_eval_call obj f start p : kl (call X tail eager E n obj f start p).
Proof.
  destruct f as [un params fi body ctx fp|g]; cbn [call]; [apply kl_call_hush|]. apply kl_get. intros s Hs. unfold truncated.
  pose proof (kl_native g (skipn start (st_args s)) start p s Hs) as N. destruct (native_body X eager E n g (skipn start (st_args s)) start p s); exact N.
Qed.
End Step.
Lemma kls_run n : kls (run X O tail eager n).
Proof.
  induction n as [|n IH]; cbn [run]; split; intros; try (intros s Hs; exact I).
  - apply kl_eval_expr, IH.
  - apply kl_eval_statement, IH.
  - apply kl_eval_call, IH.
  - apply kl_eval_for, IH.
Qed.
End Leak.

(** ** Building a command asks only for the slots of the function *)
Section Fetch.
Context {W : Type}.
Variable X : ext W.
Variable O : os W.
Variable k : nat.
Variables fetch fetch' : slot -> option value.
Hypothesis Hf : forall ix, ix < k -> fetch ix = fetch' ix.
Variable h : heap.
Variable w : W.
Variable path : bytes.
Lemma bmap_on {A B} (P : A -> Prop) (f g : A -> built B) l : Forall P l -> (forall x, P x -> f x = g x) -> bmap f l = bmap g l.
Proof. intros F H. induction F as [|x l Hx F IH]; cbn; [reflexivity|]. rewrite (H x Hx). apply bbind_ext; [reflexivity|]. intros y. rewrite IH. reflexivity. Qed.
Lemma bfetch_on i : i < k -> bfetch fetch i = bfetch fetch' i.
Proof. intros H. unfold bfetch. rewrite (Hf _ H). reflexivity. Qed.
Lemma part_on q a : valid_part k q -> build_part X fetch h w path q a = build_part X fetch' h w path q a.
Proof. destruct q as [[s|s p]| | |]; cbn; try reflexivity. intros V. rewrite (bfetch_on _ V). reflexivity. Qed.
Lemma parts_on l : forall a, Forall (valid_part k) l -> build_parts X fetch h w path l a = build_parts X fetch' h w path l a.
Proof. induction l as [|q l IH]; intros a V; cbn; [reflexivity|]. inversion V; subst. rewrite part_on by assumption. apply bbind_ext; [reflexivity|]. intros x. apply IH. assumption. Qed.
Lemma argument_on a : valid_argument k a -> build_argument X fetch h w path a = build_argument X fetch' h w path a.
Proof. intros V. unfold build_argument. rewrite parts_on by exact V. reflexivity. Qed.
Lemma single_on o a : valid_argument k a -> build_single_argument X fetch h w path o a = build_single_argument X fetch' h w path o a.
Proof. intros V. unfold build_single_argument. rewrite argument_on by exact V. reflexivity. Qed.
Lemma env_on kv : valid_unit k (fst kv) /\ valid_argument k (snd kv) -> build_env X fetch h w path kv = build_env X fetch' h w path kv.
Proof.
  intros [V1 V2]. unfold build_env. rewrite single_on by exact V2. apply bbind_ext; [|reflexivity]. destruct (fst kv) as [s|s p]; [reflexivity|].
  rewrite bfetch_on by exact V1. reflexivity.
Qed.
Lemma redirection_on r : valid_redirection k r -> build_redirection X fetch h w path r = build_redirection X fetch' h w path r.
Proof. destruct r as [src [fd|a|a]|l a]; cbn; intros V; rewrite ?single_on by exact V; reflexivity. Qed.
Lemma arguments_on l : Forall (valid_argument k) l -> build_arguments X fetch h w path l = build_arguments X fetch' h w path l.
Proof. intros V. unfold build_arguments. rewrite (bmap_on _ _ _ _ V argument_on). reflexivity. Qed.
Lemma basic_on c : valid_basic k c -> build_basic_command X fetch h w path c = build_basic_command X fetch' h w path c.
Proof.
  intros (V1 & V2 & V3 & V4). unfold build_basic_command.
  rewrite single_on, arguments_on, (bmap_on _ _ _ _ V2 env_on), (bmap_on _ _ _ _ V4 redirection_on) by assumption. reflexivity.
Qed.
Lemma command_on c : valid_command k c -> build_command X fetch h w path c = build_command X fetch' h w path c.
Proof.
  destruct c as [b l ab p|hd tl]; cbn; intros V; [rewrite arguments_on by exact V; reflexivity|]. destruct V as [V1 V2].
  rewrite basic_on, (bmap_on _ _ _ _ V2 basic_on) by exact V1. reflexivity.
Qed.
Lemma eval_block_on b p : valid_block k b -> eval_command_block X O fetch path b p h w = eval_command_block X O fetch' path b p h w.
Proof.
  intros [V1 V2]. unfold eval_command_block, build_command_block. rewrite command_on, (bmap_on _ _ _ _ V2 command_on) by exact V1. reflexivity.
Qed.
End Fetch.

(** ** The relation *)
Section Rel.
Context {W : Type}.
Variable X : ext W.
Variable O : os W.
Variable eager : bool.
Hypothesis HX : honest X.
Notation M := (@M W).

Definition core (s : state W) : Prop :=
  Forall sound (st_args s) /\ sound_heap (st_heap s) /\ Forall (fun m => sound (snd m)) (st_modules s).
(** The top [k] slots are [fr], below is [r]. *)
Definition pre (k : nat) (r fr : list vslot) (s : state W) : Prop :=
  st_stack s = fr ++ r /\ length fr = k /\ Forall sound_slot fr /\ core s.
(** The same outcome, unless something leaked; [r] and [r'] are untouched below [kv] slots after
    a value, below [kp] slots after a panic. *)
Definition rel_out {A} (kv kp : nat) (r r' : list vslot) (R : A -> Prop) (o1 o2 : outcome (state W) A) : Prop :=
  match o1 with
  | Val a t => st_leaked t = false -> R a /\ exists fr, pre kv r fr t /\ o2 = Val a (set_stack t (fr ++ r'))
  | Pan p t => st_leaked t = false -> exists fr, pre kp r fr t /\ o2 = Pan p (set_stack t (fr ++ r'))
  | Exit z t => st_leaked t = false -> exists st, o2 = Exit z (set_stack t st)
  | _ => True
  end.
(** Stacks that no overflow tells apart *)
Definition fits (r r' : list vslot) : Prop := x_stack_size X = None \/ length r = length r'.
Lemma fits_app fr r r' : fits r r' -> fits (fr ++ r) (fr ++ r').
Proof. intros [H|H]; [left; exact H|right]. rewrite !app_length, H. reflexivity. Qed.
Definition mix {A} (k kv kp : nat) (m1 m2 : M A) (R : A -> Prop) : Prop :=
  forall r r' fr s, fits r r' -> pre k r fr s -> rel_out kv kp r r' R (m1 s) (m2 (set_stack s (fr ++ r'))).
Notation rel k := (mix k k k).

Lemma rel_out_Val {A} kv kp r r' (R : A -> Prop) a t fr : pre kv r fr t -> R a -> rel_out kv kp r r' R (Val a t) (Val a (set_stack t (fr ++ r'))).
Proof. intros H Ha _. split; [exact Ha|]. exists fr. auto. Qed.
Lemma rel_out_Pan {A} kv kp r r' (R : A -> Prop) p t fr : pre kp r fr t -> rel_out kv kp r r' R (Pan p t) (Pan p (set_stack t (fr ++ r'))).
Proof. intros H _. exists fr. auto. Qed.
Lemma mix_ret {A} k kp (a : A) (R : A -> Prop) : R a -> mix k k kp (ret a) (ret a) R.
Proof. intros H r r' fr s F P. apply rel_out_Val; assumption. Qed.
Lemma mix_throw {A} k kv p (R : A -> Prop) : mix k kv k (throw p) (throw p) R.
Proof. intros r r' fr s F P. apply rel_out_Pan; assumption. Qed.
Lemma mix_sum {A} k (x : A + panic) (R : A -> Prop) : (forall a, x = inl a -> R a) -> rel k (of_sum x) (of_sum x) R.
Proof. intros H. destruct x as [a|p]; [apply mix_ret, H; reflexivity|apply mix_throw]. Qed.
Lemma mix_walk {A} k (x : walk A) (R : A -> Prop) : (forall a, x = Known a -> R a) -> rel k (of_walk x) (of_walk x) R.
Proof. intros H. destruct x as [a| |]; [apply mix_ret, H; reflexivity|intros r r' fr s F P; exact I..]. Qed.
Lemma mix_bind {A B} k k1 kv kp (m1 m2 : M A) (f1 f2 : A -> M B) (R : A -> Prop) (R' : B -> Prop) :
  mix k k1 kp m1 m2 R -> (forall a, R a -> mix k1 kv kp (f1 a) (f2 a) R') -> (forall a, kl (f1 a)) -> mix k kv kp (bind m1 f1) (bind m2 f2) R'.
Proof.
  intros H K L r r' fr s F P. specialize (H r r' fr s F P). unfold bind. destruct (m1 s) as [a t|p t|z t|c|]; cbn in H |- *; auto.
  - destruct (st_leaked t) eqn:Lt.
    + pose proof (L a t Lt) as Fl. destruct (f1 a t); cbn in *; auto; congruence.
    + destruct (H eq_refl) as (Ha & fr' & P' & ->). apply K; assumption.
  - intros Lt. destruct (H Lt) as (fr' & P' & ->). exists fr'. auto.
  - intros Lt. destruct (H Lt) as (st & ->). exists st. auto.
Qed.
Lemma mix_get {A} k kv kp (f1 f2 : state W -> M A) R :
  (forall r r' fr s, fits r r' -> pre k r fr s -> rel_out kv kp r r' R (f1 s s) (f2 (set_stack s (fr ++ r')) (set_stack s (fr ++ r')))) ->
  mix k kv kp (bind get f1) (bind get f2) R.
Proof. intros H r r' fr s F P. exact (H r r' fr s F P). Qed.
Lemma rel_out_le {A} kv kp r r' (R : A -> Prop) o1 o2 o3 : rel_out kv kp r r' R o1 o2 -> ole o2 o3 -> rel_out kv kp r r' R o1 o3.
Proof.
  intros H [-> | ->]; [|exact H]. destruct o1; cbn in *; auto; intros L; specialize (H L).
  - destruct H as (_ & fr & _ & ?). discriminate.
  - destruct H as (fr & _ & ?). discriminate.
  - destruct H as (st & ?). discriminate.
Qed.
Lemma mix_le {A} k kv kp (m1 m2 m3 : M A) R : mix k kv kp m1 m2 R -> mle m2 m3 -> mix k kv kp m1 m3 R.
Proof. intros H L r r' fr s F P. eapply rel_out_le; [exact (H r r' fr s F P)|apply L]. Qed.
(** What does not look below its own slots may have more of them. *)
Lemma mix_frame {A} k (m1 m2 : M A) R : rel 0 m1 m2 R -> rel k m1 m2 R.
Proof.
  intros H r r' fr s F (P1 & P2 & P3 & P4). assert (P : pre 0 (fr ++ r) [] s) by (split; [exact P1|repeat split; try constructor; apply P4]).
  specialize (H (fr ++ r) (fr ++ r') [] s (fits_app fr r r' F) P). cbn [app] in H. destruct (m1 s) as [a t|p t|z t|c|]; cbn in *; auto.
  - intros L. destruct (H L) as (Ha & fr' & (Q1 & Q2 & Q3 & Q4) & E). destruct fr'; [|discriminate]. split; [exact Ha|]. exists fr. split; [|exact E].
    split; [exact Q1|]. auto.
  - intros L. destruct (H L) as (fr' & (Q1 & Q2 & Q3 & Q4) & E). destruct fr'; [|discriminate]. exists fr. split; [|exact E].
    split; [exact Q1|]. auto.
Qed.

(** ** Memory *)
Lemma pre_slot k r r' fr s ix : pre k r fr s -> ix < k -> exists x, nth_error (st_stack s) ix = Some x /\ nth_error (fr ++ r') ix = Some x /\ nth_error fr ix = Some x /\ sound_slot x.
Proof.
  intros (P1 & P2 & P3 & P4) L. rewrite P1. rewrite !nth_error_app1 by lia. destruct (nth_error fr ix) as [x|] eqn:E.
  - exists x. repeat split; auto. rewrite Forall_forall in P3. eapply P3, nth_error_In, E.
  - apply nth_error_None in E. lia.
Qed.
Lemma core_heap s h : core s -> sound_heap h -> core (set_heap s h).
Proof. intros (A & B & C) H. repeat split; try assumption; apply H. Qed.
Lemma core_world s h (w : W) : core s -> sound_heap h -> core (set_world (set_heap s h) w).
Proof. intros (A & B & C) H. repeat split; try assumption; apply H. Qed.
Lemma core_args s l : core s -> Forall sound l -> core (set_args s l).
Proof. intros (A & B & C) H. repeat split; try assumption; apply B. Qed.
Lemma mix_fetch k ix : ix < k -> rel k (fetch ix) (fetch ix) sound.
Proof.
  intros L r r' fr s F P. unfold fetch. destruct (pre_slot k r r' fr s ix P L) as (x & E1 & E2 & E3 & Sx). rewrite E1. cbn [set_stack st_stack st_heap].
  rewrite E2. apply rel_out_Val; [exact P|]. destruct x as [id v|c]; cbn; [apply Sx|]. apply sound_cell, P.
Qed.
Lemma mix_store k kp ix v : ix < k -> sound v -> mix k k kp (store ix v) (store ix v) (fun _ => True).
Proof.
  intros L Hv r r' fr s F P. unfold store. destruct (pre_slot k r r' fr s ix P L) as (x & E1 & E2 & E3 & Sx). rewrite E1. cbn [set_stack st_stack st_heap].
  rewrite E2. destruct P as (P1 & P2 & P3 & P4). destruct x as [id u|c].
  - intros Lk. split; [exact I|]. exists (list_set fr ix (Regular id v)). split.
    + split; [cbn; rewrite P1; apply list_set_app; lia|]. split; [rewrite length_list_set; exact P2|]. split; [|exact P4].
      apply Forall_list_set; [exact P3|]. split; [exact I|exact Hv].
    + unfold set_stack. cbn. rewrite list_set_app by lia. reflexivity.
  - intros Lk. split; [exact I|]. exists fr. split; [|reflexivity]. split; [exact P1|]. split; [exact P2|]. split; [exact P3|].
    apply core_heap; [exact P4|]. apply sound_cell_set; [apply P4|exact Hv].
Qed.
Lemma mix_capture k ix : ix < k -> rel k (capture ix) (capture ix) (fun _ => True).
Proof.
  intros L r r' fr s F P. unfold capture. destruct (pre_slot k r r' fr s ix P L) as (x & E1 & E2 & E3 & Sx). rewrite E1. cbn [set_stack st_stack st_heap].
  rewrite E2. destruct x as [id u|c]; [|apply rel_out_Val; [exact P|exact I]]. destruct P as (P1 & P2 & P3 & P4).
  intros Lk. split; [exact I|]. exists (list_set fr ix (Closed id)). split.
  - split; [cbn; rewrite P1; apply list_set_app; lia|]. split; [rewrite length_list_set; exact P2|]. split.
    + apply Forall_list_set; [exact P3|exact I].
    + destruct P4 as (C1 & C2 & C3). split; [exact C1|]. split; [|exact C3]. apply sound_cell_set; [exact C2|apply Sx].
  - unfold set_stack, set_heap. cbn. rewrite list_set_app by lia. reflexivity.
Qed.
Lemma mix_place k kp ix c : ix < k -> mix k k kp (place ix c) (place ix c) (fun _ => True).
Proof.
  intros L r r' fr s F P. unfold place. destruct (pre_slot k r r' fr s ix P L) as (x & E1 & E2 & E3 & Sx). rewrite E1. cbn [set_stack st_stack st_heap].
  rewrite E2. destruct P as (P1 & P2 & P3 & P4).
  intros Lk. split; [exact I|]. exists (list_set fr ix (Closed c)). split.
  - split; [cbn; rewrite P1; apply list_set_app; lia|]. split; [rewrite length_list_set; exact P2|]. split; [|exact P4].
    apply Forall_list_set; [exact P3|exact I].
  - unfold set_stack. cbn. rewrite list_set_app by lia. reflexivity.
Qed.
Lemma extend_fits k p r r' fr s : fits r r' -> pre 0 r fr s ->
  (Runtime.extend X eager k p s = Pan (PStackOverflow p) s /\
   Runtime.extend X eager k p (set_stack s (fr ++ r')) = Pan (PStackOverflow p) (set_stack s (fr ++ r')) /\ x_stack_size X <> None) \/
  (exists t fr', Runtime.extend X eager k p s = Val tt t /\ pre k r fr' t /\
   Runtime.extend X eager k p (set_stack s (fr ++ r')) = Val tt (set_stack t (fr' ++ r'))).
Proof.
  intros F (P1 & P2 & P3 & P4). unfold Runtime.extend. destruct fr; [|discriminate]. cbn [app] in *.
  cbn [set_stack st_stack st_heap st_args st_modules st_units st_leaked st_world].
  assert (Eo : overflows X (length r' + k) = overflows X (length (st_stack s) + k)).
  { unfold overflows. destruct F as [-> | F]; [reflexivity|]. rewrite P1, F. reflexivity. }
  rewrite Eo. destruct (overflows X (length (st_stack s) + k)) eqn:Ov; [left; split; [reflexivity|split; [reflexivity|]]|right].
  { intros N. unfold overflows in Ov. rewrite N in Ov. discriminate. }
  eexists _, (map (new_slot eager) (seq (length (h_cells (st_heap s))) k)). split; [reflexivity|]. split; [|reflexivity].
  split; [cbn; rewrite P1; reflexivity|]. split; [rewrite map_length; apply seq_length|]. split.
  - apply Forall_forall. intros x Hx. apply in_map_iff in Hx. destruct Hx as (c & <- & _). unfold new_slot. destruct eager; cbn; auto.
  - destruct P4 as (C1 & (C2 & C3 & C4 & C5) & C6). repeat split; try assumption. cbn. apply Forall_app. split; [exact C2|].
    apply Forall_forall. intros x Hx. apply repeat_spec in Hx. subst. exact I.
Qed.
Lemma mix_extend k p : mix 0 k 0 (Runtime.extend X eager k p) (Runtime.extend X eager k p) (fun _ => True).
Proof.
  intros r r' fr s F P. destruct (extend_fits k p r r' fr s F P) as [(-> & -> & _)|(t & fr' & -> & P' & ->)].
  - apply rel_out_Pan, P.
  - apply rel_out_Val; [exact P'|exact I].
Qed.
Lemma mix_extend_unlimited k kp p : x_stack_size X = None -> mix 0 k kp (Runtime.extend X eager k p) (Runtime.extend X eager k p) (fun _ => True).
Proof.
  intros N r r' fr s F P. destruct (extend_fits k p r r' fr s F P) as [(_ & _ & C)|(t & fr' & -> & P' & ->)].
  - contradiction.
  - apply rel_out_Val; [exact P'|exact I].
Qed.
Lemma pre_shrink k r fr s : pre k r fr s -> pre 0 r [] (shrink k s) /\ forall r', shrink k (set_stack s (fr ++ r')) = set_stack (shrink k s) r'.
Proof.
  intros (P1 & P2 & P3 & P4). split.
  - split; [cbn; rewrite P1; apply skipn_app_length, P2|]. split; [reflexivity|]. split; [constructor|exact P4].
  - intros r'. unfold shrink, set_stack. cbn. rewrite skipn_app_length by exact P2. reflexivity.
Qed.
Lemma mix_lift k (f1 f2 : heap -> W -> outcome (heap * W) value) r r' fr s : pre k r fr s ->
  f2 (st_heap s) (st_world s) = f1 (st_heap s) (st_world s) ->
  match f1 (st_heap s) (st_world s) with
  | Val v x => sound v /\ sound_heap (fst x) | Pan _ x => sound_heap (fst x) | _ => True end ->
  rel_out k k r r' sound (lift f1 s) (lift f2 (set_stack s (fr ++ r'))).
Proof.
  intros (P1 & P2 & P3 & P4) E H. unfold lift. cbn [set_stack st_heap st_world]. rewrite E.
  destruct (f1 (st_heap s) (st_world s)) as [v x|p x|z x|c|]; cbn in *; auto.
  - intros _. split; [apply H|]. exists fr. split; [|reflexivity]. split; [exact P1|]. split; [exact P2|]. split; [exact P3|]. apply core_world; [exact P4|apply H].
  - intros _. exists fr. split; [|reflexivity]. split; [exact P1|]. split; [exact P2|]. split; [exact P3|]. apply core_world; [exact P4|exact H].
  - intros _. exists (fr ++ r'). reflexivity.
Qed.

(** ** The evaluator *)
Definition flow_r (f : flow) : Prop := match f with Reg v | Ret v => sound v | Brk => True end.
Definition result_r (r : flow * spos * value) : Prop := flow_r (fst (fst r)) /\ sound (snd r).
Record rels (E1 E2 : evals) : Prop := mkrels {
  r_expr : forall u e fn lp k, valid_expr fn lp k e -> rel k (ev_expr E1 u e) (ev_expr E2 u e) result_r;
  r_statement : forall u st fn lp k, valid_statement fn lp k st -> rel k (ev_statement E1 u st) (ev_statement E2 u st) flow_r;
  r_call : forall obj f start p, sound obj -> sound_func f -> rel 0 (ev_call E1 obj f start p) (ev_call E2 obj f start p) sound;
  r_for : forall u ix g p b fn lp k, ix < k -> sound_func g -> each (valid_statement fn lp k) b ->
    rel k (ev_for E1 u ix g p b) (ev_for E2 u ix g p b) flow_r }.
Lemma rels_le E1 E2 E3 : rels E1 E2 -> ele E2 E3 -> rels E1 E3.
Proof.
  intros [A B C D] [A' B' C' D']. split; intros.
  - eapply mix_le; [eapply A; eassumption|apply A'].
  - eapply mix_le; [eapply B; eassumption|apply B'].
  - eapply mix_le; [eapply C; eassumption|apply C'].
  - eapply mix_le; [eapply D; eassumption|apply D'].
Qed.

Ltac kgo HK := repeat (match goal with
  | |- kl (ret _) => apply kl_ret
  | |- kl (throw _) => apply kl_throw
  | |- kl (crash_with _) => apply kl_crash
  | |- kl (of_sum _) => apply kl_sum
  | |- kl (of_walk _) => apply kl_walk
  | |- kl (fetch _) => apply kl_fetch
  | |- kl (store _ _) => apply kl_store
  | |- kl (alloc _) => apply kl_alloc
  | |- kl (capture_all _) => apply kl_capture_all
  | |- kl (store_all _ _) => apply kl_store_all
  | |- kl (place_all _) => apply kl_place_all
  | |- kl (lift _) => apply kl_lift
  | |- kl (eval_block _ _ _) => apply (kl_block _ HK)
  | |- kl (eval_list _ _ _) => apply (kl_list _ HK)
  | |- kl (eval_dict _ _ _ _) => apply (kl_dict _ HK)
  | |- kl (access _ _ _ _ _) => apply kl_access
  | |- kl (assign_field _ _ _ _ _ _ _) => apply kl_assign
  | |- kl (prepare_call _ _ _ _) => apply (kl_prepare _ HK)
  | |- kl (push_args _ _ _ _) => apply (kl_push _ HK)
  | |- kl (eval_body _ _ _ _ _) => apply (kl_body _ _ HK)
  | |- kl (bind get (fun s => bind (put _) _)) => apply kl_get; intros ? ?
  | |- kl (bind get _) => apply kl_bind; [intros ? ?; assumption|]
  | |- kl (bind _ _) => apply kl_bind
  | |- kl (ev_expr _ _ _) => apply HK
  | |- kl (ev_statement _ _ _) => apply HK
  | |- kl (ev_call _ _ _ _ _) => apply HK
  | |- kl (ev_for _ _ _ _ _ _) => apply HK
  | |- forall _, _ => intros ?
  | |- kl (match ?x with _ => _ end) => destruct x
  end; auto).

Section Step.
Variables E1 E2 : @evals W.
Variable n : nat.
Hypothesis HE : rels E1 E2.
Hypothesis HK : kls E1.
Ltac kk := intros; cbv beta; kgo HK.

Lemma mix_block u b fn lp k : each (valid_statement fn lp k) b -> rel k (eval_block E1 u b) (eval_block E2 u b) flow_r.
Proof.
  induction b as [|st b IH]; intros V; [apply mix_ret; exact I|]. destruct V as [V1 V2]. destruct b as [|st' b].
  - cbn [eval_block]. exact (r_statement _ _ HE u st fn lp k V1).
  - cbn [eval_block]. eapply mix_bind; [exact (r_statement _ _ HE u st fn lp k V1)| |].
    + intros [v|v|] Hf; [apply IH, V2|apply mix_ret, Hf|apply mix_ret, Hf].
    + intros [v|v|]; [apply (kl_block _ HK u (st' :: b))|apply kl_ret|apply kl_ret].
Qed.
Lemma mix_list u es fn lp k : each (valid_expr fn lp k) es -> rel k (eval_list E1 u es) (eval_list E2 u es)
  (fun r => match r with inl f => flow_r f | inr l => Forall sound l end).
Proof.
  induction es as [|e es IH]; intros V; cbn [eval_list]; [apply mix_ret; constructor|]. destruct V as [V1 V2].
  eapply mix_bind; [exact (r_expr _ _ HE u e fn lp k V1)| |kk]. intros [[f p] o] [Hf _]. cbn [fst snd] in Hf.
  destruct f as [v|v|]; [|apply mix_ret, Hf|apply mix_ret, Hf].
  eapply mix_bind; [apply IH, V2| |kk]. intros [f|l] Hl; apply mix_ret; [exact Hl|]. constructor; [exact Hf|exact Hl].
Qed.
Lemma mix_dict u kvs fn lp k : each (fun kv => valid_expr fn lp k (snd kv)) kvs -> forall d, Forall sound_entry d ->
  rel k (eval_dict E1 u kvs d) (eval_dict E2 u kvs d) (fun r => match r with inl f => flow_r f | inr l => Forall sound_entry l end).
Proof.
  induction kvs as [|[x e] kvs IH]; intros V d Hd; cbn [eval_dict]; [apply mix_ret, Hd|]. destruct V as [V1 V2].
  eapply mix_bind; [exact (r_expr _ _ HE u e fn lp k V1)| |kk]. intros [[f p] o] [Hf _]. cbn [fst snd] in Hf.
  destruct f as [v|v|]; [|apply mix_ret, Hf|apply mix_ret, Hf].
  apply IH; [exact V2|]. apply ShareRunProofs.symbol_put_sound; [exact Hd|exact Hf].
Qed.
Lemma at_state {A} k (m : M A) R r r' fr s : rel k m m R -> fits r r' -> pre k r fr s -> rel_out k k r r' R (m s) (m (set_stack s (fr ++ r'))).
Proof. intros H F P. exact (H r r' fr s F P). Qed.
Lemma mix_access k obj op f fp : sound obj -> rel k (access n obj op f fp) (access n obj op f fp) sound.
Proof.
  intros Ho. unfold access. apply mix_get. intros r r' fr s F P.
  assert (Hh : sound_heap (st_heap s)) by apply P. cbn [set_stack st_heap].
  assert (HB : forall x : option value, (forall v, x = Some v -> sound v) ->
    rel k (match x with Some v => ret v | None => throw (PIndexOutOfBounds f fp) end)
      (match x with Some v => ret v | None => throw (PIndexOutOfBounds f fp) end) sound).
  { intros [v|] H; [apply mix_ret, H; reflexivity|apply mix_throw]. }
  destruct obj as [| |b|z|x|t|l|l|g|d c]; try (apply (at_state k (throw _)); [apply mix_throw|exact F|exact P]).
  - destruct f; try (apply (at_state k (throw _)); [apply mix_throw|exact F|exact P]).
    apply (at_state k (match option_map VByte (nth_z t z) with Some v => ret v | None => throw _ end)); [|exact F|exact P].
    apply HB. intros v. destruct (nth_z t z); cbn; [|discriminate]. intros [= <-]. exact I.
  - destruct f; try (apply (at_state k (throw _)); [apply mix_throw|exact F|exact P]).
    apply (at_state k (match nth_z (arr_get (st_heap s) l) z with Some v => ret v | None => throw _ end)); [|exact F|exact P].
    apply HB. intros v Hv. exact (nth_z_sound _ _ _ _ _ Hh Hv).
  - apply at_state; [|exact F|exact P]. apply (mix_bind _ k _ _ _ _ _ _ (fun x => forall v, x = Some v -> sound v)); [| |kk].
    + apply mix_walk. intros a Ha v ->. exact (dict_get_sound n _ _ _ _ _ Hh Ha).
    + intros x Hx. apply HB, Hx.
  - apply (at_state k (match error_get d c f with Some v => ret v | None => throw (PIndexOutOfBounds f fp) end)); [|exact F|exact P].
    apply HB. intros v. unfold error_get. destruct f as [| | | | |sx| | | |]; try discriminate. destruct (bytes_eqb sx _); [intros [= <-]; exact I|].
    destruct (bytes_eqb sx _); [intros [= <-]; exact Ho|discriminate].
Qed.
Lemma pre_args k r fr s l : pre k r fr s -> Forall sound l -> pre k r fr (set_args s l).
Proof. intros (P1 & P2 & P3 & P4) H. split; [exact P1|]. split; [exact P2|]. split; [exact P3|]. apply core_args; assumption. Qed.
Lemma mix_push u args fn lp k start : each (valid_expr fn lp k) args ->
  rel k (push_args E1 u start args) (push_args E2 u start args) (fun r => match r with Some f => flow_r f | None => True end).
Proof.
  induction args as [|e args IH]; intros V; cbn [push_args]; [apply mix_ret; exact I|]. destruct V as [V1 V2].
  eapply mix_bind; [exact (r_expr _ _ HE u e fn lp k V1)| |].
  - intros [[f p] o] [Hf _]. cbn [fst snd] in Hf. apply mix_get. intros r r' fr s F P. pose proof P as (_ & _ & _ & (Pa & _)).
    destruct f as [v|v|]; unfold bind at 1 2, put.
    + apply (IH V2 r r' fr (set_args s (st_args s ++ [v])) F). apply pre_args; [exact P|]. apply Forall_app. split; [exact Pa|repeat constructor; exact Hf].
    + apply (mix_ret k k (Some (Ret v)) _ Hf r r' fr (set_args s (firstn start (st_args s))) F). apply pre_args; [exact P|]. apply Forall_firstn, Pa.
    + apply (mix_ret k k (Some Brk) _ Hf r r' fr (set_args s (firstn start (st_args s))) F). apply pre_args; [exact P|]. apply Forall_firstn, Pa.
  - intros [[f p] o]. apply kl_get. intros s Hs. destruct f; [apply (kl_push _ HK); exact Hs|exact Hs|exact Hs].
Qed.
Definition prepared_r (r : flow + value * func * nat) : Prop :=
  match r with inl f => flow_r f | inr (obj, g, _) => sound obj /\ sound_func g end.
Lemma mix_prepare u f args fn lp k : valid_expr fn lp k f -> each (valid_expr fn lp k) args ->
  rel k (prepare_call E1 u f args) (prepare_call E2 u f args) prepared_r.
Proof.
  intros Vf Va. unfold prepare_call. eapply mix_bind; [exact (r_expr _ _ HE u f fn lp k Vf)| |kk].
  intros [[fl p] o] [Hf Ho]. cbn [fst snd] in Hf, Ho. destruct fl as [v|v|]; [|apply mix_ret, Hf|apply mix_ret, Hf].
  destruct v as [| | | | | | | |g|]; try apply mix_throw. apply mix_get. intros r r' fr s F P. cbn [set_stack st_args].
  refine (mix_bind k k k k _ _ _ _ _ _ (mix_push u args fn lp k (length (st_args s)) Va) _ _ r r' fr s F P); [|kk].
  intros [fl|] H; apply mix_ret; [exact H|]. split; [exact Ho|exact Hf].
Qed.
Lemma mix_equal k a b (f : bool -> bool) :
  rel k (bind get (fun s => bind (of_walk (eqv (st_heap s) n false a b)) (fun e => ret (VBool (f e)))))
    (bind get (fun s => bind (of_walk (eqv (st_heap s) n false a b)) (fun e => ret (VBool (f e))))) sound.
Proof.
  apply mix_get. intros r r' fr s F P. cbn [set_stack st_heap]. apply at_state; [|exact F|exact P].
  apply (mix_bind _ k _ _ _ _ _ _ (fun _ => True)); [apply mix_walk; auto| |kk]. intros e _. apply mix_ret. exact I.
Qed.
Lemma mix_binary u l op x p fn lp k : valid_expr fn lp k l -> valid_expr fn lp k x ->
  rel k (eval_binary E1 n u l op x p) (eval_binary E2 n u l op x p) flow_r.
Proof.
  intros Vl Vr. unfold eval_binary. eapply mix_bind; [exact (r_expr _ _ HE u l fn lp k Vl)| |kk]. intros [[fl pl] o] [Hf _]. cbn [fst snd] in Hf.
  destruct fl as [a|v|]; [|apply mix_ret, Hf|apply mix_ret, Hf].
  assert (R : forall kk : value -> spos -> M value, (forall b q, sound b -> rel k (kk b q) (kk b q) sound) -> (forall b q, kl (kk b q)) ->
    rel k (bind (ev_expr E1 u x) (fun '(fr, rp, _) => match fr with
       | Reg b => bind (kk b rp) (fun v => ret (Reg v)) | f => ret f end))
      (bind (ev_expr E2 u x) (fun '(fr, rp, _) => match fr with
       | Reg b => bind (kk b rp) (fun v => ret (Reg v)) | f => ret f end)) flow_r).
  { intros kk Hkk Kkk. eapply mix_bind; [exact (r_expr _ _ HE u x fn lp k Vr)| |].
    - intros [[fr pr] o'] [Hr _]. cbn [fst snd] in Hr.
      destruct fr as [b|v|]; [|apply mix_ret, Hr|apply mix_ret, Hr]. eapply mix_bind; [exact (Hkk b pr Hr)| |intros; apply kl_ret]. intros v Hv. apply mix_ret, Hv.
    - intros [[fr pr] o']. destruct fr; [|apply kl_ret|apply kl_ret]. apply kl_bind; [apply Kkk|intros; apply kl_ret]. }
  pose proof (R (fun b rp => match b with VBool _ => ret b | _ => throw (PTypeError b (bs "bool") rp) end)) as R2.
  specialize (R2 ltac:(intros b q Hb; destruct b; try apply mix_throw; apply mix_ret, Hb) ltac:(kk)).
  pose proof (R (fun b rp => of_sum (arithmetic_op op p a pl b rp))
    ltac:(intros b q Hb; apply mix_sum; intros v; apply arithmetic_sound) ltac:(kk)) as RA.
  pose proof (R (fun b rp => of_sum (ord_op op a pl b rp))
    ltac:(intros b q Hb; apply mix_sum; intros v; apply ord_sound) ltac:(kk)) as RO.
  destruct op; try exact RA; try exact RO.
  - apply (R (fun b _ => bind get (fun s => bind (of_walk (eqv (st_heap s) n false a b)) (fun e => ret (VBool e))))); [|kk].
    intros b q Hb. apply (mix_equal k a b (fun e => e)).
  - apply (R (fun b _ => bind get (fun s => bind (of_walk (eqv (st_heap s) n false a b)) (fun e => ret (VBool (negb e)))))); [|kk].
    intros b q Hb. apply (mix_equal k a b negb).
  - destruct a as [|[|]| | | | | | | |]; try apply mix_throw; [exact R2|apply mix_ret; exact I].
  - destruct a as [|[|]| | | | | | | |]; try apply mix_throw; [apply mix_ret; exact I|exact R2].
  - apply (R (fun b rp => of_sum (concat_op a pl b rp))); [|kk]. intros b q Hb. apply mix_sum. intros v. apply concat_sound.
Qed.
Lemma mix_capture_all k l m : Forall (fun c => cap_from c < k /\ cap_to c < m) l -> rel k (capture_all l) (capture_all l)
  (fun ctx => Forall (fun x => snd x < m) ctx).
Proof.
  induction l as [|c l IH]; intros H; cbn [capture_all]; [apply mix_ret; constructor|]. inversion H as [|? ? [A B] H']; subst.
  eapply mix_bind; [apply mix_capture, A| |intros; apply kl_bind; [apply kl_capture_all|intros; apply kl_ret]]. intros x _.
  eapply mix_bind; [apply IH, H'| |intros; apply kl_ret]. intros y Hy. apply mix_ret. constructor; assumption.
Qed.
Lemma mix_alloc k (f : heap -> value * heap) : (forall h, sound_heap h -> sound (fst (f h)) /\ sound_heap (snd (f h))) -> rel k (alloc f) (alloc f) sound.
Proof.
  intros H r r' fr s F (P1 & P2 & P3 & P4). unfold alloc. cbn [set_stack st_heap]. destruct (H (st_heap s) ltac:(apply P4)) as (A & B).
  destruct (f (st_heap s)) as [v h]. intros _. split; [exact A|]. exists fr. split; [|reflexivity].
  split; [exact P1|]. split; [exact P2|]. split; [exact P3|]. apply core_heap; assumption.
Qed.
Lemma mix_plain k u p (m1 m2 : M flow) : rel k m1 m2 flow_r ->
  rel k (bind m1 (fun f => ret (f, at_ u p, VNil))) (bind m2 (fun f => ret (f, at_ u p, VNil))) result_r.
Proof. intros H. eapply mix_bind; [exact H| |intros; apply kl_ret]. intros f Hf. apply mix_ret. split; [exact Hf|exact I]. Qed.
Lemma mix_eval_expr u e fn lp k : valid_expr fn lp k e -> rel k (eval_expr X O E1 n u e) (eval_expr X O E2 n u e) result_r.
Proof.
  destruct e as [ix p|l p|s p|es p|kvs p|params fi b p|op e p|l op r p|c t e p|o f p|f args p|b p];
  cbn [eval_expr valid_expr]; intros V; try apply mix_plain.
  - eapply mix_bind; [apply mix_fetch, V| |kk]. intros v Hv. apply mix_ret, Hv.
  - apply mix_ret. destruct l; exact I.
  - apply mix_ret. exact I.
  - eapply mix_bind; [exact (mix_list u es fn lp k V)| |kk]. intros [f|l] Hr; [apply mix_ret, Hr|].
    eapply mix_bind; [apply mix_alloc|intros v Hv; apply mix_ret, Hv|kk].
    intros h Hh. split; [exact I|]. apply sound_new_arr; assumption.
  - eapply mix_bind; [apply (mix_dict u kvs fn lp k V []); constructor| |kk]. intros [f|l] Hr; [apply mix_ret, Hr|].
    eapply mix_bind; [apply mix_alloc|intros v Hv; apply mix_ret, Hv|kk].
    intros h Hh. split; [exact I|]. apply sound_new_dict; assumption.
  - destruct V as [(V1 & V2 & _ & V4) Vb]. eapply mix_bind.
    + apply (mix_capture_all k _ (fi_slots fi)). eapply Forall_impl; [|exact V2]. cbn. intros c [A B]. split; [exact A|lia].
    + intros ctx Hc. apply mix_ret. cbn. repeat split; try assumption.
      * eapply Forall_impl; [|exact V4]. cbn. intros; lia.
      * apply Forall_forall. intros; exact I.
    + kk.
  - destruct V as [Vt Ve]. eapply mix_bind; [exact (r_expr _ _ HE u e fn lp k Ve)| |kk]. intros [[f q] o] [Hf _]. cbn [fst snd] in Hf.
    destruct f as [v|v|]; [|apply mix_ret, Hf|apply mix_ret, Hf]. apply mix_sum. intros g.
    unfold unary_op_value. destruct op; destruct v; try discriminate; intros [= <-]; cbn; auto.
  - destruct V as [Vl Vr]. exact (mix_binary u l op r (at_ u p) fn lp k Vl Vr).
  - destruct V as (Vc & Vt & Ve). eapply mix_bind; [exact (r_expr _ _ HE u c fn lp k Vc)| |kk]. intros [[f q] o] [Hf _]. cbn [fst snd] in Hf.
    destruct f as [v|v|]; [|apply mix_ret, Hf|apply mix_ret, Hf]. destruct v as [|b| | | | | | | |]; try apply mix_throw.
    apply (mix_block u _ fn lp k). destruct b; assumption.
  - destruct V as [Vo Vf]. eapply mix_bind; [exact (r_expr _ _ HE u o fn lp k Vo)| |kk]. intros [[fo q] o'] [Hf _]. cbn [fst snd] in Hf.
    destruct fo as [v|v|]; [|apply mix_ret; split; [exact Hf|exact I]|apply mix_ret; split; [exact Hf|exact I]].
    eapply mix_bind; [exact (r_expr _ _ HE u f fn lp k Vf)| |kk]. intros [[ff q'] o''] [Hff _]. cbn [fst snd] in Hff.
    destruct ff as [w|w|]; [|apply mix_ret; split; [exact Hff|exact I]|apply mix_ret; split; [exact Hff|exact I]].
    eapply mix_bind; [apply mix_access; exact Hf| |kk]. intros x Hx. apply mix_ret. split; [exact Hx|exact Hf].
  - destruct V as [Vf Va]. eapply mix_bind; [exact (mix_prepare u f args fn lp k Vf Va)| |kk].
    intros [fl|[[obj g] start]] H; [apply mix_ret, H|]. destruct H as [H1 H2].
    eapply mix_bind; [exact (mix_frame k _ _ _ (r_call _ _ HE obj g start (at_ u p) H1 H2))| |kk]. intros v Hv. apply mix_ret, Hv.
  - intros r r' fr s F P.
    assert (FE : forall ix, ix < k -> option_map (slot_value (st_heap s)) (nth_error (fr ++ r') ix) =
      option_map (slot_value (st_heap s)) (nth_error (st_stack s) ix)).
    { intros ix L. destruct (pre_slot k r r' fr s ix P L) as (x & A1 & A2 & _). rewrite A1, A2. reflexivity. }
    cbn [set_stack st_heap st_stack].
    pose proof (mix_lift k
      (eval_command_block X O (fun ix => option_map (slot_value (st_heap s)) (nth_error (st_stack s) ix)) (u_path u) b (at_ u p))
      (eval_command_block X O (fun ix => option_map (slot_value (st_heap s)) (nth_error (fr ++ r') ix)) (u_path u) b (at_ u p))
      r r' fr s P (eval_block_on X O k _ _ FE (st_heap s) (st_world s) (u_path u) b (at_ u p) V)) as L.
    specialize (L (command_sound X O _ _ b _ (st_heap s) (st_world s) (fun _ => I) ltac:(apply P))).
    unfold bind. destruct (lift _ s) as [v t|q t|z t|c|]; cbn [rel_out] in L |- *; auto.
    + intros Lk. destruct (L Lk) as (Hv & fr' & P' & ->). split; [exact Hv|]. exists fr'. auto.
    + intros Lk. destruct (L Lk) as (fr' & P' & ->). exists fr'. auto.
    + intros Lk. destruct (L Lk) as (st & ->). exists st. auto.
Qed.
Lemma mix_assign k obj op f fp v p : sound f -> sound v ->
  rel k (assign_field n obj op f fp v p) (assign_field n obj op f fp v p) (fun _ => True).
Proof.
  intros Hf Hv. unfold assign_field. apply mix_get. intros r r' fr s F P. cbn [set_stack st_heap].
  assert (Hh : sound_heap (st_heap s)) by apply P.
  assert (HP : forall h, sound_heap h ->
    rel_out k k r r' (fun _ : unit => True) (put (set_heap s h) s) (put (set_heap (set_stack s (fr ++ r')) h) (set_stack s (fr ++ r')))).
  { intros h A. destruct P as (P1 & P2 & P3 & P4). intros _. split; [exact I|]. exists fr. split; [|reflexivity].
    split; [exact P1|]. split; [exact P2|]. split; [exact P3|]. apply core_heap; assumption. }
  assert (HT : forall e, rel_out k k r r' (fun _ : unit => True) (throw e s) (throw e (set_stack s (fr ++ r')))) by (intros e; exact (mix_throw k k e _ r r' fr s F P)).
  destruct obj as [| | | | | |l|l| |]; try apply HT.
  - destruct f; try apply HT.
    destruct (Z.of_nat (length (arr_get (st_heap s) l)) <=? z)%Z; [apply HT|].
    destruct (z <? 0)%Z; [apply HT|]. apply HP. apply sound_arr_set; [exact Hh|].
    apply Forall_list_set; [apply sound_arr, Hh|exact Hv].
  - destruct (dict_put (st_heap s) n l f v) as [d| |] eqn:Q; [|exact I|exact I].
    apply HP. unfold dict_put in Q. destruct (hash_walk (st_heap s) n (LockDict l) f) as [[]| |]; cbn in Q; try discriminate.
    apply sound_dict_set; [exact Hh|]. eapply put_entry_sound; [apply sound_dict, Hh|exact Hf|exact Hv|exact Q].
Qed.
Lemma mix_eval_statement u st fn lp k : valid_statement fn lp k st -> rel k (eval_statement E1 n u st) (eval_statement E2 n u st) flow_r.
Proof.
  destruct st as [l r|e| |c b|ix e b|e]; cbn [eval_statement valid_statement]; intros V.
  - destruct V as [Vl Vr]. eapply mix_bind; [exact (r_expr _ _ HE u r fn lp k Vr)| |kk]. intros [[f p] o] [Hf _]. cbn [fst snd] in Hf.
    destruct f as [v|v|]; [|apply mix_ret, Hf|apply mix_ret, Hf]. destruct l as [ix q|oe fe q]; cbn in Vl.
    + eapply mix_bind; [apply mix_store; [exact Vl|exact Hf]| |kk]. intros _ _. apply mix_ret. exact I.
    + destruct Vl as [Vo Vf]. eapply mix_bind; [exact (r_expr _ _ HE u oe fn lp k Vo)| |kk]. intros [[fo p'] o'] [Hfo _]. cbn [fst snd] in Hfo.
      destruct fo as [vo|vo|]; [|apply mix_ret, Hfo|apply mix_ret, Hfo].
      eapply mix_bind; [exact (r_expr _ _ HE u fe fn lp k Vf)| |kk]. intros [[ff p''] o''] [Hff _]. cbn [fst snd] in Hff.
      destruct ff as [vf|vf|]; [|apply mix_ret, Hff|apply mix_ret, Hff].
      eapply mix_bind; [apply mix_assign; [exact Hff|exact Hf]| |kk]. intros _ _. apply mix_ret. exact I.
  - destruct V as [Vfn Ve]. eapply mix_bind; [exact (r_expr _ _ HE u e fn lp k Ve)| |kk]. intros [[f p] o] [Hf _]. cbn [fst snd] in Hf.
    apply mix_ret. destruct f; exact Hf.
  - apply mix_ret. exact I.
  - destruct V as [Vc Vb]. eapply mix_bind; [exact (r_expr _ _ HE u c fn lp k Vc)| |kk]. intros [[f p] o] [Hf _]. cbn [fst snd] in Hf.
    destruct f as [v|v|]; [|apply mix_ret, Hf|apply mix_ret, Hf]. destruct v as [|[|]| | | | | | | |]; try apply mix_throw; [|apply mix_ret; exact I].
    eapply mix_bind; [exact (mix_block u b fn true k Vb)| |kk]. intros [w|w|] Hw.
    + apply (r_statement _ _ HE u (XWhile c b) fn lp k). split; assumption.
    + apply mix_ret, Hw.
    + apply mix_ret. exact I.
  - destruct V as (Vi & Ve & Vb). eapply mix_bind; [exact (r_expr _ _ HE u e fn lp k Ve)| |kk]. intros [[f p] o] [Hf _]. cbn [fst snd] in Hf.
    destruct f as [v|v|]; [|apply mix_ret, Hf|apply mix_ret, Hf]. destruct v as [| | | | | | | |g|]; try apply mix_throw.
    exact (r_for _ _ HE u ix g p b fn true k Vi Hf Vb).
  - eapply mix_bind; [exact (r_expr _ _ HE u e fn lp k V)| |kk]. intros [[f p] o] [Hf _]. apply mix_ret, Hf.
Qed.
Lemma mix_field k l p x :
  rel k (bind get (fun s => bind (of_walk (dict_get (st_heap s) n l (VStr x))) (fun r =>
        match r with Some v => ret v | None => throw (PIndexOutOfBounds (VStr x) p) end)))
     (bind get (fun s => bind (of_walk (dict_get (st_heap s) n l (VStr x))) (fun r =>
        match r with Some v => ret v | None => throw (PIndexOutOfBounds (VStr x) p) end))) sound.
Proof.
  apply mix_get. intros r r' fr s F P. cbn [set_stack st_heap]. apply at_state; [|exact F|exact P].
  apply (mix_bind _ k _ _ _ _ _ _ (fun r => forall v, r = Some v -> sound v)); [apply mix_walk| |kk].
  - intros a Ha v ->. exact (dict_get_sound n _ _ _ _ _ ltac:(apply P) Ha).
  - intros [v|] H; [apply mix_ret, H; reflexivity|apply mix_throw].
Qed.
Lemma mix_eval_for u ix g p b fn lp k : ix < k -> sound_func g -> each (valid_statement fn lp k) b ->
  rel k (eval_for E1 n u ix g p b) (eval_for E2 n u ix g p b) flow_r.
Proof.
  intros Vi Hg Vb. unfold eval_for. apply mix_get. intros r r' fr s F P. cbn [set_stack st_args].
  refine (mix_bind k k k k _ _ _ _ _ _ (mix_frame k _ _ _ (r_call _ _ HE VNil g (length (st_args s)) p I Hg)) _ _ r r' fr s F P); [|kk].
  intros x Hr. destruct x as [| | | | | | |l| |]; try apply mix_throw.
  cbv zeta. eapply mix_bind; [apply mix_field| |kk]. intros fin _.
  destruct fin as [|[|]| | | | | | | |]; try apply mix_throw; [apply mix_ret; exact I|].
  eapply mix_bind; [apply mix_field| |kk]. intros v Hv. eapply mix_bind; [apply mix_store; [exact Vi|exact Hv]| |kk]. intros _ _.
  eapply mix_bind; [exact (mix_block u b fn lp k Vb)| |kk]. intros [w|w|] Hw.
  - apply (r_for _ _ HE u ix g p b fn lp k); assumption.
  - apply mix_ret, Hw.
  - apply mix_ret. exact I.
Qed.

(** ** Calls, given that bodies are related *)
Lemma mix_finish {A} k (m1 m2 : M A) R : rel k m1 m2 R -> mix k 0 0 (finish k m1) (finish k m2) R.
Proof.
  intros H r r' fr s F P. specialize (H r r' fr s F P). unfold finish. destruct (m1 s) as [a t|p t|z t|c|]; cbn [rel_out] in H |- *; auto.
  - intros L. destruct (H L) as (Ha & fr' & P' & ->). destruct (pre_shrink _ _ _ _ P') as [Q1 Q2]. split; [exact Ha|]. exists []. rewrite Q2. auto.
  - intros L. destruct (H L) as (fr' & P' & ->). destruct (pre_shrink _ _ _ _ P') as [Q1 Q2]. exists []. rewrite Q2. auto.
  - intros L. destruct (H L) as (st & ->). exists st. reflexivity.
Qed.
Section Call.
Variables tail1 tail2 : bool.
Hypothesis HL : forall u k st, valid_statement true false k st ->
  mix k 0 0 (eval_body tail1 E1 u k [st]) (eval_body tail2 E2 u k [st]) flow_r.
Lemma mix_body u k b : each (valid_statement true false k) b ->
  mix k 0 0 (eval_body tail1 E1 u k b) (eval_body tail2 E2 u k b) flow_r.
Proof.
  induction b as [|st b IH]; intros V.
  - cbn [eval_body]. apply mix_finish, mix_ret. exact I.
  - destruct V as [V1 V2]. destruct b as [|st' b]; [apply HL, V1|].
    intros r r' fr s F P. pose proof (r_statement _ _ HE u st true false k V1 r r' fr s F P) as G.
    change (rel_out 0 0 r r' flow_r
      (match ev_statement E1 u st s with
       | Val (Reg _) s1 => eval_body tail1 E1 u k (st' :: b) s1
       | Val f s1 => Val f (shrink k s1) | Pan p s1 => Pan p (shrink k s1) | r => r end)
      (match ev_statement E2 u st (set_stack s (fr ++ r')) with
       | Val (Reg _) s1 => eval_body tail2 E2 u k (st' :: b) s1
       | Val f s1 => Val f (shrink k s1) | Pan p s1 => Pan p (shrink k s1) | r => r end)).
    destruct (ev_statement E1 u st s) as [f t|e t|z t|c|]; cbn [rel_out] in G.
    + destruct f as [v|v|].
      * destruct (st_leaked t) eqn:Lt.
        -- pose proof (kl_body tail1 _ HK u k (st' :: b) t Lt) as Fl. destruct (eval_body tail1 E1 u k (st' :: b) t); cbn in *; auto; congruence.
        -- destruct (G eq_refl) as (Hf & fr' & P' & ->). exact (IH V2 r r' fr' t F P').
      * intros L. destruct (G L) as (Hf & fr' & P' & ->). destruct (pre_shrink _ _ _ _ P') as [Q1 Q2]. split; [exact Hf|]. exists []. rewrite Q2. auto.
      * intros L. destruct (G L) as (Hf & fr' & P' & ->). destruct (pre_shrink _ _ _ _ P') as [Q1 Q2]. split; [exact Hf|]. exists []. rewrite Q2. auto.
    + intros L. destruct (G L) as (fr' & P' & ->). destruct (pre_shrink _ _ _ _ P') as [Q1 Q2]. exists []. rewrite Q2. auto.
    + intros L. destruct (G L) as (st0 & ->). exists st0. reflexivity.
    + exact I.
    + exact I.
Qed.
Lemma mix_store_all k kp l : forall ix, ix + length l <= k -> Forall sound l -> mix k k kp (store_all ix l) (store_all ix l) (fun _ => True).
Proof.
  induction l as [|v l IH]; intros ix L H; cbn [store_all]; [apply mix_ret; exact I|]. inversion H; subst. cbn in L.
  eapply mix_bind; [apply mix_store; [lia|assumption]| |intros; apply kl_store_all]. intros _ _. apply IH; [lia|assumption].
Qed.
Lemma mix_place_all k kp l : Forall (fun x => snd x < k) l -> mix k k kp (place_all l) (place_all l) (fun _ => True).
Proof.
  induction l as [|[c ix] l IH]; intros H; cbn [place_all]; [apply mix_ret; exact I|]. inversion H; subst.
  eapply mix_bind; [apply mix_place; assumption| |intros; apply kl_place_all]. intros _ _. apply IH. assumption.
Qed.
Lemma mix_call_hush obj un params fi body ctx fp start p : sound obj -> sound_func (FHush un params fi body ctx fp) ->
  rel 0 (call_hush X tail1 eager E1 obj un params fi body ctx fp start p)
    (call_hush X tail2 eager E2 obj un params fi body ctx fp start p) sound.
Proof.
  intros Ho (V1 & V2 & V3 & V4 & V5). unfold call_hush. apply mix_get. intros r r' fr s F P. cbn [set_stack st_args].
  change (set_args (set_stack s (fr ++ r')) (firstn start (st_args s))) with (set_stack (set_args s (firstn start (st_args s))) (fr ++ r')).
  pose proof P as (_ & _ & _ & (Pa & _)).
  assert (Ha : Forall sound (skipn start (st_args s))) by (apply Forall_skipn, Pa).
  unfold bind at 1 7, put. pose proof (pre_args _ _ _ _ (firstn start (st_args s)) P ltac:(apply Forall_firstn, Pa)) as P0.
  revert Ha. generalize (skipn start (st_args s)). intros args Ha.
  destruct (Nat.eqb (length args) params) eqn:Q; [|exact (mix_throw 0 0 _ sound r r' fr _ F P0)]. apply Nat.eqb_eq in Q.
  match goal with |- rel_out _ _ _ _ _ (?m1 _) (?m2 _) => assert (K : rel 0 m1 m2 sound); [|exact (K r r' fr _ F P0)] end.
  assert (KB : forall u k b, kl (bind (eval_body tail1 E1 u k b) (fun f => match f return M value with Reg v | Ret v => ret v | Brk => crash_with CFlow end))).
  { intros u k b. apply kl_bind; [apply (kl_body tail1 _ HK)|]. intros []; [apply kl_ret|apply kl_ret|apply kl_crash]. }
  assert (KS : kl (W := W) (A := unit) (match fi_self fi with Some ix => store ix obj | None => ret tt end)) by (destruct (fi_self fi); [apply kl_store|apply kl_ret]).
  eapply mix_bind; [apply (mix_extend (fi_slots fi))| |].
  2:{ intros _. apply kl_bind; [apply kl_store_all|]. intros _. apply kl_bind; [apply kl_place_all|]. intros _. apply kl_bind; [exact KS|]. intros _. apply KB. }
  intros _ _. eapply mix_bind; [apply mix_store_all; [lia|exact Ha]| |].
  2:{ intros _. apply kl_bind; [apply kl_place_all|]. intros _. apply kl_bind; [exact KS|]. intros _. apply KB. }
  intros _ _. eapply mix_bind; [apply mix_place_all; exact V2| |].
  2:{ intros _. apply kl_bind; [exact KS|]. intros _. apply KB. }
  intros _ _. apply (mix_bind _ (fi_slots fi) _ _ _ _ _ _ (fun _ => True)).
  - destruct (fi_self fi) as [ix|]; [apply mix_store; [inversion V3; assumption|exact Ho]|apply mix_ret; exact I].
  - intros _ _. eapply mix_bind; [apply mix_body, V4| |].
    + intros [v|v|] Hv; [apply mix_ret, Hv|apply mix_ret, Hv|]. intros ? ? ? ? ? ?. exact I.
    + intros []; [apply kl_ret|apply kl_ret|apply kl_crash].
  - intros _. apply KB.
Qed.
Definition program_rest (E : evals) (u : uinfo) (prog : program) : M value :=
  bind (store 0 std_value) (fun _ s =>
    match eval_block E u (pr_statements prog) s with
    | Val (Reg v) s => Val v (shrink (pr_root_slots prog) s)
    | Val _ _ => Crash CFlow
    | Pan p s => Pan p s
    | Exit c s => Exit c s
    | Crash c => Crash c
    | Fuel => Fuel
    end).
Lemma kl_rest u prog : kl (program_rest E1 u prog).
Proof.
  apply kl_bind; [apply kl_store|]. intros _ s Hs. pose proof (kl_block _ HK u (pr_statements prog) s Hs) as B.
  destruct (eval_block E1 u (pr_statements prog) s) as [[] t|q t|z t|c|]; try exact B; exact I.
Qed.
Lemma mix_rest u prog : valid_program prog ->
  mix (pr_root_slots prog) 0 (pr_root_slots prog) (program_rest E1 u prog) (program_rest E2 u prog) sound.
Proof.
  intros [V1 V2]. unfold program_rest. set (k := pr_root_slots prog) in *.
  eapply mix_bind; [apply mix_store; [exact V1|exact I]| |].
  - intros _ _ r r' fr s F P.
    pose proof (mix_block u (pr_statements prog) false false k V2 r r' fr s F P) as B.
    destruct (eval_block E1 u (pr_statements prog) s) as [f t|e t|z t|c|]; cbn [rel_out] in B.
    + destruct f as [v|v|]; try exact I. intros L. destruct (B L) as (Hf & fr' & P' & ->). destruct (pre_shrink _ _ _ _ P') as [Q1 Q2]. split; [exact Hf|]. exists []. rewrite Q2. auto.
    + intros L. destruct (B L) as (fr' & P' & ->). exists fr'. auto.
    + intros L. destruct (B L) as (st0 & ->). exists st0. reflexivity.
    + exact I.
    + exact I.
  - intros _ s Hs. pose proof (kl_block _ HK u (pr_statements prog) s Hs) as B.
    destruct (eval_block E1 u (pr_statements prog) s) as [[] t|q t|z t|c|]; try exact B; exact I.
Qed.
Lemma mix_program u prog : x_stack_size X = None -> valid_program prog ->
  mix 0 0 (pr_root_slots prog) (eval_program X eager E1 u prog) (eval_program X eager E2 u prog) sound.
Proof.
  intros N V. eapply mix_bind; [apply (mix_extend_unlimited (pr_root_slots prog)), N| |intros; exact (kl_rest u prog)].
  intros _ _. exact (mix_rest u prog V).
Qed.
Lemma mix_leaking_program u prog : valid_program prog ->
  rel 0 (leaking (eval_program X eager E1 u prog)) (leaking (eval_program X eager E2 u prog)) sound.
Proof.
  intros V r r' fr s F P. unfold leaking, eval_program, bind.
  destruct (extend_fits (pr_root_slots prog) (at_ u (mkpos 0 0)) r r' fr s F P) as [(-> & -> & _)|(t & fr' & -> & P' & ->)]; [discriminate|].
  pose proof (mix_rest u prog V r r' fr' t F P') as B. unfold program_rest, bind in B.
  match type of B with rel_out _ _ _ _ _ ?o1 ?o2 => set (x1 := o1) in *; set (x2 := o2) in * end.
  clearbody x1 x2. destruct x1 as [a t1|p t1|z t1|c|]; cbn [rel_out] in B |- *; auto.
  - intros L. destruct (B L) as (Ha & fr1 & P1 & ->). split; [exact Ha|]. exists fr1. auto.
  - discriminate.
  - intros L. destruct (B L) as (st0 & ->). exists st0. reflexivity.
Qed.
Lemma mix_load path p : rel 0 (load X eager E1 path p) (load X eager E2 path p) sound.
Proof.
  unfold load. apply mix_get. intros r r' fr s F P. cbn [set_stack st_world st_units].
  assert (HT : forall e, rel_out 0 0 r r' sound (throw e s) (throw e (set_stack s (fr ++ r')))) by (intros e; exact (mix_throw 0 0 e _ r r' fr s F P)).
  destruct (x_file X path (st_world s)) as [e|text]; [apply HT|].
  destruct (analyze text) as [b les pes| |] eqn:A; [|exact I|exact I].
  destruct les as [|]; [|apply HT]. destruct pes as [|]; [|apply HT].
  destruct (sema b) as [prog|es|] eqn:Se; [|apply HT|exact I].
  pose proof (text_valid _ _ _ _ A Se) as V. unfold bind at 1 2, put.
  apply (mix_leaking_program (mkuinfo (st_units s) path) prog V r r' fr
    (mkstate (st_stack s) (st_args s) (st_heap s) (st_modules s) (S (st_units s)) (st_leaked s) (st_world s)) F). exact P.
Qed.
Lemma mix_import t p : rel 0 (import X eager E1 t p) (import X eager E2 t p) sound.
Proof.
  unfold import. apply mix_get. intros r r' fr s F P. cbn [set_stack st_world st_modules].
  destruct (x_resolve X t (sp_path p) (st_world s)) as [e|path]; [exact (mix_throw 0 0 _ _ r r' fr s F P)|].
  destruct (module_get path (st_modules s)) as [v|] eqn:Md.
  - refine (mix_ret 0 0 v sound _ r r' fr s F P). eapply module_sound; [apply P|exact Md].
  - refine (mix_bind 0 0 0 0 _ _ _ _ _ _ (mix_load path p) _ _ r r' fr s F P).
    + intros v Hv. apply mix_get. intros r1 r1' fr1 s1 F1 P1. unfold bind, put, ret. intros _. split; [exact Hv|]. exists fr1. split; [|reflexivity].
      destruct P1 as (A1 & A2 & A3 & (A4 & A5 & A6)). split; [exact A1|]. split; [exact A2|]. split; [exact A3|]. split; [exact A4|]. split; [exact A5|].
      cbn. constructor; assumption.
    + intros v. apply kl_get. intros s' Hs'. exact Hs'.
Qed.
Lemma mix_native r r' fr s g args start p : sound_native g -> fits r r' -> pre 0 r fr s -> Forall sound args ->
  rel_out 0 0 r r' sound (native_body X eager E1 n g args start p s) (native_body X eager E2 n g args start p (set_stack s (fr ++ r'))).
Proof.
  intros Hg F P Ha.
  assert (HT : forall e, rel_out 0 0 r r' sound (throw e s) (throw e (set_stack s (fr ++ r')))) by (intros e; exact (mix_throw 0 0 e _ r r' fr s F P)).
  assert (HM : rel_out 0 0 r r' sound (lift (native_call X n args_value g args p) s) (lift (native_call X n args_value g args p) (set_stack s (fr ++ r')))).
  { apply mix_lift; [exact P|reflexivity|].
    pose proof (native_call_kept X HX n g args p (st_heap s) (st_world s) args_value ltac:(apply P) Hg Ha I) as K.
    destruct (native_call X n args_value g args p (st_heap s) (st_world s)) as [v x|q x|z x|c|]; cbn in K; auto; [|apply K].
    apply K. intros _. exact I. }
  destruct g as [f|o f|a st|t st|st|st to step|st to step|f pt|st]; try exact HM.
  - destruct f; try exact HM; unfold native_body.
    + destruct args as [|a [|a' l]]; [apply HT| |destruct a; apply HT].
      destruct a as [| | | | | | | |g|]; try apply HT. inversion Ha as [|? ? Sg _]; subst. cbn in Sg. unfold catch.
      pose proof (r_call _ _ HE VNil g (start + 1) p I Sg r r' fr s F P) as C.
      destruct (ev_call E1 VNil g (start + 1) p s) as [v t|e t|z t|c|]; cbn [rel_out] in C |- *; auto.
      * intros L. destruct (C L) as (Hv & fr' & P' & ->). split; [exact Hv|]. exists fr'. auto.
      * pose proof (ShowProofs.panic_text_not_busy X n (st_heap t) e) as NB.
        destruct (panic_text X n (st_heap t) e) as [m| |] eqn:Q; cbn [rel_out]; [|congruence|exact Logic.I].
        intros L. destruct (C L) as (fr' & P' & ->). split; [exact I|]. exists fr'. split; [exact P'|]. cbn. now rewrite Q.
      * intros L. destruct (C L) as (st0 & ->). exists st0. reflexivity.
    + destruct args as [|a [|a' l]]; [apply HT| |destruct a; apply HT].
      destruct a as [| | | | |t| | | |]; try apply HT. exact (mix_import t p r r' fr s F P).
  - destruct Hg as [Ho Hf]. exact (r_call _ _ HE o f start p Ho Hf r r' fr s F P).
Qed.
Lemma mix_call obj f start p : sound obj -> sound_func f ->
  rel 0 (call X tail1 eager E1 n obj f start p) (call X tail2 eager E2 n obj f start p) sound.
Proof.
  intros Ho Hf. destruct f as [un params fi body ctx fp|g]; cbn [call].
  - apply mix_call_hush; assumption.
  - apply mix_get. intros r r' fr s F P. unfold truncated. cbn [set_stack st_args].
    assert (SA : Forall sound (skipn start (st_args s))) by (apply Forall_skipn, P).
    pose proof (mix_native r r' fr s g (skipn start (st_args s)) start p Hf F P SA) as N.
    assert (PA : forall fr' t, pre 0 r fr' t -> pre 0 r fr' (set_args t (firstn start (st_args t)))).
    { intros fr' t P'. apply pre_args; [exact P'|]. apply Forall_firstn, P'. }
    destruct (native_body X eager E1 n g (skipn start (st_args s)) start p s) as [v t|e t|z t|c|]; cbn [rel_out] in N |- *; auto.
    + intros L. destruct (N L) as (Hv & fr' & P' & ->). split; [exact Hv|]. exists fr'. split; [apply PA, P'|reflexivity].
    + intros L. destruct (N L) as (fr' & P' & ->). exists fr'. split; [apply PA, P'|reflexivity].
    + intros L. destruct (N L) as (st0 & ->). exists st0. reflexivity.
Qed.
Lemma rels_step : rels (step X O tail1 eager E1 n) (step X O tail2 eager E2 n).
Proof.
  split; cbn [step ev_expr ev_statement ev_call ev_for].
  - intros. eapply mix_eval_expr; eassumption.
  - intros. eapply mix_eval_statement; eassumption.
  - intros. apply mix_call; assumption.
  - intros. eapply mix_eval_for; eassumption.
Qed.
End Call.
End Step.

(** ** Tail calls *)
Lemma mix_eq {A} k kv kp (m1 m2 n1 n2 : M A) R : mix k kv kp m1 m2 R -> (forall s, m1 s = n1 s) -> (forall s, m2 s = n2 s) -> mix k kv kp n1 n2 R.
Proof. intros H A1 A2 r r' fr s F P. rewrite <- A1, <- A2. apply H; assumption. Qed.
Definition plain_call (E : evals) (u : uinfo) (f : xexpr) (args : list xexpr) (p : pos) : M flow :=
  bind (prepare_call E u f args) (fun r =>
    match r with
    | inr (obj, g, start) => bind (ev_call E obj g start (at_ u p)) (fun v => ret (Reg v))
    | inl f => ret f
    end).
Definition returned (f : flow) : M flow := ret (match f with Reg v => Ret v | f => f end).
Lemma plain_statement tail E a b u f args p s : 
  ev_statement (step X O tail eager (step X O tail eager E a) b) u (XExpr (XCall f args p)) s = plain_call E u f args p s.
Proof.
  cbn [step ev_statement ev_expr eval_statement eval_expr].
  unfold bind at 1 2. unfold plain_call. destruct (bind (prepare_call E u f args) _ s); reflexivity.
Qed.
Lemma plain_return tail E a b u f args p s : 
  ev_statement (step X O tail eager (step X O tail eager E a) b) u (XReturn (XCall f args p)) s = bind (plain_call E u f args p) returned s.
Proof.
  cbn [step ev_statement ev_expr eval_statement eval_expr].
  unfold bind at 1 2. unfold bind at 3. unfold plain_call. destruct (bind (prepare_call E u f args) _ s); reflexivity.
Qed.
Lemma finish_returned k (m : M flow) s : finish k (bind m returned) s = bind (finish k m) returned s.
Proof. unfold finish, bind, returned, ret. destruct (m s); reflexivity. Qed.

Lemma kl_plain E u f args p : kls E -> kl (plain_call E u f args p).
Proof. intros HK. unfold plain_call. apply kl_bind; [apply (kl_prepare _ HK)|]. intros [fl|[[obj g] start]]; [apply kl_ret|]. apply kl_bind; [apply HK|intros; apply kl_ret]. Qed.

Lemma mix_tail_plain E1 E0 u k f args p fn lp : x_stack_size X = None -> rels E1 E0 -> kls E1 -> valid_expr fn lp k f -> each (valid_expr fn lp k) args ->
  mix k 0 0 (tail_call E1 u k f args p) (finish k (plain_call E0 u f args p)) flow_r.
Proof.
  intros NX HE HK Vf Va r r' fr s F P. pose proof (mix_prepare E1 E0 HE HK u f args fn lp k Vf Va r r' fr s F P) as Q.
  unfold tail_call, finish, plain_call, bind at 2.
  destruct (prepare_call E1 u f args s) as [x t|e t|z t|c|]; cbn [rel_out] in Q; try exact I.
  - destruct x as [fl|[[obj g] start]].
    + intros L. destruct (Q L) as (Hf & fr' & P' & ->). cbn. destruct (pre_shrink _ _ _ _ P') as [Q1 Q2]. split; [exact Hf|]. exists []. rewrite Q2. auto.
    + destruct (st_leaked t) eqn:Lt.
      * pose proof (kl_bind _ _ (kl_call _ HK obj g start (at_ u p)) (fun v => kl_ret (Reg v)) (shrink k t) Lt) as Fl.
        destruct (bind (ev_call E1 obj g start (at_ u p)) (fun v => ret (Reg v)) (shrink k t)); cbn in *; auto; congruence.
      * destruct (Q eq_refl) as ([Ho Hg] & fr' & P' & ->). destruct (pre_shrink _ _ _ _ P') as [Q1 Q2].
        pose proof (r_call _ _ HE obj g start (at_ u p) Ho Hg r (fr' ++ r') [] (shrink k t) (or_introl NX) Q1) as C. cbn [app] in C.
        assert (Es : set_stack (shrink k t) (fr' ++ r') = set_stack t (fr' ++ r')) by reflexivity. rewrite Es in C. clear Es.
        pose proof P' as (_ & Lf & _).
        assert (SK : forall t2 : state W, shrink k (set_stack t2 (fr' ++ r')) = set_stack t2 ([] ++ r')).
        { intros t2. unfold shrink, set_stack. cbn. rewrite skipn_app_length by exact Lf. reflexivity. }
        unfold bind. destruct (ev_call E1 obj g start (at_ u p) (shrink k t)) as [v t2|e t2|z t2|c|]; cbn [rel_out] in C |- *; auto.
        -- intros L2. destruct (C L2) as (Hv & fr2 & P2 & ->). pose proof P2 as (_ & Z & _). destruct fr2; [|discriminate]. cbn [app].
           split; [exact Hv|]. exists []. split; [exact P2|]. cbn. rewrite SK. reflexivity.
        -- intros L2. destruct (C L2) as (fr2 & P2 & ->). pose proof P2 as (_ & Z & _). destruct fr2; [|discriminate]. cbn [app].
           exists []. split; [exact P2|]. rewrite SK. reflexivity.
        -- intros L2. destruct (C L2) as (st0 & ->). exists st0. reflexivity.
  - intros L. destruct (Q L) as (fr' & P' & ->). destruct (pre_shrink _ _ _ _ P') as [Q1 Q2]. exists []. rewrite Q2. auto.
  - intros L. destruct (Q L) as (st0 & ->). exists st0. reflexivity.
Qed.
Lemma mix_plain_tail E0 E2 u k f args p fn lp : x_stack_size X = None -> rels E0 E2 -> kls E0 -> valid_expr fn lp k f -> each (valid_expr fn lp k) args ->
  mix k 0 0 (finish k (plain_call E0 u f args p)) (tail_call E2 u k f args p) flow_r.
Proof.
  intros NX HE HK Vf Va r r' fr s F P. pose proof (mix_prepare E0 E2 HE HK u f args fn lp k Vf Va r r' fr s F P) as Q.
  unfold tail_call, finish, plain_call, bind at 1.
  destruct (prepare_call E0 u f args s) as [x t|e t|z t|c|]; cbn [rel_out] in Q; try exact I.
  - destruct x as [fl|[[obj g] start]].
    + cbn. intros L. destruct (Q L) as (Hf & fr' & P' & ->). destruct (pre_shrink _ _ _ _ P') as [Q1 Q2]. split; [exact Hf|]. exists []. rewrite Q2. auto.
    + destruct (st_leaked t) eqn:Lt.
      * pose proof (kl_call _ HK obj g start (at_ u p) t Lt) as Fl. unfold bind, ret.
        destruct (ev_call E0 obj g start (at_ u p) t); cbn in *; auto; congruence.
      * destruct (Q eq_refl) as ([Ho Hg] & fr' & P' & ->). destruct (pre_shrink _ _ _ _ P') as [Q1 Q2]. rewrite Q2.
        assert (P0 : pre 0 (fr' ++ r) [] t).
        { destruct P' as (A1 & A2 & A3 & A4). split; [exact A1|]. split; [reflexivity|]. split; [constructor|exact A4]. }
        pose proof (r_call _ _ HE obj g start (at_ u p) Ho Hg (fr' ++ r) r' [] t (or_introl NX) P0) as C. cbn [app] in C.
        assert (Es : set_stack t r' = set_stack (shrink k t) r') by reflexivity. rewrite Es in C. clear Es.
        pose proof P' as (_ & Lf & _).
        assert (SK : forall t2 : state W, pre 0 (fr' ++ r) [] t2 -> pre 0 r [] (shrink k t2)).
        { intros t2 (A1 & A2 & A3 & A4). split; [cbn [app] in A1; cbn; rewrite A1; apply skipn_app_length, Lf|]. split; [reflexivity|]. split; [constructor|exact A4]. }
        unfold bind, ret. destruct (ev_call E0 obj g start (at_ u p) t) as [v t2|e t2|z t2|c|]; cbn [rel_out] in C |- *; auto.
        -- intros L2. destruct (C L2) as (Hv & fr2 & P2 & ->). pose proof P2 as (_ & Z & _). destruct fr2; [|discriminate].
           split; [exact Hv|]. exists []. split; [apply SK, P2|reflexivity].
        -- intros L2. destruct (C L2) as (fr2 & P2 & ->). pose proof P2 as (_ & Z & _). destruct fr2; [|discriminate].
           exists []. split; [apply SK, P2|reflexivity].
        -- intros L2. destruct (C L2) as (st0 & ->). exists st0. reflexivity.
  - intros L. destruct (Q L) as (fr' & P' & ->). destruct (pre_shrink _ _ _ _ P') as [Q1 Q2]. exists []. rewrite Q2. auto.
  - intros L. destruct (Q L) as (st0 & ->). exists st0. reflexivity.
Qed.
Lemma mix_returned k kv kp (m1 m2 : M flow) : mix k kv kp m1 m2 flow_r -> mix k kv kp (bind m1 returned) (bind m2 returned) flow_r.
Proof.
  intros H. eapply mix_bind; [exact H| |intros; apply kl_ret]. intros f Hf. apply mix_ret. destruct f; exact Hf.
Qed.

Lemma last_tail_plain E1 E0 a b E3 : x_stack_size X = None -> rels E1 E0 -> rels E1 E3 -> kls E1 -> ele (step X O false eager (step X O false eager E0 a) b) E3 ->
  forall u k st, valid_statement true false k st -> mix k 0 0 (eval_body true E1 u k [st]) (eval_body false E3 u k [st]) flow_r.
Proof.
  intros NX H0 H3 HK L u k st V. pose proof (mix_finish k _ _ _ (r_statement _ _ H3 u st true false k V)) as D.
  cbn [eval_body]. destruct st as [l r|e| |c bb|ix e bb|e]; try exact D.
  - destruct e as [ix p|l p|x p|es p|kvs p|params fi bb p|op e p|l op r p|c t e p|o f p|f args p|bb p]; try exact D.
    destruct V as [_ [Vf Va]]. eapply mix_le; [|apply finish_le, L].
    eapply mix_eq; [apply mix_returned, (mix_tail_plain E1 E0 u k f args p true false NX H0 HK Vf Va)|reflexivity|].
    intros s. rewrite <- finish_returned. unfold finish. rewrite plain_return. reflexivity.
  - destruct e as [ix p|l p|x p|es p|kvs p|params fi bb p|op e p|l op r p|c t e p|o f p|f args p|bb p]; try exact D.
    destruct V as [Vf Va]. eapply mix_le; [|apply finish_le, L].
    eapply mix_eq; [apply (mix_tail_plain E1 E0 u k f args p true false NX H0 HK Vf Va)|reflexivity|].
    intros s. unfold finish. rewrite plain_statement. reflexivity.
Qed.
Lemma last_plain_tail E0 a b E2 : x_stack_size X = None -> rels E0 E2 -> kls E0 -> rels (step X O false eager (step X O false eager E0 a) b) E2 ->
  forall u k st, valid_statement true false k st ->
  mix k 0 0 (eval_body false (step X O false eager (step X O false eager E0 a) b) u k [st]) (eval_body true E2 u k [st]) flow_r.
Proof.
  intros NX H0 HK H2 u k st V. pose proof (mix_finish k _ _ _ (r_statement _ _ H2 u st true false k V)) as D.
  cbn [eval_body]. destruct st as [l r|e| |c bb|ix e bb|e]; try exact D.
  - destruct e as [ix p|l p|x p|es p|kvs p|params fi bb p|op e p|l op r p|c t e p|o f p|f args p|bb p]; try exact D.
    destruct V as [_ [Vf Va]].
    eapply mix_eq; [apply mix_returned, (mix_plain_tail E0 E2 u k f args p true false NX H0 HK Vf Va)| |reflexivity].
    intros s. rewrite <- finish_returned. unfold finish. rewrite plain_return. reflexivity.
  - destruct e as [ix p|l p|x p|es p|kvs p|params fi bb p|op e p|l op r p|c t e p|o f p|f args p|bb p]; try exact D.
    destruct V as [Vf Va].
    eapply mix_eq; [apply (mix_plain_tail E0 E2 u k f args p true false NX H0 HK Vf Va)| |reflexivity].
    intros s. unfold finish. rewrite plain_statement. reflexivity.
Qed.

Lemma ele_step tail E n n' : n <= n' -> ele (step X O tail eager E n) (step X O tail eager E n').
Proof.
  intros L. assert (R : ele E E) by (split; intros; apply mle_refl).
  pose proof (fun u => step_le X O tail eager _ _ R n n' L u) as S. constructor; intros; apply S; exact (mkuinfo 0 []).
Qed.
Lemma rels_none E : rels no_fuel E.
Proof. split; intros; intros r r' fr s F P; exact I. Qed.

Theorem tail_plain n : x_stack_size X = None -> rels (run X O true eager n) (run X O false eager (3 * n)).
Proof.
  intros NX. induction n as [|n IH]; [apply rels_none|]. replace (3 * S n) with (S (S (S (3 * n)))) by lia. 
  set (E0 := run X O false eager (3 * n)) in *.
  assert (H3 : rels (run X O true eager n) (run X O false eager (S (S (3 * n))))) by (eapply rels_le; [exact IH|apply run_le; lia]).
  cbn [run]. fold E0. eapply rels_le; [|apply (ele_step false _ n); lia].
  apply rels_step; [exact H3|apply kls_run|].
  eapply last_tail_plain; [exact NX|exact IH|exact H3|apply kls_run|]. cbn [run]. fold E0. split; intros; apply mle_refl.
Qed.
Theorem plain_tail n : x_stack_size X = None -> rels (run X O false eager n) (run X O true eager n).
Proof.
  intros NX. induction n as [n IH] using lt_wf_ind. destruct n as [|n]; [apply rels_none|]. cbn [run].
  apply rels_step; [apply IH; lia|apply kls_run|]. destruct n as [|[|n]].
  - intros u k st V. cbn [eval_body run]. intros r r' fr s F P. exact I.
  - intros u k st V. cbn [eval_body run step ev_statement ev_expr].
    pose proof (IH 1 ltac:(lia)) as H1. pose proof (mix_finish k _ _ _ (r_statement _ _ H1 u st true false k V)) as D. cbn [run step ev_statement ev_expr] in D.
    destruct st as [l r|e| |c bb|ix e bb|e]; try exact D; destruct e; try exact D; intros r r' fr s F P; exact I.
  - assert (H2 : rels (run X O false eager (S (S n))) (run X O true eager (S (S n)))) by (apply IH; lia).
    cbn [run]. apply last_plain_tail; [exact NX| | |].
    + eapply rels_le; [apply IH; lia|]. apply (run_le X O true eager n (S (S n))). lia.
    + apply kls_run.
    + exact H2.
Qed.


(** A call does not look below the slots it makes. *)
Lemma mix_tail_call E1 E2 u k f args p fn lp : rels E1 E2 -> kls E1 -> valid_expr fn lp k f -> each (valid_expr fn lp k) args ->
  mix k 0 0 (tail_call E1 u k f args p) (tail_call E2 u k f args p) flow_r.
Proof.
  intros HE HK Vf Va r r' fr s F P. pose proof (mix_prepare E1 E2 HE HK u f args fn lp k Vf Va r r' fr s F P) as Q.
  unfold tail_call. destruct (prepare_call E1 u f args s) as [x t|e t|z t|c|]; cbn [rel_out] in Q; try exact I.
  - destruct x as [fl|[[obj g] start]].
    + intros L. destruct (Q L) as (Hf & fr' & P' & ->). destruct (pre_shrink _ _ _ _ P') as [Q1 Q2]. split; [exact Hf|]. exists []. rewrite Q2. auto.
    + pose proof (fun Ho Hg => mix_bind 0 0 0 0 _ _ _ _ _ _ (r_call _ _ HE obj g start (at_ u p) Ho Hg)
        (fun v (Hv : sound v) => mix_ret 0 0 (Reg v) flow_r Hv) (fun v => kl_ret (Reg v)) r r' [] (shrink k t) F) as C.
      destruct (st_leaked t) eqn:Lt.
      * pose proof (kl_bind _ _ (kl_call _ HK obj g start (at_ u p)) (fun v => kl_ret (Reg v)) (shrink k t) Lt) as D.
        destruct (bind (ev_call E1 obj g start (at_ u p)) (fun v => ret (Reg v)) (shrink k t)); cbn in *; auto; congruence.
      * destruct (Q eq_refl) as ([Ho Hg] & fr' & P' & ->). destruct (pre_shrink _ _ _ _ P') as [Q1 Q2]. rewrite Q2. exact (C Ho Hg Q1).
  - intros L. destruct (Q L) as (fr' & P' & ->). destruct (pre_shrink _ _ _ _ P') as [Q1 Q2]. exists []. rewrite Q2. auto.
  - intros L. destruct (Q L) as (st0 & ->). exists st0. reflexivity.
Qed.
Theorem run_local tail n : rels (run X O tail eager n) (run X O tail eager n).
Proof.
  induction n as [|n IH]; [apply rels_none|]. cbn [run]. pose proof (kls_run X O tail eager n) as HK. apply rels_step; [exact IH|exact HK|].
  intros u k st V. pose proof (mix_finish k _ _ _ (r_statement _ _ IH u st true false k V)) as D. cbn [eval_body]. destruct tail; [|exact D].
  destruct st as [l r|e| |c bb|ix e bb|e]; try exact D.
  - destruct e as [ix p|l p|x p|es p|kvs p|params fi bb p|op e p|l op r p|c t e p|o f p|f args p|bb p]; try exact D.
    destruct V as [_ [Vf Va]]. exact (mix_returned k 0 0 _ _ (mix_tail_call _ _ u k f args p true false IH HK Vf Va)).
  - destruct e as [ix p|l p|x p|es p|kvs p|params fi bb p|op e p|l op r p|c t e p|o f p|f args p|bb p]; try exact D.
    destruct V as [Vf Va]. exact (mix_tail_call _ _ u k f args p true false IH HK Vf Va).
Qed.

Lemma pre_initial args w : pre 0 [] [] (initial args w).
Proof.
  split; [reflexivity|]. split; [reflexivity|]. split; [constructor|]. split; [constructor|]. split; [|constructor].
  cbn. repeat split; repeat constructor; try (apply Forall_forall; intros v Hv; apply in_map_iff in Hv; destruct Hv as (x & <- & _); exact I).
Qed.
End Rel.
