(** More fuel does not change an outcome that was reached. *)
From Coq Require Import Strings.String Lia.
From Verif Require Import Base Lexer Ast Parser Program Sema Value Text Json StdLib Exec Runtime SpecRuntime.

(** ** Walks *)
Definition wle {A} (a b : walk A) : Prop := a = Deep \/ a = b.
Lemma wle_refl {A} (a : walk A) : wle a a. Proof. now right. Qed.
Lemma wle_deep {A} (a : walk A) : wle Deep a. Proof. now left. Qed.
Lemma wle_bind {A B} (a b : walk A) (f g : A -> walk B) :
  wle a b -> (forall x, wle (f x) (g x)) -> wle (wbind a f) (wbind b g).
Proof. intros [-> | ->] H; [left; reflexivity|]. destruct b; cbn; [apply H|right|right]; reflexivity. Qed.

Create HintDb fuel.
#[local] Hint Resolve wle_refl wle_deep wle_bind : fuel.

Section Walks.
Context {A : Type}.
Lemma lex_le (f g : A -> A -> walk comparison) : (forall x y, wle (f x y) (g x y)) -> forall a b, wle (lex f a b) (lex g a b).
Proof.
  intros H. induction a as [|x a IH]; intros [|y b]; cbn; try apply wle_refl. apply wle_bind; [apply H|].
  intros []; auto with fuel.
Qed.
Lemma insert_le (f g : A -> A -> walk comparison) x : (forall x y, wle (f x y) (g x y)) -> forall l, wle (insert_sorted f x l) (insert_sorted g x l).
Proof.
  intros H. induction l as [|y l IH]; cbn; [apply wle_refl|]. apply wle_bind; [apply H|].
  intros []; auto with fuel.
Qed.
Lemma sort_le (f g : A -> A -> walk comparison) : (forall x y, wle (f x y) (g x y)) -> forall l, wle (sort_walk f l) (sort_walk g l).
Proof.
  intros H l. unfold sort_walk. generalize (wle_refl (Known (@nil A))). generalize (Known (@nil A)) at 1 3. generalize (Known (@nil A)).
  induction l as [|y l IH]; intros a b L; cbn; [exact L|]. apply IH. apply wle_bind; [exact L|]. intros s. apply insert_le, H.
Qed.
Lemma all2_le (f g : A -> A -> walk bool) : (forall x y, wle (f x y) (g x y)) -> forall a b, wle (all2 f a b) (all2 g a b).
Proof.
  intros H. induction a as [|x a IH]; intros [|y b]; cbn; try apply wle_refl. apply wle_bind; [apply H|].
  intros []; auto with fuel.
Qed.
Lemma dedup_le (f g : A -> A -> walk bool) : (forall x y, wle (f x y) (g x y)) -> forall l, wle (dedup f l) (dedup g l).
Proof.
  intros H. induction l as [|x [|y l] IH]; try apply wle_refl. change (wle (wbind (f x y) (fun r => if r then dedup f (y :: l) else wbind (dedup f (y :: l)) (fun t => Known (x :: t)))) (wbind (g x y) (fun r => if r then dedup g (y :: l) else wbind (dedup g (y :: l)) (fun t => Known (x :: t))))).
  apply wle_bind; [apply H|]. intros []; auto with fuel.
Qed.
Lemma any_le (f g : A -> walk bool) : (forall x, wle (f x) (g x)) -> forall l, wle (any f l) (any g l).
Proof.
  intros H. induction l as [|x l IH]; cbn; [apply wle_refl|]. apply wle_bind; [apply H|]. intros []; auto with fuel.
Qed.
Lemma fold_le {B} (f g : walk B -> A -> walk B) : (forall a b x, wle a b -> wle (f a x) (g b x)) ->
  forall l a b, wle a b -> wle (fold_left f l a) (fold_left g l b).
Proof. intros H. induction l as [|x l IH]; cbn; auto. Qed.
Definition items_go (item : A -> walk bytes) : bool -> list A -> walk bytes :=
  fix go first l :=
    match l with
    | [] => Known []
    | x :: l' =>
        wbind (item x) (fun t =>
        wbind (go false l') (fun r =>
        Known ((if first : bool then bs " " else bs ", ") ++ t ++ r)))
    end.
Lemma items_le (f g : A -> walk bytes) l : (forall x, wle (f x) (g x)) -> wle (items_text f l) (items_text g l).
Proof.
  intros H. change (wle (items_go f true l) (items_go g true l)). generalize true as first.
  induction l as [|x l IH]; intros first; [apply wle_refl|].
  apply wle_bind; [apply H|]. intros t. apply wle_bind; [apply IH|]. auto with fuel.
Qed.
End Walks.
Lemma find_le (f g : value -> value -> walk bool) k : (forall x y, wle (f x y) (g x y)) -> forall l, wle (find_entry f k l) (find_entry g k l).
Proof.
  intros H. induction l as [|[x v] l IH]; cbn; [apply wle_refl|]. apply wle_bind; [apply H|]. intros []; auto with fuel.
Qed.
Lemma put_le (f g : value -> value -> walk bool) k v : (forall x y, wle (f x y) (g x y)) -> forall l, wle (put_entry f k v l) (put_entry g k v l).
Proof.
  intros H. induction l as [|[x w] l IH]; cbn; [apply wle_refl|]. apply wle_bind; [apply H|]. intros []; auto with fuel.
Qed.

Lemma eqv_le h : forall n m, n <= m -> forall bits a b, wle (eqv h n bits a b) (eqv h m bits a b).
Proof.
  induction n as [|n IH]; intros [|m] L bits a b; try lia; try apply wle_deep. specialize (IH m ltac:(lia)).
  destruct a, b; cbn [eqv]; try apply wle_refl.
  - destruct (Nat.eqb _ _); [|apply wle_refl]. apply all2_le, IH.
  - destruct (Nat.eqb _ _); [|apply wle_refl]. match goal with |- wle (_ (dict_entries h ?x)) _ => induction (dict_entries h x) as [|[k v] es IHe] end; [apply wle_refl|].
    apply wle_bind; [apply find_le, IH|]. intros [w|]; [|apply wle_refl]. apply wle_bind; [apply IH|]. intros []; auto with fuel.
  - destruct f, f0; try apply wle_refl. destruct (_ && _); [|apply wle_refl]. apply all2_le. intros x y. apply wle_bind; [apply IH|auto with fuel].
  - destruct (bytes_eqb _ _); [apply IH|apply wle_refl].
Qed.
Lemma vcmp_le rank h : forall n m, n <= m -> forall k a b, wle (vcmp rank h n k a b) (vcmp rank h m k a b).
Proof.
  induction n as [|n IH]; intros [|m] L k a b; try lia; try apply wle_deep. assert (L' : n <= m) by lia. specialize (IH m L').
  destruct a, b; cbn [vcmp]; try apply wle_refl.
  - destruct (_ || _); [apply wle_refl|]. apply lex_le, IH.
  - assert (Q : forall l, wle
      (if dict_locked k l then Busy else wbind (sort_walk (fun e e' : value * value => vcmp rank h n k (fst e) (fst e')) (dict_entries h l)) (dedup (fun e e' : value * value => eqv h n false (fst e) (fst e'))))
      (if dict_locked k l then Busy else wbind (sort_walk (fun e e' : value * value => vcmp rank h m k (fst e) (fst e')) (dict_entries h l)) (dedup (fun e e' : value * value => eqv h m false (fst e) (fst e'))))).
    { intros q. destruct (dict_locked k q); [apply wle_refl|]. apply wle_bind; [apply sort_le; intros; apply IH|].
      intros r. apply dedup_le. intros. apply eqv_le, L'. }
    apply wle_bind; [apply Q|]. intros ex. apply wle_bind; [apply Q|]. intros ey. apply lex_le. intros x y.
    apply wle_bind; [apply IH|]. intros []; auto with fuel.
  - destruct (bytes_cmp _ _); [apply IH|apply wle_refl|apply wle_refl].
Qed.
Lemma hash_le h : forall n m, n <= m -> forall k v, wle (hash_walk h n k v) (hash_walk h m k v).
Proof.
  induction n as [|n IH]; intros [|m] L k v; try lia; try apply wle_deep. specialize (IH m ltac:(lia)).
  destruct v; cbn [hash_walk]; try apply wle_refl.
  - destruct (arr_locked _ _); [apply wle_refl|]. apply fold_le; [|apply wle_refl]. intros. apply wle_bind; auto.
  - destruct (dict_locked _ _); [apply wle_refl|]. apply fold_le; [|apply wle_refl]. intros. apply wle_bind; [assumption|].
    intros _. apply wle_bind; auto.
  - apply IH.
Qed.
Lemma dict_get_le h n m l k : n <= m -> wle (dict_get h n l k) (dict_get h m l k).
Proof. intros L. apply wle_bind; [apply hash_le, L|]. intros _. apply find_le. intros. apply eqv_le, L. Qed.
Lemma dict_put_le h n m l k v : n <= m -> wle (dict_put h n l k v) (dict_put h m l k v).
Proof. intros L. apply wle_bind; [apply hash_le, L|]. intros _. apply put_le. intros. apply eqv_le, L. Qed.

(** ** Library *)
Definition ole {S A} (a b : outcome S A) : Prop := a = Fuel \/ a = b.
Lemma ole_refl {S A} (a : outcome S A) : ole a a. Proof. now right. Qed.
Lemma ole_fuel {S A} (a : outcome S A) : ole Fuel a. Proof. now left. Qed.

Section Lib.
Context {W : Type}.
Variable X : ext W.
Lemma show_le h : forall n m, n <= m -> forall v, wle (show X n h v) (show X m h v).
Proof.
  induction n as [|n IH]; intros [|m] L v; try lia; try apply wle_deep. specialize (IH m ltac:(lia)).
  destruct v; cbn [show]; try apply wle_refl.
  - apply wle_bind; [apply items_le, IH|auto with fuel].
  - apply wle_bind; [apply items_le|auto with fuel]. intros e. apply wle_bind; [apply IH|]. intros. apply wle_bind; [apply IH|auto with fuel].
  - apply wle_bind; [apply IH|auto with fuel].
Qed.
Lemma has_error_le h : forall n m, n <= m -> forall v, wle (has_error X n h v) (has_error X m h v).
Proof.
  induction n as [|n IH]; intros [|m] L v; try lia; try apply wle_deep. specialize (IH m ltac:(lia)).
  destruct v; cbn [has_error]; try apply wle_refl.
  - apply any_le, IH.
  - apply any_le. intros e. apply wle_bind; [apply IH|]. intros []; auto with fuel.
Qed.
Lemma print_all_le h n m args b : n <= m -> wle (print_all X n h b args) (print_all X m h b args).
Proof.
  intros L. revert b. induction args as [|v r IH]; intros b; cbn; [apply wle_refl|]. apply wle_bind.
  - destruct v; try apply wle_refl; apply show_le, L.
  - intros t. apply wle_bind; [apply IH|auto with fuel].
Qed.
Lemma each_json_le {A B} (f g : A -> walk (option B)) l : (forall x, wle (f x) (g x)) -> wle (each_json f l) (each_json g l).
Proof.
  intros H. induction l as [|x l IH]; cbn [each_json]; [apply wle_refl|]. apply wle_bind; [apply H|].
  intros [y|]; [apply wle_bind; [exact IH|auto with fuel]|apply wle_refl].
Qed.
Lemma to_json_le o h : forall n m, n <= m -> forall v, wle (to_json o n h v) (to_json o m h v).
Proof.
  induction n as [|n IH]; intros [|m] L v; try lia; try apply wle_deep. specialize (IH m ltac:(lia)).
  destruct v; cbn [to_json]; try apply wle_refl.
  - apply wle_bind; [apply each_json_le, IH|auto with fuel].
  - apply wle_bind; [apply each_json_le|auto with fuel]. intros e. destruct (fst e); try apply wle_refl.
    apply wle_bind; [apply IH|auto with fuel].
Qed.
Lemma panic_text_le h n m p : n <= m -> wle (panic_text X n h p) (panic_text X m h p).
Proof.
  intros L. destruct p; cbn [panic_text]; try apply wle_refl; (apply wle_bind; [apply show_le, L|auto with fuel]).
Qed.
Lemma walked_le {A} (a b : walk A) (k : A -> res) : wle a b -> @ole (heap * W) value (walked a k) (walked b k).
Proof. intros [-> | ->]; [left|right]; reflexivity. Qed.
Lemma native_call_le n m ra f args p h (w : W) : n <= m -> ole (native_call X n ra f args p h w) (native_call X m ra f args p h w).
Proof.
  intros L. destruct f; cbn [native_call]; try apply ole_refl.
  destruct f; cbn [std_call]; try apply ole_refl; unfold print.
  all: repeat match goal with
  | |- ole (walked _ ?k) (walked _ ?k) => apply walked_le
  | |- ole ?a ?a => apply ole_refl
  | |- ole (match ?x with _ => _ end) _ => destruct x
  end.
  all: try apply show_le; try apply has_error_le; try apply print_all_le; try apply to_json_le; try apply dict_get_le; try exact L.
  - apply any_le. intros. apply eqv_le, L.
  - apply sort_le. intros. apply vcmp_le, L.
Qed.
End Lib.

(** ** Evaluation *)
Section Run.
Context {W : Type}.
Variable X : ext W.
Variable O : os W.
Variables tail eager : bool.
Definition mle {A} (m m' : M (W:=W) A) : Prop := forall s, ole (m s) (m' s).
Lemma mle_refl {A} (m : M A) : mle m m. Proof. intros s. apply ole_refl. Qed.
Lemma mle_bind {A B} (m m' : M A) (f g : A -> M B) : mle m m' -> (forall x, mle (f x) (g x)) -> mle (bind m f) (bind m' g).
Proof.
  intros H K s. unfold bind. destruct (H s) as [-> | ->]; [apply ole_fuel|]. destruct (m' s); try apply ole_refl. apply K.
Qed.
Lemma of_walk_le {A} (a b : walk A) : wle a b -> mle (of_walk a) (of_walk b).
Proof. intros [-> | ->] s; [left|right]; reflexivity. Qed.

Variables E E' : evals (W:=W).
Record ele : Prop := mkele {
  el_expr : forall u e, mle (ev_expr E u e) (ev_expr E' u e);
  el_statement : forall u e, mle (ev_statement E u e) (ev_statement E' u e);
  el_call : forall obj f start p, mle (ev_call E obj f start p) (ev_call E' obj f start p);
  el_for : forall u ix g p b, mle (ev_for E u ix g p b) (ev_for E' u ix g p b) }.
Hypothesis L : ele.
Variables n n' : nat.
Hypothesis Ln : n <= n'.

Lemma block_le u b : mle (eval_block E u b) (eval_block E' u b).
Proof.
  induction b as [|s b IH]; [apply mle_refl|]. destruct b as [|s' b]; [apply L|].
  apply mle_bind; [apply L|]. intros []; try apply mle_refl. exact IH.
Qed.
Ltac go := repeat (match goal with
  | |- mle ?a ?a => apply mle_refl
  | |- mle (bind _ _) (bind _ _) => apply mle_bind
  | |- mle (ev_expr _ _ _) _ => apply L
  | |- mle (ev_statement _ _ _) _ => apply L
  | |- mle (ev_call _ _ _ _ _) _ => apply L
  | |- mle (ev_for _ _ _ _ _ _) _ => apply L
  | |- mle (eval_block _ _ _) _ => apply block_le
  | |- mle (of_walk (eqv _ _ _ _ _)) _ => apply of_walk_le, eqv_le, Ln
  | |- mle (of_walk (dict_get _ _ _ _)) _ => apply of_walk_le, dict_get_le, Ln
  | |- mle (of_walk (dict_put _ _ _ _ _)) _ => apply of_walk_le, dict_put_le, Ln
  | |- forall _, _ => intros ?
  | |- mle (match ?x with _ => _ end) _ => destruct x
  end; auto).
Lemma list_le u es : mle (eval_list E u es) (eval_list E' u es).
Proof. induction es as [|e es IH]; [apply mle_refl|]. cbn [eval_list]. go. Qed.
Lemma dict_le u es : forall d, mle (eval_dict E u es d) (eval_dict E' u es d).
Proof. induction es as [|[k e] es IH]; intros d; [apply mle_refl|]. cbn [eval_dict]. go. Qed.
Lemma access_le o op f fp : mle (access n o op f fp) (access n' o op f fp).
Proof. unfold access. go. Qed.
Lemma push_le u start es : mle (push_args E u start es) (push_args E' u start es).
Proof. induction es as [|e es IH]; [apply mle_refl|]. cbn [push_args]. go. Qed.
Lemma prepare_le u f args : mle (prepare_call E u f args) (prepare_call E' u f args).
Proof. unfold prepare_call. go. apply push_le. Qed.
Lemma binary_le u l op r p : mle (eval_binary E n u l op r p) (eval_binary E' n' u l op r p).
Proof. unfold eval_binary. go. Qed.
Lemma expr_le u e : mle (eval_expr X O E n u e) (eval_expr X O E' n' u e).
Proof.
  destruct e; cbn [eval_expr]; go.
  - apply list_le.
  - apply dict_le.
  - apply binary_le.
  - apply access_le.
  - apply prepare_le.
Qed.
Lemma assign_le o op f fp v p : mle (assign_field n o op f fp v p) (assign_field n' o op f fp v p).
Proof. unfold assign_field. go. Qed.
Lemma statement_le u st : mle (eval_statement E n u st) (eval_statement E' n' u st).
Proof. destruct st; cbn [eval_statement]; go. apply assign_le. Qed.
Lemma for_le u ix g p b : mle (eval_for E n u ix g p b) (eval_for E' n' u ix g p b).
Proof. unfold eval_for. go. Qed.
Lemma finish_le {A} k (m m' : M A) : mle m m' -> mle (finish k m) (finish k m').
Proof. intros H s. unfold finish. destruct (H s) as [-> | ->]; [apply ole_fuel|apply ole_refl]. Qed.
Lemma tail_le u k f args p : mle (tail_call E u k f args p) (tail_call E' u k f args p).
Proof.
  intros s. unfold tail_call. destruct (prepare_le u f args s) as [-> | ->]; [apply ole_fuel|].
  destruct (prepare_call E' u f args s) as [[fl|[[obj g] start]] s1|e s1|c s1|c|]; try apply ole_refl.
  refine (mle_bind _ _ _ _ _ _ _); [apply L|]. intros. apply mle_refl.
Qed.
Lemma body_le u k b : mle (eval_body tail E u k b) (eval_body tail E' u k b).
Proof.
  induction b as [|s b IH]; [apply mle_refl|]. destruct b as [|s' b].
  - assert (F : mle (finish k (ev_statement E u s)) (finish k (ev_statement E' u s))) by (apply finish_le, L).
    cbn [eval_body]. destruct tail; [|exact F]. destruct s; try exact F.
    + destruct e; try exact F. apply mle_bind; [apply tail_le|]. intros. apply mle_refl.
    + destruct e; try exact F. apply tail_le.
  - intros st. change (ole
      (match ev_statement E u s st with Val (Reg _) st => eval_body tail E u k (s' :: b) st | Val f st => Val f (shrink k st) | Pan p st => Pan p (shrink k st) | r => r end)
      (match ev_statement E' u s st with Val (Reg _) st => eval_body tail E' u k (s' :: b) st | Val f st => Val f (shrink k st) | Pan p st => Pan p (shrink k st) | r => r end)).
    destruct (el_statement L u s st) as [-> | ->]; [apply ole_fuel|]. destruct (ev_statement E' u s st) as [[] |e s1|c s1|c|]; try apply ole_refl. apply IH.
Qed.
Lemma hush_le obj u params fi body ctx fp start p :
  mle (call_hush X tail eager E obj u params fi body ctx fp start p) (call_hush X tail eager E' obj u params fi body ctx fp start p).
Proof. unfold call_hush. go. apply body_le. Qed.
Lemma program_le u prog : mle (eval_program X eager E u prog) (eval_program X eager E' u prog).
Proof.
  unfold eval_program. go. intros s. destruct (block_le u (pr_statements prog) s) as [-> | ->]; [apply ole_fuel|apply ole_refl].
Qed.
Lemma leaking_le {A} (m m' : M A) : mle m m' -> mle (leaking m) (leaking m').
Proof. intros H s. unfold leaking. destruct (H s) as [-> | ->]; [apply ole_fuel|apply ole_refl]. Qed.
Lemma load_le path p : mle (load X eager E path p) (load X eager E' path p).
Proof. unfold load. go. apply leaking_le, program_le. Qed.
Lemma import_le path p : mle (import X eager E path p) (import X eager E' path p).
Proof. unfold import. go. apply load_le. Qed.
Lemma catch_le (m m' : M value) : mle m m' -> mle (catch X n m) (catch X n' m').
Proof.
  intros H s. unfold catch. destruct (H s) as [-> | ->]; [apply ole_fuel|]. destruct (m' s); try apply ole_refl.
  destruct (panic_text_le X (st_heap s0) n n' p Ln) as [-> | ->]; [apply ole_fuel|apply ole_refl].
Qed.
Lemma lift_le {A} (f g : heap -> W -> outcome (heap * W) A) : (forall h w, ole (f h w) (g h w)) -> mle (lift f) (lift g).
Proof. intros H s. unfold lift. destruct (H (st_heap s) (st_world s)) as [-> | ->]; [apply ole_fuel|apply ole_refl]. Qed.
Lemma native_le f args start p : mle (native_body X eager E n f args start p) (native_body X eager E' n' f args start p).
Proof.
  destruct f; cbn [native_body]; try (apply lift_le; intros; apply native_call_le, Ln); [|apply L].
  destruct f; cbn [native_body]; try (apply lift_le; intros; apply native_call_le, Ln).
  - go. apply catch_le, L.
  - go. apply import_le.
Qed.
Lemma truncated_le {A} k (m m' : M A) : mle m m' -> mle (truncated k m) (truncated k m').
Proof. intros H s. unfold truncated. destruct (H s) as [-> | ->]; [apply ole_fuel|apply ole_refl]. Qed.
Lemma call_le obj f start p : mle (call X tail eager E n obj f start p) (call X tail eager E' n' obj f start p).
Proof.
  destruct f; cbn [call]; [apply hush_le|]. go. apply truncated_le, native_le.
Qed.
Lemma step_le : forall u, 
  (forall e, mle (ev_expr (step X O tail eager E n) u e) (ev_expr (step X O tail eager E' n') u e)) /\
  (forall e, mle (ev_statement (step X O tail eager E n) u e) (ev_statement (step X O tail eager E' n') u e)) /\
  (forall obj f start p, mle (ev_call (step X O tail eager E n) obj f start p) (ev_call (step X O tail eager E' n') obj f start p)) /\
  (forall ix g p b, mle (ev_for (step X O tail eager E n) u ix g p b) (ev_for (step X O tail eager E' n') u ix g p b)).
Proof.
  intros u. split; [intros; apply expr_le|]. split; [intros; apply statement_le|]. split; [intros; apply call_le|intros; apply for_le].
Qed.
End Run.

Lemma run_le {W} (X : ext W) (O : os W) tail eager : forall n m, n <= m -> ele (run X O tail eager n) (run X O tail eager m).
Proof.
  induction n as [|n IH]; intros [|m] L; try lia; try (constructor; intros; intros s; apply ole_fuel).
  pose proof (fun u => step_le X O tail eager _ _ (IH m ltac:(lia)) n m ltac:(lia) u) as S.
  constructor; intros; apply S; exact (mkuinfo 0 []).
Qed.

Lemma run_program_le {W} (X : ext W) (O : os W) tail eager n m path p args w : n <= m ->
  run_program X O tail eager n path p args w <> Fuel ->
  run_program X O tail eager m path p args w = run_program X O tail eager n path p args w.
Proof.
  intros L H. destruct (program_le X eager _ _ (run_le X O tail eager n m L) (mkuinfo 0 path) p (initial args w)) as [F|F].
  - contradiction.
  - symmetry. exact F.
Qed.

Lemma evaluation_le {W} (X : ext W) (O : os W) tail eager n m u st obj f start p s : n <= m ->
  (ev_statement (run X O tail eager n) u st s <> Fuel ->
   ev_statement (run X O tail eager m) u st s = ev_statement (run X O tail eager n) u st s) /\
  (ev_call (run X O tail eager n) obj f start p s <> Fuel ->
   ev_call (run X O tail eager m) obj f start p s = ev_call (run X O tail eager n) obj f start p s).
Proof.
  intros L. pose proof (run_le X O tail eager n m L) as R. split; intros H.
  - destruct (el_statement _ _ R u st s) as [F|F]; [contradiction|now symmetry].
  - destruct (el_call _ _ R obj f start p s) as [F|F]; [contradiction|now symmetry].
Qed.
