(** The errors of the semantic analyser are the faults of the program. *)
From Coq Require Import Strings.String.
From Verif Require Import Base Lexer Ast Program Sema SpecLexer SpecParser SpecSema SpecFault LexerProofs SemaProofs SemaTreeProofs
  SemaShapeProofs SemaMainProofs.
From Coq Require Import Lia Permutation.
Local Open Scope sema_scope.

(** [F]: all faults, [G]: the ones shown. *)
Definition agrees {X} (F G : list serror) (es : list serror) (r : option X) : Prop :=
  Forall (fun e => is_key_error e = true \/ In e F) es /\
  filter told es = filter told G /\
  (Forall (fun e => is_key_error e = false) es -> es = G /\ (r = None <-> G <> [])).

Definition exactly {X} (G : list serror) (es : list serror) (r : option X) : Prop :=
  es = G /\ (r = None <-> G <> []).

Definition tells {X} (m : M (option X)) (P : list serror -> option X -> Prop) (st : stack) : Prop :=
  forall s D Ds, kept st (ss_stack s) -> okst (D :: Ds) (ss_stack s) ->
  exists r s' es ds,
    m s = Some (r, s') /\ ss_errors s' = ss_errors s ++ es /\
    okst ((D ++ ds) :: Ds) (ss_stack s') /\ kept (ss_stack s) (ss_stack s') /\ P es r.

Definition gtells {X} (m : M (option X)) (P : list serror -> option X -> Prop) (Q : stack -> Prop) (st : stack) : Prop :=
  forall s D Ds, kept st (ss_stack s) -> okst (D :: Ds) (ss_stack s) ->
  exists r s' es ds,
    m s = Some (r, s') /\ ss_errors s' = ss_errors s ++ es /\
    okst ((D ++ ds) :: Ds) (ss_stack s') /\ moved (ss_stack s) (ss_stack s') /\ Q (ss_stack s') /\ P es r.

Lemma tells_conseq {X} (m : M (option X)) (P P' : list serror -> option X -> Prop) st :
  tells m P st -> (forall es r, P es r -> P' es r) -> tells m P' st.
Proof.
  intros H HP s D Ds Hk Hok. destruct (H s D Ds Hk Hok) as (r & s' & es & ds & H1 & H2 & H3 & H4 & H5).
  exists r, s', es, ds. auto 6.
Qed.

Lemma tells_ext {X} (m m' : M (option X)) P st : (forall s, m s = m' s) -> tells m' P st -> tells m P st.
Proof. intros E H s D Ds Hk Hok. rewrite E. auto. Qed.

Lemma tells_bind {X Y} (m : M (option X)) (k : option X -> M (option Y)) P1 P2 (P : list serror -> option Y -> Prop) st :
  tells m P1 st -> (forall r, tells (k r) (P2 r) st) ->
  (forall es1 r1 es2 r2, P1 es1 r1 -> P2 r1 es2 r2 -> P (es1 ++ es2) r2) -> tells (bind m k) P st.
Proof.
  intros H Hw HP s D Ds Hk Hok. destruct (H s D Ds Hk Hok) as (r & s1 & es1 & ds1 & E1 & Eerr & Hok1 & Hk1 & Hl1).
  unfold bind. rewrite E1.
  assert (Hk' : kept st (ss_stack s1)) by (eapply kept_trans; eauto).
  destruct (Hw r s1 (D ++ ds1) Ds Hk' Hok1) as (r2 & s2 & es2 & ds2 & E2 & Eerr2 & Hok2 & Hk2 & Hl2).
  exists r2, s2, (es1 ++ es2), (ds1 ++ ds2). rewrite (app_assoc D). split; [assumption|].
  split; [rewrite Eerr2, Eerr, app_assoc; reflexivity|]. split; [assumption|]. split; [eapply kept_trans; eauto|]. eauto.
Qed.

Lemma gtells_bind {X Y} (m : M (option X)) (k : option X -> M (option Y)) P1 P2 Q1 Q2 (P : list serror -> option Y -> Prop) st :
  gtells m P1 Q1 st -> (forall st' r, Q1 st' -> gtells (k r) (P2 r) Q2 st') ->
  (forall es1 r1 es2 r2, P1 es1 r1 -> P2 r1 es2 r2 -> P (es1 ++ es2) r2) -> gtells (bind m k) P Q2 st.
Proof.
  intros H Hw HP s D Ds Hk Hok. destruct (H s D Ds Hk Hok) as (r & s1 & es1 & ds1 & E1 & Eerr & Hok1 & Hk1 & HQ & Hl1).
  unfold bind. rewrite E1.
  destruct (Hw _ r HQ s1 (D ++ ds1) Ds (kept_refl _) Hok1) as (r2 & s2 & es2 & ds2 & E2 & Eerr2 & Hok2 & Hk2 & HQ2 & Hl2).
  exists r2, s2, (es1 ++ es2), (ds1 ++ ds2). rewrite (app_assoc D). split; [assumption|].
  split; [rewrite Eerr2, Eerr, app_assoc; reflexivity|]. split; [assumption|]. split; [eapply moved_trans; eauto|]. eauto.
Qed.

Lemma gtells_of {X} (m : M (option X)) P here outer st :
  tells m P st -> vis here outer st -> gtells m P (vis here outer) st.
Proof.
  intros H Hv s D Ds Hk Hok. destruct (H s D Ds Hk Hok) as (r & s' & es & ds & H1 & H2 & H3 & H4 & H5).
  exists r, s', es, ds. do 3 (split; [assumption|]). split; [apply moved_kept; eauto|]. split; [|assumption].
  eapply vis_kept; [|exact Hv]. eapply kept_trans; eauto.
Qed.

Lemma gtells_conseq {X} (m : M (option X)) (P P' : list serror -> option X -> Prop) (Q Q' : stack -> Prop) st :
  gtells m P Q st -> (forall es r, P es r -> P' es r) -> (forall st', Q st' -> Q' st') -> gtells m P' Q' st.
Proof.
  intros H HP HQ s D Ds Hk Hok. destruct (H s D Ds Hk Hok) as (r & s' & es & ds & H1 & H2 & H3 & H4 & H5 & H6).
  exists r, s', es, ds. auto 7.
Qed.

(** From what is known of the states, and the errors alone. *)
Lemma tells_of {X} (m : M (option X)) L (P : list serror -> option X -> Prop) st :
  wspec m L st ->
  (forall s D Ds r s', kept st (ss_stack s) -> okst (D :: Ds) (ss_stack s) -> m s = Some (r, s') ->
    exists es, ss_errors s' = ss_errors s ++ es /\ P es r) -> tells m P st.
Proof.
  intros H HP s D Ds Hk Hok. destruct (H s D Ds Hk Hok) as (r & s' & es & ds & H1 & H2 & H3 & H4 & _).
  destruct (HP s D Ds r s' Hk Hok H1) as (es' & E & HP'). exists r, s', es', ds. auto.
Qed.

Lemma tells_ret {X} (r : option X) (P : list serror -> option X -> Prop) st : P [] r -> tells (ret r) P st.
Proof. intros H s D Ds Hk Hok. exists r, s, [], []. rewrite !app_nil_r. repeat split; auto using kept_refl. Qed.

Lemma tells_report {X} k p (r : option X) (P : list serror -> option X -> Prop) st :
  P (fault k p) r -> tells (_ <- report k p ;; ret r) P st.
Proof.
  intros H s D Ds Hk Hok. eexists _, _, (fault k p), []. rewrite app_nil_r. cbn.
  split; [reflexivity|]. cbn. split; [reflexivity|]. split; [assumption|]. split; [apply kept_refl|exact H].
Qed.

(** ** [exactly] and [agrees] *)

Lemma ex_none {X} k p : @exactly X (fault k p) (fault k p) None.
Proof. split; [reflexivity|]. split; [discriminate|auto]. Qed.
Lemma ex_some {X} (x : X) : exactly [] [] (Some x).
Proof. split; [reflexivity|]. split; [intros H; discriminate H|congruence]. Qed.

Lemma none_app {X Y Z} (a : option X) (b : option Y) (c : option Z) (G1 G2 : list serror) :
  (c = None <-> a = None \/ b = None) -> (a = None <-> G1 <> []) -> (b = None <-> G2 <> []) -> (c = None <-> G1 ++ G2 <> []).
Proof.
  intros Hc Ha Hb. rewrite Hc, Ha, Hb. destruct G1 as [|e G1]; cbn [app].
  - split; [intros [H|H]; [now destruct H|exact H]|auto].
  - split; [intros _ H; discriminate H|]. intros _. left. intros H; discriminate H.
Qed.

Lemma ex_app {X Y Z} (a : option X) (b : option Y) (c : option Z) G1 G2 es1 es2 :
  exactly G1 es1 a -> exactly G2 es2 b -> (c = None <-> a = None \/ b = None) -> exactly (G1 ++ G2) (es1 ++ es2) c.
Proof. intros [-> H1] [-> H2] Hc. split; [reflexivity|]. eapply none_app; eassumption. Qed.

Lemma ag_app {X Y Z} (a : option X) (b : option Y) (c : option Z) F1 F2 G1 G2 es1 es2 :
  agrees F1 G1 es1 a -> agrees F2 G2 es2 b -> (c = None <-> a = None \/ b = None) -> agrees (F1 ++ F2) (G1 ++ G2) (es1 ++ es2) c.
Proof.
  intros (A1 & B1 & C1) (A2 & B2 & C2) Hc. split; [|split].
  - apply Forall_app. split; [eapply Forall_impl; [|exact A1]|eapply Forall_impl; [|exact A2]]; intros e [H|H]; auto;
      right; apply in_or_app; auto.
  - now rewrite !filter_app, B1, B2.
  - intros H. apply Forall_app in H as [H1 H2]. destruct (C1 H1) as [-> D1], (C2 H2) as [-> D2]. split; [reflexivity|].
    eapply none_app; eassumption.
Qed.

Lemma ag_ex {X} F G es (r : option X) : incl G F -> exactly G es r -> agrees F G es r.
Proof.
  intros HF [-> Hr]. split; [|split]; auto. apply Forall_forall. auto.
Qed.

Lemma tells_map_ex {X Y} (m : M (option X)) (g : option X -> option Y) G st :
  tells m (exactly G) st -> (forall r, g r = None <-> r = None) -> tells (r <- m ;; ret (g r)) (exactly G) st.
Proof.
  intros H Hg. eapply (tells_bind _ _ _ (fun r es r' => es = [] /\ r' = g r)); [exact H|intros r; apply tells_ret; auto|].
  intros es1 r1 es2 r2 [-> Hr] [-> ->]. rewrite app_nil_r. split; [reflexivity|]. now rewrite Hg.
Qed.

Lemma tells_map {X Y} (m : M (option X)) (g : option X -> option Y) F G st :
  tells m (agrees F G) st -> (forall r, g r = None <-> r = None) -> tells (r <- m ;; ret (g r)) (agrees F G) st.
Proof.
  intros H Hg. eapply (tells_bind _ _ _ (fun r es r' => es = [] /\ r' = g r)); [exact H|intros r; apply tells_ret; auto|].
  intros es1 r1 es2 r2 (A & B & C) [-> ->]. rewrite app_nil_r. split; [exact A|]. split; [exact B|]. now rewrite Hg.
Qed.

Lemma tells_both_ex {X Y Z} (m1 : M (option X)) (m2 : M (option Y)) (g : option X -> option Y -> option Z) G1 G2 st :
  tells m1 (exactly G1) st -> tells m2 (exactly G2) st -> (forall a b, g a b = None <-> a = None \/ b = None) ->
  tells (a <- m1 ;; b <- m2 ;; ret (g a b)) (exactly (G1 ++ G2)) st.
Proof.
  intros H1 H2 Hg. eapply (tells_bind _ _ _ (fun a es c => exists b, exactly G2 es b /\ c = g a b)); [exact H1| |].
  - intros a. eapply (tells_bind _ _ _ (fun b es c => es = [] /\ c = g a b)); [exact H2|intros; apply tells_ret; auto|].
    intros es1 r1 es2 r2 H [-> ->]. rewrite app_nil_r. eauto.
  - intros es1 a es2 c Ha (b & Hb & ->). eapply ex_app; eauto.
Qed.

Lemma tells_both {X Y Z} (m1 : M (option X)) (m2 : M (option Y)) (g : option X -> option Y -> option Z) F1 F2 G1 G2 st :
  tells m1 (agrees F1 G1) st -> tells m2 (agrees F2 G2) st -> (forall a b, g a b = None <-> a = None \/ b = None) ->
  tells (a <- m1 ;; b <- m2 ;; ret (g a b)) (agrees (F1 ++ F2) (G1 ++ G2)) st.
Proof.
  intros H1 H2 Hg. eapply (tells_bind _ _ _ (fun a es c => exists b, agrees F2 G2 es b /\ c = g a b)); [exact H1| |].
  - intros a. eapply (tells_bind _ _ _ (fun b es c => es = [] /\ c = g a b)); [exact H2|intros; apply tells_ret; auto|].
    intros es1 r1 es2 r2 H [-> ->]. rewrite app_nil_r. eauto.
  - intros es1 a es2 c Ha (b & Hb & ->). eapply ag_app; eauto.
Qed.

Ltac gg := intros; repeat match goal with x : option _ |- _ => destruct x end; cbn;
  repeat match goal with x : prod _ _ |- _ => destruct x end; cbn; intuition congruence.

Lemma tells_items_ex {X Y} (f : X -> M (option Y)) (G : X -> list serror) st l :
  Forall (fun x => tells (f x) (exactly (G x)) st) l -> tells (items f l) (exactly (flat_map G l)) st.
Proof.
  induction 1 as [|x l H Hl IH].
  - apply tells_ret, ex_some.
  - cbn [items flat_map]. eapply tells_both_ex; [exact H|exact IH|gg].
Qed.

Lemma tells_items {X Y} (f : X -> M (option Y)) (F G : X -> list serror) st l :
  Forall (fun x => tells (f x) (agrees (F x) (G x)) st) l -> tells (items f l) (agrees (flat_map F l) (flat_map G l)) st.
Proof.
  induction 1 as [|x l H Hl IH].
  - apply tells_ret. apply ag_ex; [apply incl_refl|apply ex_some].
  - cbn [items flat_map]. eapply tells_both; [exact H|exact IH|gg].
Qed.

(** ** Commands *)

Lemma known_in x vars : known x vars = true <-> In x vars.
Proof. unfold known. destruct (in_dec (list_eq_dec Byte.byte_eq_dec) x vars); split; auto; discriminate. Qed.

Lemma resolve_tells vars x p st : plain_name x -> names vars st ->
  tells (resolve x p) (exactly (unless (known x vars) (fault (UndeclaredVariable x) p))) st.
Proof.
  intros Hx Hn. eapply tells_of; [eapply spec_weak, resolve_spec; eassumption|].
  intros s D Ds r s' Hk Hok E. unfold resolve in E.
  destruct (stack_resolve_ok x (ss_stack s) (D :: Ds) Hx Hok) as [[E' Hv]|(j & st' & E' & Hv & Hok' & Hk' & Hd)]; rewrite E' in E.
  - cbn in E. injection E as <- <-. cbn. eexists. split; [reflexivity|].
    assert (known x vars = false) as ->; [|apply ex_none].
    destruct (known x vars) eqn:Ek; [|reflexivity]. apply known_in in Ek. exfalso. apply Hv. apply (visible_kept st); auto. apply Hn; auto.
  - injection E as <- <-. exists []. rewrite app_nil_r. split; [reflexivity|].
    assert (known x vars = true) as ->; [|apply ex_some]. apply known_in. apply Hn; auto. eapply visible_kept; eauto.
Qed.

Lemma unit_tells vars u st : plain_unit u -> names vars st -> tells (analyze_unit u) (exactly (unit_faults vars u)) st.
Proof.
  intros Hu Hn. destruct u as [s|x p]; cbn [analyze_unit unit_faults].
  - apply tells_ret, ex_some.
  - cbn in Hu. rewrite plain_not_ill by assumption.
    eapply (tells_map_ex _ (fun r => match r with Some ix => Some (XUDollar ix p) | None => None end)); [now apply resolve_tells|gg].
Qed.

Lemma part_tells vars p st : wf_part p -> names vars st -> tells (analyze_part p) (exactly (part_faults vars p)) st.
Proof.
  intros Hp Hn. destruct p as [u|[]]; cbn [analyze_part part_faults]; [|apply tells_ret, ex_some..].
  eapply (tells_map_ex _ (option_map XPUnit)); [now apply unit_tells|gg].
Qed.

Lemma argument_tells vars a st : wf_argument a -> names vars st -> tells (analyze_argument a) (exactly (argument_faults vars a)) st.
Proof.
  intros [Hp Ha] Hn. unfold analyze_argument, is_ill_argument, argument_faults. destruct a as [ps q]; cbn [arg_parts arg_pos] in *.
  assert (is_ill_pos q = false) as ->.
  { unfold is_ill_pos. unfold wf_pos in Ha. destruct (N.eqb_spec (line q) 0); [lia|reflexivity]. }
  eapply (tells_map_ex _ (fun r => match r with Some ps => Some (mkxarg ps q) | None => None end)); [apply tells_items_ex|gg].
  eapply Forall_impl; [|exact Hp]. intros; now apply part_tells.
Qed.

Lemma arguments_tells vars l st : Forall wf_argument l -> names vars st ->
  tells (items analyze_argument l) (exactly (flat_map (argument_faults vars) l)) st.
Proof. intros H Hn. apply tells_items_ex. eapply Forall_impl; [|exact H]. intros; now apply argument_tells. Qed.

Lemma redirection_tells vars r st : wf_redirection r -> names vars st ->
  tells (analyze_redirection r) (exactly (redirection_faults vars r)) st.
Proof.
  intros Hr Hn. destruct r as [|src [fd|a|a]|lit a]; cbn [analyze_redirection redirection_faults wf_redirection] in *; [contradiction|..].
  - apply tells_ret, ex_some.
  - eapply (tells_map_ex _ (option_map (fun a => XOutput src (XOverwrite a)))); [now apply argument_tells|gg].
  - eapply (tells_map_ex _ (option_map (fun a => XOutput src (XAppend a)))); [now apply argument_tells|gg].
  - eapply (tells_map_ex _ (option_map (XInput lit))); [now apply argument_tells|gg].
Qed.

Lemma env_item_tells vars kv st : plain_unit (fst kv) /\ wf_argument (snd kv) -> names vars st ->
  tells (analyze_env_item kv) (exactly (env_faults true vars kv)) st.
Proof.
  intros [H1 H2] Hn. unfold analyze_env_item, env_faults.
  eapply (tells_bind _ _ _ (fun k es (r : option (xunit * xargument)) => match k with None => es = [] /\ r = None | Some _ => exactly (argument_faults vars (snd kv)) es r end));
    [now apply (unit_tells vars)|..].
  - intros [k|]; [|now apply tells_ret].
    eapply (tells_map_ex _ (fun v => match v with Some v => Some (k, v) | None => None end)); [now apply argument_tells|gg].
  - intros es1 k es2 r [-> Hk] H. destruct k as [k|].
    + destruct (unit_faults vars (fst kv)); [exact H|]. assert (Some k = None) by (apply Hk; discriminate). discriminate.
    + destruct H as [-> ->]. rewrite app_nil_r. assert (Hn' : unit_faults vars (fst kv) <> []) by now apply Hk.
      destruct (unit_faults vars (fst kv)); [congruence|]. split; [reflexivity|]. split; [discriminate|auto].
Qed.

Lemma runs_iff c : runs_builtin c = match builtin_of (bc_program c) with Some _ => true | None => false end.
Proof.
  unfold runs_builtin, builtin_of. destruct (arg_parts (bc_program c)) as [|[[w|]|] [|]]; try reflexivity.
  destruct (known w (map fst builtin_names)) eqn:E.
  - apply known_in in E. cbn in E. repeat (destruct E as [<-|E]; [reflexivity|]). contradiction.
  - assert (N : ~ In w (map fst builtin_names)) by (rewrite <- known_in; congruence). clear E.
    destruct (builtin_of_bytes w) as [b|] eqn:Eb; [|reflexivity]. exfalso. apply N. clear N.
    unfold builtin_of_bytes in Eb.
    repeat match type of Eb with (if bytes_eqb w ?t then _ else _) = _ =>
      let E := fresh in destruct (bytes_eqb w t) eqn:E; [apply bytes_eqb_eq in E; subst; cbn; tauto|] end.
    discriminate.
Qed.

Lemma words_tells vars c (K : _ -> _ -> _ -> _ -> option xbasic) st : wf_basic c -> names vars st ->
  (forall a b x y, K a b x y = None <-> a = None \/ b = None \/ x = None \/ y = None) ->
  tells (program <- analyze_argument (bc_program c) ;;
    env <- items analyze_env_item (bc_env c) ;;
    arguments <- items analyze_argument (bc_arguments c) ;;
    redirections <- items analyze_redirection (bc_redirections c) ;;
    ret (K program env arguments redirections)) (exactly (words_faults true vars c)) st.
Proof.
  intros (H1 & H2 & H3 & H4 & H5) Hn HK. unfold words_faults.
  assert (S2 : tells (items analyze_env_item (bc_env c)) (exactly (flat_map (env_faults true vars) (bc_env c))) st).
  { apply tells_items_ex. eapply Forall_impl; [|exact H2]. intros; now apply env_item_tells. }
  assert (S3 := arguments_tells vars _ st H3 Hn).
  assert (S4 : tells (items analyze_redirection (bc_redirections c)) (exactly (flat_map (redirection_faults vars) (bc_redirections c))) st).
  { apply tells_items_ex. eapply Forall_impl; [|exact H4]. intros; now apply redirection_tells. }
  assert (S1 := argument_tells vars (bc_program c) st H1 Hn).
  eapply (tells_bind _ _ _ (fun a es r => exists b x y, exactly (flat_map (env_faults true vars) (bc_env c) ++ flat_map (argument_faults vars) (bc_arguments c) ++ flat_map (redirection_faults vars) (bc_redirections c)) es
      (match b, x, y with Some _, Some _, Some _ => Some tt | _, _, _ => None end) /\ r = K a b x y)); [exact S1|..].
  - intros a. eapply (tells_bind _ _ _ (fun b es r => exists x y, exactly (flat_map (argument_faults vars) (bc_arguments c) ++ flat_map (redirection_faults vars) (bc_redirections c)) es
      (match x, y with Some _, Some _ => Some tt | _, _ => None end) /\ r = K a b x y)); [exact S2|..].
    + intros b. eapply (tells_bind _ _ _ (fun x es r => exists y, exactly (flat_map (redirection_faults vars) (bc_redirections c)) es y /\ r = K a b x y)); [exact S3|..].
      * intros x. eapply (tells_bind _ _ _ (fun y es r => es = [] /\ r = K a b x y)); [exact S4|intros; apply tells_ret; auto|].
        intros es1 y es2 r Hy [-> ->]. rewrite app_nil_r. eauto.
      * intros es1 x es2 r Hx (y & Hy & ->). exists x, y. split; [|reflexivity]. eapply ex_app; [exact Hx|exact Hy|gg].
    + intros es1 b es2 r Hb (x & y & Hy & ->). exists b, x, y. split; [|reflexivity]. eapply ex_app; [exact Hb|exact Hy|gg].
  - intros es1 a es2 r Ha (b & x & y & Hy & ->). eapply ex_app; [exact Ha|exact Hy|]. rewrite HK. gg.
Qed.

Lemma basic_tells vars c st : wf_basic c -> names vars st -> tells (analyze_basic c) (exactly (basic_faults true vars c)) st.
Proof.
  intros Hw Hn. unfold analyze_basic, basic_faults. rewrite runs_iff. destruct (builtin_of (bc_program c)) as [b|].
  - apply tells_report, ex_none.
  - apply (words_tells vars c (fun program env arguments redirections => match zip program (zip env (zip arguments redirections)) with
         | Some (program, (env, (arguments, redirections))) => Some (mkxbasic program env arguments redirections (bc_abort c) (bc_pos c))
         | None => None end)); auto. gg.
Qed.

Lemma command_tells vars k c st : wf_command c -> names vars st ->
  tells (analyze_command (negb (is_sync k)) c) (exactly (command_faults true vars k c)) st.
Proof.
  intros [H1 H2] Hn. unfold analyze_command, command_faults. cbv zeta. assert (Hr := runs_iff (cmd_head c)). rewrite Hr.
  destruct (builtin_of (bc_program (cmd_head c))) as [b|] eqn:Eb.
  - replace (negb (is_sync k) || negb match cmd_tail c with [] => true | _ => false end || negb match bc_redirections (cmd_head c) with [] => true | _ => false end)
      with (negb (synchronous k && is_nil (cmd_tail c) && is_nil (bc_redirections (cmd_head c)))).
    2:{ destruct k, (cmd_tail c), (bc_redirections (cmd_head c)); reflexivity. }
    destruct (synchronous k && is_nil (cmd_tail c) && is_nil (bc_redirections (cmd_head c))); cbn [negb unseen unless app].
    + eapply (tells_map_ex _ (option_map _)); [apply arguments_tells; [apply H1|assumption]|gg].
    + apply tells_report, ex_none.
  - eapply (tells_both_ex _ _ (fun head tail => match zip head tail with Some (head, tail) => Some (XExternal head tail) | None => None end)); [| |gg].
    + pose proof (basic_tells vars (cmd_head c) st H1 Hn) as H. unfold basic_faults in H. now rewrite Hr in H.
    + apply tells_items_ex. eapply Forall_impl; [|exact H2]. intros; now apply basic_tells.
Qed.

Lemma command_block_tells vars b st : wf_command_block b -> names vars st ->
  tells (analyze_command_block b) (exactly (command_block_faults true vars b)) st.
Proof.
  intros [H1 H2] Hn. unfold analyze_command_block, command_block_faults.
  eapply (tells_both_ex _ _ (fun head tail => match zip head tail with Some (head, tail) => Some (mkxblock (cb_kind b) head tail) | None => None end)); [| |gg].
  - now apply command_tells.
  - apply tells_items_ex. eapply Forall_impl; [|exact H2]. intros; now apply command_tells.
Qed.

Lemma incl_behind G1 F1 G2 F2 : incl G1 F1 -> incl G2 F2 -> incl (behind true G1 G2) (behind false F1 F2).
Proof.
  intros H1 H2. unfold behind. destruct G1 as [|e G1]; cbn [app].
  - now apply incl_appr.
  - now apply incl_appl.
Qed.

Lemma incl_flat {X} (f g : X -> list serror) l : (forall x, incl (f x) (g x)) -> incl (flat_map f l) (flat_map g l).
Proof. intros H. induction l; cbn; [apply incl_refl|]. apply incl_app; [now apply incl_appl|now apply incl_appr]. Qed.

Lemma incl_both {X} (a b c d : list X) : incl a b -> incl c d -> incl (a ++ c) (b ++ d).
Proof. intros. apply incl_app; [now apply incl_appl|now apply incl_appr]. Qed.

Lemma env_incl vars kv : incl (env_faults true vars kv) (env_faults false vars kv).
Proof. apply incl_behind; apply incl_refl. Qed.
Lemma words_incl vars c : incl (words_faults true vars c) (words_faults false vars c).
Proof. apply incl_both; [apply incl_refl|]. apply incl_both; [apply incl_flat, env_incl|apply incl_refl]. Qed.
Lemma basic_incl vars c : incl (basic_faults true vars c) (basic_faults false vars c).
Proof.
  unfold basic_faults. destruct (runs_builtin c); [|apply words_incl]. apply incl_behind; [apply incl_refl|apply words_incl].
Qed.
Lemma command_incl vars k c : incl (command_faults true vars k c) (command_faults false vars k c).
Proof.
  unfold command_faults. cbv zeta. assert (H : incl (words_faults true vars (cmd_head c) ++ flat_map (basic_faults true vars) (cmd_tail c))
    (words_faults false vars (cmd_head c) ++ flat_map (basic_faults false vars) (cmd_tail c))).
  { apply incl_both; [apply words_incl|apply incl_flat, basic_incl]. }
  destruct (runs_builtin (cmd_head c)); [|exact H]. destruct (_ && _).
  - apply incl_both; [cbn; intros e []|apply incl_refl].
  - apply incl_behind; [apply incl_refl|exact H].
Qed.
Lemma command_block_incl vars b : incl (command_block_faults true vars b) (command_block_faults false vars b).
Proof. apply incl_both; [apply command_incl|apply incl_flat; intros; apply command_incl]. Qed.
