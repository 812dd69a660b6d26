(** Proofs about the program around the interpreter. *)
From Coq Require Import Strings.String Lia.
From Verif Require Import Base Lexer Ast Parser Program Sema SemaShapeProofs Value Text StdLib Exec Runtime Main SpecMain
  TextProofs SemaTextProofs LexerTermProofs SpecReport ParserMarkProofs.

Section Main.
Context {W : Type}.
Variable X : ext W.
Variable O : os W.
Variable read_source : option bytes -> W -> (bytes + bytes) * W.



Lemma lexemes_known o text : (o_lex o = true -> forall os, Lexer.lex text <> LexCrash os) -> exists os, lexemes o text = LexDone os.
Proof.
  unfold lexemes. intros H. destruct (o_lex o); [|eauto]. pose proof (lex_total text). specialize (H eq_refl).
  destruct (Lexer.lex text) as [os|os|]; [eauto|exfalso; now apply (H os)|congruence].
Qed.
Lemma static_error_not_run n is_file m o w text w' :
  parse_args is_file (ClapMatches m) = Some (CmdRun o) ->
  read_source (o_script o) w = (inr text, w') -> has_static_error text ->
  (o_lex o = true -> forall os, Lexer.lex text <> LexCrash os) ->
  exists e out, hush X O read_source n is_file (ClapMatches m) w = (e, out, w') /\ process_status e = Some 2%Z.
Proof.
  intros P R (b & les & pes & A & H) L. unfold hush. rewrite P. unfold run_main. rewrite R, A.
  destruct (lexemes_known _ _ L) as [os ->].
  destruct (sema b) as [p|es|] eqn:S; [|eexists _, _; split; reflexivity|exfalso; exact (sema_no_crash b S)].
  destruct (syntax_errors text) as [|? ?] eqn:E; [|eexists _, _; split; reflexivity].
  apply (no_errors_iff _ _ _ _ A) in E as [-> ->]. destruct H as [H|[H|[es H]]]; congruence.
Qed.

Lemma accepted_lexed o text p : accepted text p ->
  (exists os, lexemes o text = LexDone os) /\ syntax_errors text = [].
Proof.
  intros (b & A & S). split; [|apply (no_errors_iff _ _ _ _ A); split; reflexivity].
  apply lexemes_known. intros _ os E. destruct (analysis_done _ _ _ A) as [os' E']. congruence.
Qed.
Lemma check_not_run n is_file m o w text w' :
  parse_args is_file (ClapMatches m) = Some (CmdRun o) -> o_check o = true ->
  read_source (o_script o) w = (inr text, w') ->
  (forall p, accepted text p -> exists e out, hush X O read_source n is_file (ClapMatches m) w = (e, out, w') /\ process_status e = Some 0%Z) /\
  (forall e out w2, hush X O read_source n is_file (ClapMatches m) w = (e, out, w2) -> w2 = w').
Proof.
  intros P C R. unfold hush. rewrite P. unfold run_main. rewrite R, C. split.
  - intros p H. destruct (accepted_lexed o _ _ H) as ([os L] & E). destruct H as (b & A & S). rewrite A, S, L, E. eexists _, _. split; reflexivity.
  - intros e out w2. destruct (analyze text) as [b les pes| |]; try congruence. destruct (lexemes o text); try congruence.
    destruct (sema b) as [p|es|]; try congruence. destruct (syntax_errors text); congruence.
Qed.

Lemma run_status n is_file m o w text w' p :
  parse_args is_file (ClapMatches m) = Some (CmdRun o) -> o_check o = false ->
  read_source (o_script o) w = (inr text, w') -> accepted text p ->
  let path := match o_script o with Some p => p | None => bs "<stdin>" end in
  let r := hush X O read_source n is_file (ClapMatches m) w in
  match run_program X O true false n path p (o_args o) w' with
  | Val _ s => process_status (fst (fst r)) = Some 0%Z /\ snd r = st_world s
  | Pan e s => process_status (fst (fst r)) = Some 127%Z /\ snd r = st_world s /\ In (ShPanic e) (snd (fst r))
  | Exit c s => process_status (fst (fst r)) = Some (c mod 256)%Z /\ snd r = st_world s
  | Crash _ => process_status (fst (fst r)) = Some 101%Z
  | Fuel => process_status (fst (fst r)) = None
  end.
Proof.
  intros P C R H. cbv zeta. destruct (accepted_lexed o _ _ H) as ([os L] & E). destruct H as (b & A & S).
  unfold hush. rewrite P. unfold run_main. rewrite R, A, S, C, L, E.
  destruct (run_program _ _ _ _ _ _ _ _ _); cbn [fst snd]; auto. split; [reflexivity|]. split; [reflexivity|].
  apply in_or_app. right. left. reflexivity.
Qed.

Lemma nothing_to_run n is_file w :
  (forall c what code, In (c, what, code) [(ClapHelp, ShHelp, 0%Z); (ClapVersion, ShVersion, 0%Z); (ClapError, ShArgError, 1%Z)] ->
     exists e, hush X O read_source n is_file c w = (e, [what], w) /\ process_status e = Some code) /\
  (forall m o err w', parse_args is_file (ClapMatches m) = Some (CmdRun o) -> read_source (o_script o) w = (inl err, w') ->
     exists e, hush X O read_source n is_file (ClapMatches m) w = (e, [ShUnreadable err], w') /\ process_status e = Some 127%Z).
Proof.
  split.
  - intros c what code [H|[H|[H|[]]]]; injection H as <- <- <-; (eexists; split; reflexivity).
  - intros m o err w' P R. unfold hush. rewrite P. unfold run_main. rewrite R. eexists. split; reflexivity.
Qed.

(** What is reported *)
Lemma syntax_shown n is_file m o w text w' b les pes :
  parse_args is_file (ClapMatches m) = Some (CmdRun o) -> read_source (o_script o) w = (inr text, w') ->
  analyze text = Analysis b les pes ->
  let out := snd (fst (hush X O read_source n is_file (ClapMatches m) w)) in
  (forall es, In (ShSyntaxErrors es) out <-> es = syntax_errors text /\ es <> []).
Proof.
  intros P R A. cbv zeta. unfold hush. rewrite P. unfold run_main. rewrite R, A. intros es.
  assert (N : forall e l, e <> ShSyntaxErrors es -> (In (ShSyntaxErrors es) (e :: l) <-> In (ShSyntaxErrors es) l)).
  { intros e l D. split; [intros [H|H]; [congruence|exact H]|now right]. }
  assert (G : forall l, ~ In (ShSyntaxErrors es) l ->
    (In (ShSyntaxErrors es) (match syntax_errors text with [] => [] | _ => [ShSyntaxErrors (syntax_errors text)] end ++ l) <-> es = syntax_errors text /\ es <> [])).
  { intros l H. rewrite in_app_iff. split.
    - intros [I|I]; [|now apply H in I]. destruct (syntax_errors text) eqn:E; [contradiction|]. destruct I as [I|[]]. injection I as <-. split; [reflexivity|discriminate].
    - intros [-> I]. left. destruct (syntax_errors text); [congruence|now left]. }
  destruct (syntax_errors text) as [|e0 es0]; cbv iota in *;
  (destruct (lexemes o text) as [os|os|]; [|cbn [fst snd]; rewrite <- (G []), ?app_nil_r; [reflexivity|intros []]..];
   destruct (sema b) as [p|es1|]; [try (destruct (o_check o); [|match goal with |- context [run_program ?a ?b ?c ?d ?e ?f ?g ?h ?i] => destruct (run_program a b c d e f g h i) end])|..]; cbn [fst snd]; rewrite <- ?app_assoc; apply G;
   destruct (o_lex o), (o_ast o); try destruct (o_program o); cbn [app]; rewrite ?N by discriminate; intros []; try discriminate; contradiction).
Qed.
Lemma semantic_shown n is_file m o w text w' b les pes es :
  parse_args is_file (ClapMatches m) = Some (CmdRun o) -> read_source (o_script o) w = (inr text, w') ->
  analyze text = Analysis b les pes -> sema b = SemaErrors es ->
  (o_lex o = true -> forall os, Lexer.lex text <> LexCrash os) ->
  In (ShSemanticErrors es) (snd (fst (hush X O read_source n is_file (ClapMatches m) w))).
Proof.
  intros P R A S L. unfold hush. rewrite P. unfold run_main. rewrite R, A. destruct (lexemes_known _ _ L) as [os ->]. rewrite S. cbn [fst snd].
  apply in_or_app. right. now left.
Qed.
Lemma lexemes_shown n is_file m o w text w' b les pes os :
  parse_args is_file (ClapMatches m) = Some (CmdRun o) -> read_source (o_script o) w = (inr text, w') ->
  analyze text = Analysis b les pes -> Lexer.lex text = LexDone os -> o_lex o = true ->
  In (ShLexemes os) (snd (fst (hush X O read_source n is_file (ClapMatches m) w))).
Proof.
  intros P R A L E. unfold hush. rewrite P. unfold run_main. rewrite R, A. unfold lexemes. rewrite E, L.
  assert (H : forall l r, In (ShLexemes os) ((l ++ [ShLexemes os] ++ r))) by (intros l r; apply in_or_app; right; now left).
  assert (H2 : forall l x, In (ShLexemes os) l -> In (ShLexemes os) (l ++ x)) by (intros; apply in_or_app; now left).
  destruct (sema b) as [p|es|]; cbn [fst snd]; auto.
  destruct (match syntax_errors text with [] => _ | _ => _ end); cbn [fst snd]; auto. destruct (o_check o); cbn [fst snd]; auto.
  destruct (run_program _ _ _ _ _ _ _ _ _); cbn [fst snd]; auto.
Qed.

Lemma script_args_unique is_file l :
  script_args is_file l (fst (script_of is_file l)) (snd (script_of is_file l)).
Proof.
  destruct l as [|a r]; [constructor|]. cbn [script_of]. destruct (bytes_eqb a (bs "-")) eqn:E.
  - apply bytes_eqb_eq in E. subst a. constructor.
  - assert (N : a <> bs "-") by (intros ->; rewrite (proj2 (bytes_eqb_eq _ _) eq_refl) in E; discriminate).
    destruct (is_file a) eqn:F; cbn [fst snd]; constructor; assumption.
Qed.
Lemma parsed_args is_file m script args :
  script_args is_file (m_arguments m) script args ->
  parse_args is_file (ClapMatches m) = Some (CmdRun (mkoptions script (m_check m) (m_lex m) (m_ast m) (m_program m) args)).
Proof.
  intros H. unfold parse_args. pose proof (script_args_unique is_file (m_arguments m)) as U.
  destruct (script_of is_file (m_arguments m)) as [s a]. cbn [fst snd] in U.
  destruct H; inversion U; subst; try reflexivity; try congruence.
Qed.
End Main.

(** [std.args] gives the arguments of the script. *)
Lemma std_args_initial {W} (X : ext W) (O : os W) n obj p args (w : W) :
  exists l s, ev_call (run X O true false (S n)) obj (FRust (NStd SArgs)) 0 p (initial args w) = Val (VArr l) s /\
    arr_get (st_heap s) l = map VStr args.
Proof. eexists _, _. split; reflexivity. Qed.
