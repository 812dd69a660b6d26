(** The analyser on trees read from text. *)
From Coq Require Import Strings.String.
From Verif Require Import Base Lexer Ast Parser Program Sema SpecLexer SpecParser SpecSema SpecProgram
  ParserFactsProofs SemaProofs SemaShapeProofs SemaMainProofs SemaFactsProofs.

Lemma text_accepted src b les p : analyze src = Analysis b les [] -> sema b = SemaOk p -> legal b /\ addressed b p.
Proof. intros H. apply sema_correct. eapply analyze_wf; eauto. Qed.

Lemma text_illegal src b les : analyze src = Analysis b les [] -> ~ legal b -> exists e es, sema b = SemaErrors (e :: es).
Proof.
  intros H Hl. destruct (sema_correct b (analyze_wf _ _ _ H)) as [H1 H2]. destruct (sema b) as [p|es|] eqn:E.
  - destruct (H1 p eq_refl). contradiction.
  - destruct (H2 es eq_refl) as [Hn _]. destruct es; [congruence|eauto].
  - destruct (sema_no_crash b E).
Qed.

Lemma text_legal src b les : analyze src = Analysis b les [] -> legal b ->
  (exists p, sema b = SemaOk p) \/
  (exists es, sema b = SemaErrors es /\ es <> [] /\ Forall (fun e => exists k, se_kind e = DuplicateKey k) es).
Proof.
  intros H Hl. destruct (sema_correct b (analyze_wf _ _ _ H)) as [H1 H2]. destruct (sema b) as [p|es|] eqn:E; [eauto|..].
  - right. exists es. destruct (H2 es eq_refl) as [Hn Hd]. auto.
  - destruct (sema_no_crash b E).
Qed.

Lemma text_placed src b les p : analyze src = Analysis b les [] -> sema b = SemaOk p -> placed_block false false b.
Proof. intros H1 H2. destruct (text_accepted _ _ _ _ H1 H2) as [H _]. eapply legal_placed, H. Qed.

Lemma text_valid src b les p : analyze src = Analysis b les [] -> sema b = SemaOk p -> valid_program p.
Proof. intros H1 H2. destruct (text_accepted _ _ _ _ H1 H2) as [_ H]. eapply addressed_valid, H. Qed.

Lemma text_builtins src b les p : analyze src = Analysis b les [] -> sema b = SemaOk p -> Forall standalone (blocks_block b).
Proof. intros H1 H2. destruct (text_accepted _ _ _ _ H1 H2) as [H _]. eapply legal_blocks, H. Qed.
